(** Hyperbolic geometry: cosh, acosh, the law of cosines, and where it is monotone. *)
From Coq Require Import Arith NArith ZArith List Bool Reals Lia Lra.
From Flocq Require Import Core.
From Verif Require Import Base Hyp_Model.
Import ListNotations.
Local Open Scope R_scope.

(** ** cosh, sinh, acosh *)
Lemma exp_opp_mul x : exp x * exp (- x) = 1.
Proof. rewrite <- exp_plus, Rplus_opp_r. apply exp_0. Qed.
Lemma cosh_sqr x : cosh x * cosh x - sinh x * sinh x = 1.
Proof. unfold cosh, sinh. pose proof (exp_opp_mul x). nra. Qed.
Lemma cosh_pos x : 0 < cosh x.
Proof. unfold cosh. pose proof (exp_pos x). pose proof (exp_pos (- x)). lra. Qed.
Lemma cosh_ge_1 x : 1 <= cosh x.
Proof. pose proof (cosh_sqr x). pose proof (cosh_pos x). nra. Qed.
Lemma cosh_opp x : cosh (- x) = cosh x.
Proof. unfold cosh. rewrite Ropp_involutive. lra. Qed.
Lemma sinh_opp x : sinh (- x) = - sinh x.
Proof. unfold sinh. rewrite Ropp_involutive. lra. Qed.
Lemma sinh_pos x : 0 < x -> 0 < sinh x.
Proof. intros H. rewrite <- sinh_0. now apply sinh_lt. Qed.
Lemma sinh_nonneg x : 0 <= x -> 0 <= sinh x.
Proof. intros [H| <-]; [left; now apply sinh_pos|rewrite sinh_0; lra]. Qed.
Lemma cosh_plus x y : cosh (x + y) = cosh x * cosh y + sinh x * sinh y.
Proof. unfold cosh, sinh. rewrite Ropp_plus_distr, !exp_plus. lra. Qed.
Lemma cosh_minus x y : cosh (x - y) = cosh x * cosh y - sinh x * sinh y.
Proof. unfold Rminus at 1. rewrite cosh_plus, cosh_opp, sinh_opp. lra. Qed.
Lemma sinh_plus x y : sinh (x + y) = sinh x * cosh y + cosh x * sinh y.
Proof. unfold cosh, sinh. rewrite Ropp_plus_distr, !exp_plus. lra. Qed.
Lemma sinh_minus x y : sinh (x - y) = sinh x * cosh y - cosh x * sinh y.
Proof. unfold Rminus at 1. rewrite sinh_plus, cosh_opp, sinh_opp. lra. Qed.
Lemma cosh_plus_sinh x : cosh x + sinh x = exp x.
Proof. unfold cosh, sinh. lra. Qed.
Lemma cosh_lt x y : 0 <= x -> x < y -> cosh x < cosh y.
Proof.
  intros Hx Hxy. pose proof (cosh_sqr x). pose proof (cosh_sqr y). pose proof (cosh_pos x). pose proof (cosh_pos y).
  pose proof (sinh_nonneg x Hx). pose proof (sinh_lt x y Hxy). nra.
Qed.
Lemma cosh_le x y : 0 <= x -> x <= y -> cosh x <= cosh y.
Proof. intros Hx [H| ->]; [left; now apply cosh_lt|lra]. Qed.
Lemma cosh_Rabs x : cosh (Rabs x) = cosh x.
Proof. unfold Rabs. destruct (Rcase_abs x); [apply cosh_opp|reflexivity]. Qed.
Lemma cosh_le_abs x y : Rabs x <= Rabs y -> cosh x <= cosh y.
Proof. intros H. rewrite <- (cosh_Rabs x), <- (cosh_Rabs y). apply cosh_le; [apply Rabs_pos|exact H]. Qed.

Lemma acosh_cosh x : 0 <= x -> acosh (cosh x) = x.
Proof.
  intros H. unfold acosh. pose proof (cosh_sqr x) as E. replace (cosh x * cosh x - 1) with (sinh x * sinh x) by lra.
  rewrite sqrt_square by now apply sinh_nonneg. rewrite cosh_plus_sinh. apply ln_exp.
Qed.
Lemma acosh_nonneg x : 1 <= x -> 0 <= acosh x.
Proof.
  intros H. unfold acosh. pose proof (sqrt_pos (x * x - 1)). rewrite <- ln_1. destruct (Rle_lt_dec (x + sqrt (x * x - 1)) 1) as [L|L].
  - replace (x + sqrt (x * x - 1)) with 1 by lra. lra.
  - left. apply ln_increasing; lra.
Qed.
Lemma cosh_acosh x : 1 <= x -> cosh (acosh x) = x.
Proof.
  intros H. unfold acosh, cosh. pose proof (sqrt_pos (x * x - 1)) as Hs. assert (Hq : sqrt (x * x - 1) * sqrt (x * x - 1) = x * x - 1) by (apply sqrt_sqrt; nra).
  set (s := sqrt (x * x - 1)) in *. rewrite exp_Ropp, exp_ln by lra.
  assert (E : / (x + s) = x - s). { apply Rmult_eq_reg_l with (x + s); [|lra]. rewrite Rinv_r by lra. nra. }
  rewrite E. lra.
Qed.
Lemma acosh_1 : acosh 1 = 0.
Proof. rewrite <- cosh_0. apply acosh_cosh. lra. Qed.
Lemma acosh_lt x y : 1 <= x -> x < y -> acosh x < acosh y.
Proof.
  intros H1 H2. destruct (Rlt_le_dec (acosh x) (acosh y)) as [L|L]; auto. exfalso.
  apply (cosh_le _ _ (acosh_nonneg y ltac:(lra))) in L. rewrite !cosh_acosh in L by lra. lra.
Qed.
Lemma acosh_le x y : 1 <= x -> x <= y -> acosh x <= acosh y.
Proof. intros H1 [H| ->]; [left; now apply acosh_lt|lra]. Qed.
Lemma acosh_lt_iff x d : 1 <= x -> 0 <= d -> acosh x < d <-> x < cosh d.
Proof.
  intros Hx Hd. split; intros H.
  - apply cosh_lt in H; [|now apply acosh_nonneg]. now rewrite cosh_acosh in H.
  - rewrite <- (acosh_cosh d Hd). now apply acosh_lt.
Qed.
Lemma acosh_gt_iff x d : 1 <= x -> 0 <= d -> d < acosh x <-> cosh d < x.
Proof.
  intros Hx Hd. split; intros H.
  - apply cosh_lt in H; [|exact Hd]. now rewrite cosh_acosh in H.
  - rewrite <- (acosh_cosh d Hd). apply acosh_lt; [apply cosh_ge_1|exact H].
Qed.

(** ** the hyperbolic law of cosines *)
Definition hc (r1 r2 th : R) : R := cosh r1 * cosh r2 - sinh r1 * sinh r2 * cos th.
Lemma hc_sym r1 r2 th : hc r1 r2 th = hc r2 r1 th.
Proof. unfold hc. lra. Qed.
Lemma hc_ge_1 r1 r2 th : 1 <= hc r1 r2 th.
Proof.
  unfold hc. pose proof (COS_bound th) as [C1 C2]. pose proof (cosh_ge_1 (r1 - r2)) as H1. pose proof (cosh_ge_1 (r1 + r2)) as H2.
  rewrite cosh_minus in H1. rewrite cosh_plus in H2. set (s := sinh r1 * sinh r2) in *.
  destruct (Rle_lt_dec 0 s) as [H|H]; nra.
Qed.
Lemma hyp_distance_eq r1 a r2 b : hyp_distance r1 a r2 b = acosh (hc r1 r2 (a - b)).
Proof.
  unfold hyp_distance. f_equal. rewrite cosh_minus.
  replace (cosh r1 * cosh r2 - sinh r1 * sinh r2 + (1 - cos (a - b)) * sinh r1 * sinh r2) with (hc r1 r2 (a - b)) by (unfold hc; ring).
  apply Rmax_right, hc_ge_1.
Qed.
Lemma hyp_distance_0 r1 r2 b : hyp_distance r1 0 r2 b = acosh (hc r1 r2 b).
Proof. rewrite hyp_distance_eq. f_equal. unfold hc. rewrite Rminus_0_l, cos_neg. reflexivity. Qed.

Lemma hc_angle_le r1 r2 a b : 0 <= r1 -> 0 <= r2 -> cos b <= cos a -> hc r1 r2 a <= hc r1 r2 b.
Proof. intros H1 H2 H. unfold hc. pose proof (Rmult_le_pos _ _ (sinh_nonneg _ H1) (sinh_nonneg _ H2)). nra. Qed.

(** A solution of h'' = h that does not start by growing: once it is above its value at 0 it grows *)
Lemma hc_radial r2 th a b : 0 < a -> a <= b -> cosh r2 <= hc a r2 th -> hc a r2 th <= hc b r2 th.
Proof.
  intros Ha Hab H. destruct Hab as [Hab| <-]; [|lra].
  assert (Hi : hc a r2 th * sinh b = cosh r2 * sinh (b - a) + hc b r2 th * sinh a).
  { unfold hc. rewrite sinh_minus. pose proof (cosh_sqr a) as E1. pose proof (cosh_sqr b) as E2. ring_simplify.
    replace (sinh b * cosh r2 * cosh a) with (sinh b * cosh a * cosh r2) by ring. ring. }
  assert (Hs : sinh a + sinh (b - a) <= sinh b).
  { replace b with (a + (b - a)) at 2 by ring. rewrite sinh_plus. pose proof (cosh_ge_1 a). pose proof (cosh_ge_1 (b - a)).
    pose proof (sinh_pos a Ha). pose proof (sinh_pos (b - a) ltac:(lra)). nra. }
  pose proof (sinh_pos a Ha) as Pa. pose proof (sinh_pos (b - a) ltac:(lra)) as Pb. pose proof (hc_ge_1 a r2 th) as P1.
  set (x := hc a r2 th) in *. set (y := hc b r2 th) in *.
  apply Rmult_le_reg_r with (sinh a); [exact Pa|]. nra.
Qed.
(** the monotonicity the generator relies on *)
Lemma hc_mono Rd r1 r1' r2 r2' th : 0 <= r1 <= r1' -> 0 <= r2 <= r2' -> r1' <= Rd -> r2 <= Rd ->
  cosh Rd < hc r1 r2 th -> hc r1 r2 th <= hc r1' r2' th.
Proof.
  intros [H1 H1'] [H2 H2'] Hr1 Hr2 H.
  assert (P1 : 0 < r1).
  { destruct H1 as [|<-]; auto. exfalso. unfold hc in H. rewrite cosh_0, sinh_0 in H. pose proof (cosh_le r2 Rd H2 Hr2). lra. }
  assert (P2 : 0 < r2).
  { destruct H2 as [|<-]; auto. exfalso. unfold hc in H. rewrite cosh_0, sinh_0 in H. pose proof (cosh_le r1 Rd H1 ltac:(lra)). lra. }
  pose proof (cosh_le r2 Rd H2 Hr2) as C2. pose proof (cosh_le r1' Rd ltac:(lra) Hr1) as C1.
  pose proof (hc_radial r2 th r1 r1' P1 H1' ltac:(lra)) as S1.
  pose proof (hc_radial r1' th r2 r2' P2 H2') as S2. rewrite (hc_sym r2 r1'), (hc_sym r2' r1') in S2. specialize (S2 ltac:(lra)). lra.
Qed.

(** the bounds |r1 - r2| <= d <= r1 + r2 *)
Lemma hc_lower r1 r2 th : 0 <= r1 -> 0 <= r2 -> cosh (r1 - r2) <= hc r1 r2 th.
Proof.
  intros H1 H2. rewrite cosh_minus. unfold hc. pose proof (COS_bound th). pose proof (Rmult_le_pos _ _ (sinh_nonneg _ H1) (sinh_nonneg _ H2)). nra.
Qed.
Lemma hc_upper r1 r2 th : 0 <= r1 -> 0 <= r2 -> hc r1 r2 th <= cosh (r1 + r2).
Proof.
  intros H1 H2. rewrite cosh_plus. unfold hc. pose proof (COS_bound th). pose proof (Rmult_le_pos _ _ (sinh_nonneg _ H1) (sinh_nonneg _ H2)). nra.
Qed.

(** ** distances on the circle *)
Definition circ (a b : R) : R := Rmin (Rabs (a - b)) (2 * PI - Rabs (a - b)).
Lemma cos_circ a b : cos (circ a b) = cos (a - b).
Proof.
  assert (E : cos (Rabs (a - b)) = cos (a - b)). { unfold Rabs. destruct (Rcase_abs (a - b)); [apply cos_neg|reflexivity]. }
  unfold circ, Rmin. destruct (Rle_dec _ _); [exact E|]. rewrite <- E. rewrite <- (cos_neg (Rabs (a - b))).
  replace (2 * PI - Rabs (a - b)) with (- Rabs (a - b) + 2 * PI) by ring.
  pose proof (cos_period (- Rabs (a - b)) 1) as P. cbn [INR] in P. rewrite <- P. f_equal. ring.
Qed.
Lemma circ_bounds a b : 0 <= a < 2 * PI -> 0 <= b < 2 * PI -> 0 <= circ a b <= PI.
Proof.
  intros Ha Hb. unfold circ. assert (0 <= Rabs (a - b) < 2 * PI).
  { split; [apply Rabs_pos|]. apply Rabs_def1; lra. }
  unfold Rmin. destruct (Rle_dec _ _); lra.
Qed.
Lemma cos_le_circ a b th : 0 <= a < 2 * PI -> 0 <= b < 2 * PI -> 0 <= th <= circ a b -> cos (a - b) <= cos th.
Proof.
  intros Ha Hb Ht. rewrite <- cos_circ. pose proof (circ_bounds a b Ha Hb). destruct Ht as [H0 [H1|H1]].
  - left. apply cos_decreasing_1; lra.
  - rewrite H1. lra.
Qed.

(** ** numbers *)
Lemma exp_small : (65 / 64) ^ 64 < exp 1 < (64 / 63) ^ 64.
Proof.
  assert (E : exp 1 = exp (1 / 64) ^ 64).
  { rewrite <- Rpower_pow by apply exp_pos. unfold Rpower. rewrite ln_exp. f_equal. replace (INR 64) with 64 by (cbn; lra). lra. }
  assert (H1 : 65 / 64 < exp (1 / 64)) by (pose proof (exp_ineq1 (1 / 64) ltac:(lra)); lra).
  assert (H2 : exp (1 / 64) < 64 / 63).
  { pose proof (exp_ineq1 (- (1 / 64)) ltac:(lra)) as H. rewrite exp_Ropp in H. pose proof (exp_pos (1 / 64)) as P.
    apply Rmult_lt_reg_r with (/ exp (1 / 64)); [now apply Rinv_0_lt_compat|]. rewrite Rinv_r by lra. lra. }
  rewrite E. split.
  - assert (forall n, (0 < n)%nat -> (65 / 64) ^ n < exp (1 / 64) ^ n) as HH; [|apply HH; lia].
    intros n Hn. destruct n as [|n]; [lia|]. clear Hn. induction n as [|n IH]; cbn [pow] in *; [lra|].
    apply Rmult_gt_0_lt_compat; auto; try lra. apply Rmult_lt_0_compat; [lra|apply pow_lt; lra].
  - assert (forall n, (0 < n)%nat -> exp (1 / 64) ^ n < (64 / 63) ^ n) as HH; [|apply HH; lia].
    intros n Hn. destruct n as [|n]; [lia|]. clear Hn. pose proof (exp_pos (1 / 64)) as P. induction n as [|n IH]; cbn [pow] in *; [lra|].
    apply Rmult_gt_0_lt_compat; auto; try lra. apply Rmult_lt_0_compat; [lra|apply pow_lt; lra].
Qed.
