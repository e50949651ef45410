(** How likely two points of the hyperbolic disc are to be compared, and mean values over sampled radii. *)
From Coq Require Import Arith NArith ZArith List Bool Reals Lia Lra Psatz.
From Flocq Require Import Core.
From Coquelicot Require Import Coquelicot.
From Verif Require Import Base Coord_Model Coord_Proofs Coord_Geo Tree_Model Girg_Num Hyp_Model Hyp_Math Hyp_Angle Hyp_Levels Hyp_Build HypIn_Model Prop_HypIn Mean Cost_Touch Prop_Cost Prop_Mean Sampling_Model.
Import ListNotations.
Local Open Scope R_scope.

(** the layer of a radius *)
Definition layer_of (Rd r : R) : nat := Z.to_nat (Zfloor (Rd - r)).
Definition ceil_nat (Rd : R) : nat := Z.to_nat (Zceil Rd).
Lemma layer_bounds Rd r : 0 < r <= Rd -> INR (layer_of Rd r) <= Rd - r < INR (layer_of Rd r) + 1.
Proof.
  intros H. unfold layer_of. rewrite INR_IZR_INZ, Z2Nat.id by (apply Zfloor_lub; lra). pose proof (Zfloor_lb (Rd - r)). pose proof (Zfloor_ub (Rd - r)). lra.
Qed.
Lemma ceil_bounds Rd : 0 < Rd -> (1 <= ceil_nat Rd)%nat /\ INR (ceil_nat Rd - 1) < Rd <= INR (ceil_nat Rd).
Proof.
  intros H. unfold ceil_nat. assert (Z1 : (1 <= Zceil Rd)%Z). { pose proof (Zceil_ub Rd). assert (0 < Zceil Rd)%Z by (apply lt_IZR; lra). lia. }
  split; [lia|]. rewrite minus_INR by lia. rewrite INR_IZR_INZ, Z2Nat.id by lia. pose proof (Zceil_ub Rd). pose proof (Zceil_lb Rd). cbn [INR]. lra.
Qed.
Lemma layer_lt Rd r : 0 < r <= Rd -> (layer_of Rd r < ceil_nat Rd)%nat.
Proof. intros H. pose proof (layer_bounds Rd r H). destruct (ceil_bounds Rd ltac:(lra)) as (_ & C). apply INR_lt. lra. Qed.

(** ** numeric facts *)
Lemma sin_lower x : 0 <= x <= PI / 2 -> 58 / 100 * x <= sin x.
Proof.
  intros [H0 H1]. pose proof PI_upper as P. pose proof PI_RGT_0 as P0. destruct (SIN x H0 ltac:(lra)) as [S _].
  assert (B : sin_lb x = x - x ^ 3 / 6 + x ^ 5 / 120 - x ^ 7 / 5040). { unfold sin_lb, sin_approx, sin_term. cbn [sum_f_R0 Nat.mul Nat.add fact pow]. rewrite !INR_IZR_INZ. cbn. field. }
  rewrite B in S. assert (X2 : x <= 15708 / 10000) by lra. assert (XX : x * x <= 2468 / 1000) by nra.
  assert (Q : x - x ^ 3 / 6 + x ^ 5 / 120 - x ^ 7 / 5040 = x * (1 - x * x / 6) + x * ((x * x) * (x * x)) * (1 / 120 - x * x / 5040)) by field.
  assert (T2 : 0 <= x * ((x * x) * (x * x)) * (1 / 120 - x * x / 5040)). { apply Rmult_le_pos; [|lra]. apply Rmult_le_pos; [lra|]. apply Rmult_le_pos; apply Rmult_le_pos; lra. }
  assert (T1 : x * (58 / 100) <= x * (1 - x * x / 6)) by (apply Rmult_le_compat_l; lra). lra.
Qed.
Lemma cos_gap_lower x : 0 <= x <= PI -> 168 / 1000 * (x * x) <= 1 - cos x.
Proof.
  intros H. replace x with (2 * (x / 2)) at 3 by field. rewrite cos_2a_sin. pose proof (sin_lower (x / 2) ltac:(lra)) as S. assert (P0 : 0 <= 58 / 100 * (x / 2)) by lra. pose proof (Rmult_le_compat _ _ _ _ P0 P0 S S) as Q. replace (58 / 100 * (x / 2) * (58 / 100 * (x / 2))) with (841 / 10000 * (x * x)) in Q by field. assert (0 <= x * x) by (apply Rmult_le_pos; lra). lra.
Qed.
Lemma exp2_ge : 7 <= exp 2.
Proof. replace 2 with (1 + 1) by lra. rewrite exp_plus. pose proof e_bounds. nra. Qed.
Lemma sinh_exp x : 1 <= x -> 3 / 7 * exp x <= sinh x.
Proof.
  intros H. unfold sinh. pose proof (exp_pos x) as P. assert (E : exp (- x) * exp 2 <= exp x). { rewrite <- exp_plus. apply exp_le. lra. }
  pose proof exp2_ge. pose proof (exp_pos (- x)). assert (exp (- x) * 7 <= exp x) by (eapply Rle_trans; [apply Rmult_le_compat_l; [lra|eassumption]|exact E]). lra.
Qed.
Lemma cosh_exp x : 2 <= x -> cosh x <= 52 / 100 * exp x.
Proof.
  intros H. unfold cosh. pose proof (exp_pos x) as P. assert (E : exp (- x) * (exp 2 * exp 2) <= exp x). { rewrite <- !exp_plus. apply exp_le. lra. }
  pose proof exp2_ge as E2. pose proof (exp_pos (- x)). assert (49 <= exp 2 * exp 2) by nra. assert (exp (- x) * 49 <= exp x) by (eapply Rle_trans; [apply Rmult_le_compat_l; [lra|eassumption]|exact E]). lra.
Qed.
Lemma near_radius Rd r1 r2 : 4 / 3 <= Rd <= 40 -> 0 < r1 <= Rd -> 0 < r2 <= Rd ->
  near_prob (base Rd (layer_of Rd r1) (layer_of Rd r2)) <= 12 * exp ((Rd - r1 - r2) / 2).
Proof.
  intros HR H1 H2. set (i := layer_of Rd r1). set (j := layer_of Rd r2). pose proof (near_prob_le1 (base Rd i j)) as [_ N1]. pose proof e_bounds as EB.
  assert (SM : forall a b, 0 < a < 2 -> b <= Rd -> 1 <= 12 * exp ((Rd - a - b) / 2)).
  { intros a b Ha Hb. apply Rle_trans with (12 * exp (- (1))). 2:{ apply Rmult_le_compat_l; [lra|]. apply exp_le. lra. }
    rewrite exp_Ropp. apply Rmult_le_reg_r with (exp 1); [lra|]. rewrite Rmult_assoc, Rinv_l by lra. lra. }
  destruct (Rlt_le_dec r1 2) as [S1|S1]; [eapply Rle_trans; [exact N1|]; apply SM; lra|].
  destruct (Rlt_le_dec r2 2) as [S2|S2]; [eapply Rle_trans; [exact N1|]; replace (Rd - r1 - r2) with (Rd - r2 - r1) by ring; apply SM; lra|].
  pose proof (layer_bounds Rd r1 H1) as B1. pose proof (layer_bounds Rd r2 H2) as B2. fold i in B1. fold j in B2.
  destruct (ceil_bounds Rd ltac:(lra)) as (_ & CB & _).
  destruct (base_spec Rd (ceil_nat Rd) i j ltac:(lra) (or_introl (proj1 HR)) CB (layer_lt Rd r1 H1) (layer_lt Rd r2 H2)) as (EP & _).
  apply pbl_spec in EP as [NF _]; [|lra]. unfold far_at in NF. apply Rnot_lt_le in NF. set (l := base Rd i j) in *.
  rewrite !rmin_eq in NF. set (m1 := Rd - INR i - 1) in *. set (m2 := Rd - INR j - 1) in *.
  assert (M1 : 1 <= m1 /\ r1 - 1 <= m1) by (unfold m1; lra). assert (M2 : 1 <= m2 /\ r2 - 1 <= m2) by (unfold m2; lra).
  pose proof (sinh_exp m1 (proj1 M1)) as Q1. pose proof (sinh_exp m2 (proj1 M2)) as Q2. pose proof (cosh_exp Rd ltac:(lra)) as QR.
  pose proof (half_range l) as HL. pose proof (cos_gap_lower (half l) ltac:(lra)) as CG. pose proof (pow2R_pos l) as PP. set (S := pow2R l) in *.
  assert (PI9 : 9 <= PI * PI). { pose proof PI2_3_2 as K. unfold PI2 in K. nra. }
  assert (CG2 : 151 / 100 * (/ S * / S) <= 1 - cos (half l)).
  { eapply Rle_trans; [|exact CG]. unfold half. fold S. unfold Rdiv. replace (PI * / S * (PI * / S)) with (PI * PI * (/ S * / S)) by ring. assert (0 < / S) by (now apply Rinv_0_lt_compat). assert (0 <= / S * / S) by nra. nra. }
  unfold hc in NF.
  assert (HC : cosh m1 * cosh m2 - sinh m1 * sinh m2 * cos (half l) = cosh (m1 - m2) + (1 - cos (half l)) * (sinh m1 * sinh m2)) by (rewrite cosh_minus; ring).
  rewrite HC in NF. pose proof (cosh_pos (m1 - m2)) as CP.
  assert (E1 : 0 < exp m1) by apply exp_pos. assert (E2 : 0 < exp m2) by apply exp_pos.
  assert (SS : 9 / 49 * exp (r1 + r2 - 2) <= sinh m1 * sinh m2).
  { apply Rle_trans with ((3 / 7 * exp m1) * (3 / 7 * exp m2)); [|apply Rmult_le_compat; lra]. replace (3 / 7 * exp m1 * (3 / 7 * exp m2)) with (9 / 49 * (exp m1 * exp m2)) by field. rewrite <- exp_plus. apply Rmult_le_compat_l; [lra|]. apply exp_le. lra. }
  assert (SQ : / S * / S <= 188 / 100 * exp (Rd - r1 - r2 + 2)).
  { assert (IS : 0 < / S) by (now apply Rinv_0_lt_compat). pose proof (exp_pos (r1 + r2 - 2)) as E3.
    assert (K : 151 / 100 * (/ S * / S) * (9 / 49 * exp (r1 + r2 - 2)) <= 52 / 100 * exp Rd).
    { eapply Rle_trans; [apply Rmult_le_compat; [nra|lra|exact CG2|exact SS]|]. lra. }
    apply Rmult_le_reg_r with (exp (r1 + r2 - 2)); [exact E3|]. rewrite (Rmult_assoc (188 / 100)), <- exp_plus. replace (Rd - r1 - r2 + 2 + (r1 + r2 - 2)) with Rd by ring. pose proof (exp_pos Rd). lra. }
  eapply Rle_trans; [apply near_prob_le3|]. unfold Rdiv at 1. fold S. assert (IS : 0 < / S) by (now apply Rinv_0_lt_compat).
  set (X := exp ((Rd - r1 - r2) / 2)). assert (PX : 0 < X) by apply exp_pos.
  assert (EX : exp (Rd - r1 - r2 + 2) = X * X * (exp 1 * exp 1)). { unfold X. rewrite <- !exp_plus. f_equal. field. }
  rewrite EX in SQ. assert (E7 : exp 1 * exp 1 <= 7404 / 1000) by nra.
  apply Rnot_lt_le. intros L. assert (L4 : 4 * X < / S) by lra. assert (16 * (X * X) < / S * / S) by nra. assert (X * X * (exp 1 * exp 1) <= X * X * (7404 / 1000)) by (apply Rmult_le_compat_l; [nra|exact E7]). nra.
Qed.

(** ** iterated integrals *)
Lemma points_mean_two_gen d F g m : (forall x, in_cube d x -> is_cube_mean d (F x) (g x)) -> (forall x, in_cube d x -> is_cube_mean d (fun y => F y x) (g x)) -> is_cube_mean d g m ->
  forall n u v, (u < n)%nat -> (v < n)%nat -> u <> v -> is_points_mean n d (fun ps => F (nth u ps []) (nth v ps [])) m.
Proof.
  intros H1 H2 H3. induction n as [|n IH]; intros u v Hu Hv Huv; [lia|]. destruct u as [|u], v as [|v]; [lia| | |].
  - exists g. split; [|exact H3]. intros x Hx. cbn [nth]. apply (points_mean_one d (F x)); [lia|now apply H1].
  - exists g. split; [|exact H3]. intros x Hx. cbn [nth]. apply (points_mean_one d (fun y => F y x)); [lia|now apply H2].
  - exists (fun _ => m). split; [|apply cube_mean_const]. intros x Hx. cbn [nth]. apply IH; lia.
Qed.
(** points with one coordinate *)
Lemma points1_cube n : forall F m, is_points_mean n 1 (fun ps => F (concat ps)) m -> is_cube_mean n F m.
Proof.
  induction n as [|n IH]; intros F m H; [exact H|]. destruct H as (g & Hg & g1 & E1 & HI). exists g1. split; [|exact HI]. intros t Ht.
  specialize (E1 t Ht). cbn [is_cube_mean] in E1. rewrite E1. apply (IH (fun x => F (t :: x))). apply (Hg [t]). split; [reflexivity|]. constructor; [exact Ht|constructor].
Qed.
(** step functions *)
Lemma step_RInt (X : nat -> R) (f : R -> R) (g : nat -> R) : forall m, (forall k, X (S k) <= X k) ->
  (forall k x, (k < m)%nat -> X (S k) < x < X k -> f x = g k) -> is_RInt f (X m) (X 0%nat) (sumR (map (fun k => (X k - X (S k)) * g k) (seq 0 m))).
Proof.
  intros m MO. induction m as [|m IH]; intros H.
  - exact (is_RInt_point (V := R_NormedModule) f (X 0%nat)).
  - rewrite seq_S, map_app. unfold sumR. rewrite fold_right_app. cbn [map fold_right Nat.add].
    assert (E : forall l z, fold_right Rplus z l = z + fold_right Rplus 0 l). { induction l as [|a l IHl]; intros z; cbn; [ring|]. rewrite (IHl z). ring. }
    rewrite E. apply (is_RInt_Chasles (V := R_NormedModule) f (X (S m)) (X m) (X 0%nat)).
    + apply (is_RInt_eq (fun _ => g m) _ _ _ (@scal R_Ring R_NormedModule (X m - X (S m)) (g m))); [apply MO| | |apply (is_RInt_const (V := R_NormedModule))].
      * intros x Hx. symmetry. apply H; [lia|exact Hx].
      * unfold scal; cbn; unfold mult; cbn. ring.
    + apply IH. intros k x Hk. apply H. lia.
Qed.

(** ** sampled radii *)
Section Sampled.
  Variables (alpha Rd : R).
  Hypotheses (Ha : 1 / 2 < alpha) (HR : 4 / 3 <= Rd <= 40).
  Notation a := above_one.
  Notation C := (cosh (alpha * Rd)).
  Lemma above_small : 1 < a <= 11 / 10.
  Proof. split; [apply above_one_gt|]. unfold above_one. assert (/ IZR (2 ^ 52) <= / 10). { apply Rinv_le_contravar; [lra|]. apply IZR_le. lia. } lra. Qed.
  Lemma C_big : 12 / 10 <= C.
  Proof.
    apply Rle_trans with (cosh (2 / 3)); [|apply cosh_le; nra]. unfold cosh. rewrite exp_Ropp. set (e := exp (2 / 3)) in *. assert (P : 0 < e) by apply exp_pos.
    assert (E3 : 7 <= e * e * e). { pose proof exp2_ge as X. replace 2 with (2 / 3 + 2 / 3 + 2 / 3) in X by field. rewrite !exp_plus in X. fold e in X. exact X. }
    assert (L : 19 / 10 <= e). { apply Rnot_lt_le. intros L. assert (e * e <= 361 / 100) by nra. nra. }
    apply Rmult_le_reg_r with (2 * e); [lra|]. replace ((e + / e) / 2 * (2 * e)) with (e * e + 1) by (field; lra). nra.
  Qed.
  Notation rad x := (radius_of alpha Rd x).
  Lemma rad_range x : 0 <= x < 1 -> 0 < rad x <= Rd.
  Proof. intros Hx. apply radius_range; [lra|pose proof above_small; pose proof C_big; lra|lra|exact Hx]. Qed.
  (** the draws that fall into a layer *)
  Definition brk (k : nat) : R := if Rlt_dec (INR k) Rd then Rmax 0 (radius_cdf a alpha Rd (Rd - INR k)) else 0.
  Lemma brk_0 : brk 0 = 1.
  Proof.
    unfold brk. cbn [INR]. destruct (Rlt_dec 0 Rd) as [_|N]; [|lra]. rewrite Rminus_0_r. unfold radius_cdf. pose proof above_small. pose proof C_big. unfold Rdiv. rewrite Rinv_r by lra. apply Rmax_right. lra.
  Qed.
  Lemma brk_last : brk (ceil_nat Rd) = 0.
  Proof. unfold brk. destruct (ceil_bounds Rd ltac:(lra)) as (_ & _ & H). destruct (Rlt_dec _ _) as [L|_]; [lra|reflexivity]. Qed.
  Lemma brk_mono k : brk (S k) <= brk k.
  Proof.
    unfold brk. rewrite S_INR. pose proof above_small as A. pose proof C_big as B. destruct (Rlt_dec (INR k + 1) Rd) as [L|L], (Rlt_dec (INR k) Rd) as [M|M]; try lra; [|apply Rmax_l].
    apply Rle_max_compat_l. unfold radius_cdf. apply Rmult_le_compat_r; [left; apply Rinv_0_lt_compat; lra|]. apply Rplus_le_compat_r. apply cosh_le; nra.
  Qed.
  Lemma brk_layer k x : (k < ceil_nat Rd)%nat -> brk (S k) < x < brk k -> 0 <= x < 1 -> layer_of Rd (rad x) = k.
  Proof.
    intros Hk [X1 X2] Hx. pose proof above_small as A. pose proof C_big as B. pose proof (rad_range x Hx) as RR.
    assert (KR : INR k < Rd). { destruct (ceil_bounds Rd ltac:(lra)) as (_ & H & _). eapply Rle_lt_trans; [apply le_INR|exact H]. lia. }
    assert (U : rad x <= Rd - INR k).
    { apply (radius_law_iff alpha Rd ltac:(lra) ltac:(lra) x (Rd - INR k) ltac:(lra) Hx ltac:(lra)). unfold brk in X2. destruct (Rlt_dec (INR k) Rd) as [_|N]; [|lra]. unfold Rmax in X2. destruct (Rle_dec 0 _); lra. }
    assert (L : Rd - INR k - 1 < rad x).
    { apply Rnot_le_lt. intros N. unfold brk in X1. rewrite S_INR in X1. destruct (Rlt_dec (INR k + 1) Rd) as [D|D]; [|lra].
      apply (radius_law_iff alpha Rd ltac:(lra) ltac:(lra) x (Rd - INR k - 1) ltac:(lra) Hx ltac:(lra)) in N. replace (Rd - INR k - 1) with (Rd - (INR k + 1)) in N by ring. pose proof (Rmax_r 0 (radius_cdf a alpha Rd (Rd - (INR k + 1)))). lra. }
    unfold layer_of. assert (E : Zfloor (Rd - rad x) = Z.of_nat k) by (apply Zfloor_imp; rewrite plus_IZR, <- INR_IZR_INZ; lra). rewrite E. apply Nat2Z.id.
  Qed.
  Definition layer_mean (g : nat -> R) : R := sumR (map (fun k => (brk k - brk (S k)) * g k) (seq 0 (ceil_nat Rd))).
  Lemma layer_RInt g : is_RInt (fun x => g (layer_of Rd (rad x))) 0 1 (layer_mean g).
  Proof.
    pose proof (step_RInt brk (fun x => g (layer_of Rd (rad x))) g (ceil_nat Rd) brk_mono) as H. rewrite brk_0, brk_last in H. apply H. intros k x Hk Hx. f_equal.
    apply brk_layer; auto. assert (0 <= brk (S k)). { unfold brk. destruct (Rlt_dec _ _); [apply Rmax_l|lra]. }
    assert (BM : forall j, brk j <= 1). { intros j. rewrite <- brk_0. induction j as [|j IH]; [lra|]. eapply Rle_trans; [apply brk_mono|exact IH]. } pose proof (BM k). lra.
  Qed.
  (** the exponential of a sampled radius *)
  Notation s := (/ (2 * alpha)).
  Notation h x := (Rpower (a + x * (C - a)) (- s)).
  Lemma exp_rad x : 0 <= x < 1 -> exp (- rad x / 2) <= h x.
  Proof.
    intros Hx. pose proof above_small as A. pose proof C_big as B. set (y := a + x * (C - a)). assert (Y : 1 < y) by (unfold y; nra).
    assert (EY : y = uni a C x) by (unfold y, uni; ring). assert (E : acosh y = alpha * rad x) by (rewrite EY; unfold radius_of; field; lra).
    assert (LE : ln y <= acosh y). { unfold acosh. apply Rcomplements.ln_le; [lra|]. pose proof (sqrt_pos (y * y - 1)). lra. }
    unfold Rpower. fold y. apply exp_le. rewrite E in LE. assert (S0 : 0 < s) by (apply Rinv_0_lt_compat; lra). replace (- rad x / 2) with (- s * (alpha * rad x)) by (field; lra). nra.
  Qed.
  Lemma s_range : 0 < s < 1.
  Proof. split; [apply Rinv_0_lt_compat; lra|]. rewrite <- Rinv_1. apply Rinv_lt_contravar; lra. Qed.
  Lemma h_RInt : is_RInt (fun x => h x) 0 1 ((Rpower C (1 - s) - Rpower a (1 - s)) / ((1 - s) * (C - a))).
  Proof.
    pose proof above_small as A. pose proof C_big as B. pose proof s_range as SR. set (sg := s) in *. clearbody sg.
    set (P := fun x => Rpower (a + x * (C - a)) (1 - sg) / ((1 - sg) * (C - a))).
    replace ((Rpower C (1 - sg) - Rpower a (1 - sg)) / ((1 - sg) * (C - a))) with (@minus R_CompleteNormedModule (P 1) (P 0)).
    2:{ unfold P, minus, plus, opp; cbn. replace (a + 1 * (C - a)) with C by ring. replace (a + 0 * (C - a)) with a by ring. field. lra. }
    apply (is_RInt_derive (V := R_CompleteNormedModule) P (fun x => Rpower (a + x * (C - a)) (- sg))).
    - rewrite Rmin_left, Rmax_right by lra. intros x Hx. assert (Y : 0 < a + x * (C - a)) by nra. unfold P, Rpower. auto_derive; [exact Y|].
      replace ((1 - sg) * ln (a + x * (C - a))) with (ln (a + x * (C - a)) + - sg * ln (a + x * (C - a))) by ring. rewrite exp_plus, exp_ln by exact Y. field. repeat split; lra.
    - rewrite Rmin_left, Rmax_right by lra. intros x Hx. assert (Y : 0 < a + x * (C - a)) by nra. apply (ex_derive_continuous (K := R_AbsRing) (V := R_NormedModule)). unfold Rpower. auto_derive. exact Y.
  Qed.
  Lemma h_mean : (Rpower C (1 - s) - Rpower a (1 - s)) / ((1 - s) * (C - a)) <= 10 * alpha / (2 * alpha - 1) * exp (- Rd / 2).
  Proof.
    pose proof above_small as A. pose proof C_big as B. pose proof s_range as SR. assert (KA : 5 <= 10 * alpha / (2 * alpha - 1)). { apply Rmult_le_reg_r with (2 * alpha - 1); [lra|]. unfold Rdiv. rewrite (Rmult_assoc (10 * alpha)), Rinv_l by lra. lra. }
    destruct (Rle_lt_dec (3 / 2) (alpha * Rd)) as [BIG|SMALL].
    - assert (C2 : 22 / 10 <= C).
      { apply Rle_trans with (cosh (3 / 2)); [|apply cosh_le; nra]. unfold cosh. rewrite exp_Ropp. set (e := exp (3 / 2)). assert (44 / 10 <= e). { unfold e. assert (Q : exp 3 = e * e) by (unfold e; rewrite <- exp_plus; f_equal; field). assert (exp 3 = exp 1 * exp 1 * exp 1) by (rewrite <- !exp_plus; f_equal; ring). pose proof e_bounds. fold e. assert (0 < e) by apply exp_pos. assert (7371 / 1000 <= exp 1 * exp 1) by nra. assert (20 <= exp 1 * exp 1 * exp 1) by nra. nra. }
        assert (0 < / e) by (apply Rinv_0_lt_compat; lra). lra. }
      assert (PA : 0 < Rpower a (1 - s)) by apply exp_pos. assert (EC : Rpower C (1 - s) = C * Rpower C (- s)). { replace (1 - s) with (1 + - s) by ring. rewrite Rpower_plus, Rpower_1 by lra. reflexivity. }
      assert (PC : 0 < Rpower C (- s)) by apply exp_pos.
      assert (HC : Rpower C (- s) <= 2 * exp (- Rd / 2)).
      { assert (LC : alpha * Rd - ln 2 <= ln C). { rewrite <- (ln_exp (alpha * Rd - ln 2)). apply Rcomplements.ln_le; [apply exp_pos|]. unfold Rminus. rewrite exp_plus, exp_Ropp, exp_ln by lra. unfold cosh. pose proof (exp_pos (- (alpha * Rd))). lra. }
        unfold Rpower. replace (2 * exp (- Rd / 2)) with (exp (ln 2 + - Rd / 2)) by (rewrite exp_plus, exp_ln by lra; reflexivity). apply exp_le. assert (L2 : 0 < ln 2) by (rewrite <- ln_1; apply ln_increasing; lra).
        replace (- Rd / 2) with (- s * (alpha * Rd)) by (field; lra). nra. }
      apply Rle_trans with (2 * (2 * exp (- Rd / 2)) / (1 - s)).
      + apply Rle_trans with (2 * Rpower C (- s) / (1 - s)).
        * rewrite EC. set (PA' := Rpower a (1 - s)) in *. set (PC' := Rpower C (- s)) in *. set (u := 1 - s) in *. assert (U0 : 0 < u) by (unfold u; lra). clearbody PA' PC' u. clear EC HC.
          apply Rmult_le_reg_r with (u * (C - a)); [apply Rmult_lt_0_compat; lra|].
          replace ((C * PC' - PA') / (u * (C - a)) * (u * (C - a))) with (C * PC' - PA') by (field; lra).
          replace (2 * PC' / u * (u * (C - a))) with (2 * PC' * (C - a)) by (field; lra). nra.
        * unfold Rdiv. apply Rmult_le_compat_r; [left; apply Rinv_0_lt_compat; lra|lra].
      + assert (ES : / (1 - s) = 2 * alpha / (2 * alpha - 1)) by (field; lra). unfold Rdiv at 1. rewrite ES. set (E := exp (- Rd / 2)). assert (PE : 0 < E) by apply exp_pos.
        replace (10 * alpha / (2 * alpha - 1) * E) with (10 * (alpha / (2 * alpha - 1) * E)) by (field; lra). replace (2 * (2 * E) * (2 * alpha / (2 * alpha - 1))) with (8 * (alpha / (2 * alpha - 1) * E)) by (field; lra).
        assert (0 < alpha / (2 * alpha - 1) * E) by (apply Rmult_lt_0_compat; [apply Rdiv_lt_0_compat; lra|exact PE]). lra.
    - apply Rle_trans with 1.
      + eapply (is_RInt_le (fun x => h x) (fun _ => 1) 0 1); [lra|apply h_RInt| |].
        * pose proof (is_RInt_const (V := R_NormedModule) 0 1 1) as K. assert (E : @scal R_Ring R_NormedModule (1 - 0) 1 = 1) by (unfold scal; cbn; unfold mult; cbn; ring). exact (eq_ind _ (fun m => is_RInt (fun _ => 1) 0 1 m) K _ E).
        * intros x Hx. unfold Rpower. rewrite <- exp_0. apply exp_le. assert (0 < ln (a + x * (C - a))) by (rewrite <- ln_1; apply ln_increasing; nra). nra.
      + assert (R3 : Rd <= 3) by nra. apply Rle_trans with (5 * exp (- Rd / 2)); [|apply Rmult_le_compat_r; [left; apply exp_pos|exact KA]].
        apply Rle_trans with (5 * exp (- (3 / 2))); [|apply Rmult_le_compat_l; [lra|apply exp_le; lra]]. rewrite exp_Ropp. set (e := exp (3 / 2)).
        assert (Q : exp 3 = e * e) by (unfold e; rewrite <- exp_plus; f_equal; field). assert (Q3 : exp 3 = exp 1 * exp 1 * exp 1) by (rewrite <- !exp_plus; f_equal; ring). pose proof e_bounds as EB. assert (Pe : 0 < e) by apply exp_pos.
        assert (H2 : exp 1 * exp 1 <= 7404 / 1000) by nra. assert (H3 : exp 1 * exp 1 * exp 1 <= 25) by nra. assert (e <= 5) by nra. apply Rmult_le_reg_r with e; [exact Pe|]. rewrite Rmult_assoc, Rinv_l by lra. lra.
  Qed.
  (** the mean over the radii of two points *)
  Definition pair_mean : R := layer_mean (fun i => layer_mean (fun j => near_prob (base Rd i j))).
  Lemma pair_mean_le : pair_mean <= 12 * exp (Rd / 2) * ((10 * alpha / (2 * alpha - 1)) * exp (- Rd / 2)) ^ 2.
  Proof.
    pose proof above_small as A. pose proof C_big as B.
    set (H := (Rpower C (1 - s) - Rpower a (1 - s)) / ((1 - s) * (C - a))). set (K := 12 * exp (Rd / 2)). assert (PK : 0 < K) by (unfold K; pose proof (exp_pos (Rd / 2)); lra).
    assert (PT : forall x y, 0 < x < 1 -> 0 < y < 1 -> near_prob (base Rd (layer_of Rd (rad x)) (layer_of Rd (rad y))) <= K * h x * h y).
    { intros x y Hx Hy. eapply Rle_trans; [apply (near_radius Rd (rad x) (rad y) HR); apply rad_range; lra|]. replace ((Rd - rad x - rad y) / 2) with (Rd / 2 + (- rad x / 2 + - rad y / 2)) by field. rewrite !exp_plus. unfold K.
      rewrite <- Rmult_assoc, (Rmult_assoc (12 * exp (Rd / 2))). apply Rmult_le_compat_l; [unfold K in PK; lra|]. apply Rmult_le_compat; try (left; apply exp_pos); apply exp_rad; lra. }
    assert (IN : forall x, 0 < x < 1 -> layer_mean (fun j => near_prob (base Rd (layer_of Rd (rad x)) j)) <= K * h x * H).
    { intros x Hx. eapply (is_RInt_le _ (fun y => K * h x * h y) 0 1); [lra|apply (layer_RInt (fun j => near_prob (base Rd (layer_of Rd (rad x)) j)))| |].
      - exact (is_RInt_scal (V := R_NormedModule) _ 0 1 (K * h x) H h_RInt).
      - intros y Hy. now apply PT. }
    assert (H0 : 0 <= H). { apply (is_RInt_ge_0 (fun x => h x) 0 1); [lra|apply h_RInt|]. intros x Hx. left. apply exp_pos. }
    assert (OUT : pair_mean <= K * H * H).
    { eapply (is_RInt_le _ (fun x => K * H * h x) 0 1); [lra|apply (layer_RInt (fun i => layer_mean (fun j => near_prob (base Rd i j))))| |].
      - exact (is_RInt_scal (V := R_NormedModule) _ 0 1 (K * H) H h_RInt).
      - intros x Hx. cbv beta. eapply Rle_trans; [now apply IN|]. right. ring. }
    eapply Rle_trans; [exact OUT|]. rewrite Rmult_assoc. apply Rmult_le_compat_l; [lra|]. pose proof h_mean as HM. fold H in HM. cbn [pow]. rewrite Rmult_1_r. apply Rmult_le_compat; assumption.
  Qed.
End Sampled.
