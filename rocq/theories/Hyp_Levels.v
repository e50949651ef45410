(** partitioningBaseLevel and the insertion levels. *)
From Coq Require Import Arith NArith ZArith List Bool Reals Permutation Lia Lra Machin.
From Flocq Require Import Core.
From Verif Require Import Base Coord_Model Coord_Proofs Coord_Geo Tree_Model Hyp_Model Hyp_Math Hyp_Angle.
Import ListNotations.
Local Open Scope R_scope.

(** ** numbers *)
Lemma pow_lt_compat a b n : 0 <= a -> a < b -> (0 < n)%nat -> a ^ n < b ^ n.
Proof.
  intros Ha Hab Hn. destruct n as [|n]; [lia|]. clear Hn. induction n as [|n IH]; [cbn; lra|].
  change (a ^ S (S n)) with (a * a ^ S n). change (b ^ S (S n)) with (b * b ^ S n).
  assert (0 <= a ^ S n) by now apply pow_le. nra.
Qed.
Lemma exp_INR n : exp (INR n) = exp 1 ^ n.
Proof. rewrite <- Rpower_pow by apply exp_pos. unfold Rpower. now rewrite ln_exp, Rmult_1_r. Qed.
Lemma ratpow p q n : (0 < q)%Z -> (IZR p / IZR q) ^ n = IZR (p ^ Z.of_nat n) / IZR (q ^ Z.of_nat n).
Proof.
  intros Hq. unfold Rdiv. rewrite Rpow_mult_distr, pow_inv. rewrite !pow_IZR. reflexivity.
Qed.
Lemma rat_lt a b p q n : (0 < q)%Z -> (0 < b)%Z -> (a * q ^ Z.of_nat n < p ^ Z.of_nat n * b)%Z -> IZR a / IZR b < (IZR p / IZR q) ^ n.
Proof.
  intros Hq Hb H. rewrite ratpow by exact Hq. assert (P : (0 < q ^ Z.of_nat n)%Z) by (apply Z.pow_pos_nonneg; lia).
  apply IZR_lt in H. rewrite !mult_IZR in H. apply IZR_lt in Hb, P.
  apply Rmult_lt_reg_r with (IZR b * IZR (q ^ Z.of_nat n)); [now apply Rmult_lt_0_compat|].
  replace (IZR a / IZR b * (IZR b * IZR (q ^ Z.of_nat n))) with (IZR a * IZR (q ^ Z.of_nat n)) by (field; lra).
  replace (IZR (p ^ Z.of_nat n) / IZR (q ^ Z.of_nat n) * (IZR b * IZR (q ^ Z.of_nat n))) with (IZR (p ^ Z.of_nat n) * IZR b) by (field; lra). exact H.
Qed.
Lemma rat_gt a b p q n : (0 < q)%Z -> (0 < b)%Z -> (p ^ Z.of_nat n * b < a * q ^ Z.of_nat n)%Z -> (IZR p / IZR q) ^ n < IZR a / IZR b.
Proof.
  intros Hq Hb H. rewrite ratpow by exact Hq. assert (P : (0 < q ^ Z.of_nat n)%Z) by (apply Z.pow_pos_nonneg; lia).
  apply IZR_lt in H. rewrite !mult_IZR in H. apply IZR_lt in Hb, P.
  apply Rmult_lt_reg_r with (IZR b * IZR (q ^ Z.of_nat n)); [now apply Rmult_lt_0_compat|].
  replace (IZR a / IZR b * (IZR b * IZR (q ^ Z.of_nat n))) with (IZR a * IZR (q ^ Z.of_nat n)) by (field; lra).
  replace (IZR (p ^ Z.of_nat n) / IZR (q ^ Z.of_nat n) * (IZR b * IZR (q ^ Z.of_nat n))) with (IZR (p ^ Z.of_nat n) * IZR b) by (field; lra). exact H.
Qed.
Lemma e_bounds : 2715 / 1000 < exp 1 < 272095 / 100000.
Proof.
  assert (E : exp 1 = exp (1 / 512) ^ 512).
  { rewrite <- Rpower_pow by apply exp_pos. unfold Rpower. rewrite ln_exp. f_equal. replace (INR 512) with 512 by (rewrite INR_IZR_INZ; reflexivity). lra. }
  assert (H1 : 513 / 512 < exp (1 / 512)) by (pose proof (exp_ineq1 (1 / 512) ltac:(lra)); lra).
  assert (H2 : exp (1 / 512) < 512 / 511).
  { pose proof (exp_ineq1 (- (1 / 512)) ltac:(lra)) as H. rewrite exp_Ropp in H. pose proof (exp_pos (1 / 512)) as P.
    apply Rmult_lt_reg_r with (/ exp (1 / 512)); [now apply Rinv_0_lt_compat|]. rewrite Rinv_r by lra. lra. }
  rewrite E. split.
  - apply Rlt_trans with ((513 / 512) ^ 512); [|apply pow_lt_compat; [lra|exact H1|lia]]. apply rat_lt; [lia|lia|vm_compute; reflexivity].
  - apply Rlt_trans with ((512 / 511) ^ 512); [apply pow_lt_compat; [left; apply exp_pos|exact H2|lia]|]. apply rat_gt; [lia|lia|vm_compute; reflexivity].
Qed.
Lemma PI_upper : PI < 31416 / 10000.
Proof.
  pose proof (proj2 (PI_2_3_7_ineq 2)) as H.
  assert (E : sum_f_R0 (tg_alt PI_2_3_7_tg) (2 * 2) < 7854 / 10000).
  { cbn [Nat.mul Nat.add sum_f_R0]. unfold tg_alt, PI_2_3_7_tg, Ratan_seq. cbn. lra. }
  lra.
Qed.
Lemma PI_sqr : PI * PI < 987 / 100.
Proof. pose proof PI_upper. pose proof PI_RGT_0. nra. Qed.

(** ** partitioningBaseLevel *)
Definition half (l : N) : R := PI / pow2R l.
Lemma half_succ l : half (l + 1) = half l / 2.
Proof. unfold half. rewrite pow2R_add, pow2R_1. pose proof (pow2R_pos l). field. lra. Qed.
Lemma half_range l : 0 < half l <= PI.
Proof.
  unfold half. pose proof (pow2R_ge1 l). pose proof PI_RGT_0. split; [apply Rdiv_lt_0_compat; lra|].
  apply Rmult_le_reg_r with (pow2R l); [lra|]. unfold Rdiv. rewrite Rmult_assoc, Rinv_l by lra. nra.
Qed.
Lemma half_le k l : (k <= l)%N -> half l <= half k.
Proof.
  intros H. unfold half. pose proof PI_RGT_0. pose proof (pow2R_pos k). apply Rmult_le_compat_l; [lra|]. apply Rinv_le_contravar; [lra|].
  unfold pow2R. apply IZR_le. apply N2Z.inj_le, N.pow_le_mono_r; lia.
Qed.
Definition far_at (r1 r2 Rd : R) (k : N) : Prop := cosh Rd < hc r1 r2 (half k).
Lemma pbl_loop_spec r1 r2 Rd : 0 <= Rd -> forall fuel level,
  match pbl_loop fuel r1 r2 Rd level (2 * half level) with
  | Some l => (level <= l <= level + N.of_nat fuel)%N /\ ~ far_at r1 r2 Rd l /\ forall k, (level <= k < l)%N -> far_at r1 r2 Rd k
  | None => forall k, (level <= k <= level + N.of_nat fuel)%N -> far_at r1 r2 Rd k
  end.
Proof.
  intros HR. induction fuel as [|f IH]; intros level; cbn [pbl_loop]; replace (2 * half level / 2) with (half level) by field;
    rewrite hyp_distance_0; destruct (Rltb Rd (acosh (hc r1 r2 (half level)))) eqn:E.
  - apply Rltb_true in E. apply acosh_gt_iff in E; [|apply hc_ge_1|exact HR]. intros k Hk. replace k with level by lia. exact E.
  - apply Rltb_false in E. split; [lia|]. split; [|intros; lia]. intros H. apply (acosh_gt_iff _ Rd (hc_ge_1 _ _ _) HR) in H. lra.
  - apply Rltb_true in E. apply acosh_gt_iff in E; [|apply hc_ge_1|exact HR].
    assert (Hs : half level = 2 * half (level + 1)) by (rewrite half_succ; field). specialize (IH (level + 1)%N). rewrite <- Hs in IH.
    destruct (pbl_loop f r1 r2 Rd (level + 1) (half level)) as [l|].
    + destruct IH as (I1 & I2 & I3). split; [lia|]. split; [exact I2|]. intros k Hk.
      destruct (N.eq_dec k level) as [->|Hn]; [exact E|]. apply I3. lia.
    + intros k Hk. destruct (N.eq_dec k level) as [->|Hn]; [exact E|]. apply IH. lia.
  - apply Rltb_false in E. split; [lia|]. split; [|intros; lia]. intros H. apply (acosh_gt_iff _ Rd (hc_ge_1 _ _ _) HR) in H. lra.
Qed.
Lemma pbl_spec r1 r2 Rd l : 0 <= Rd -> pbl r1 r2 Rd = Some l ->
  ~ far_at r1 r2 Rd l /\ forall k, (k < l)%N -> far_at r1 r2 Rd k.
Proof.
  intros HR H. pose proof (pbl_loop_spec r1 r2 Rd HR 64 0) as S. unfold pbl in H.
  replace (2 * half 0) with (2 * PI) in S by (unfold half; rewrite pow2R_0; field). rewrite H in S. destruct S as (_ & S1 & S2).
  split; [exact S1|]. intros k Hk. apply S2. lia.
Qed.
Lemma pbl_exists r1 r2 Rd k : 0 <= Rd -> (k <= 64)%N -> ~ far_at r1 r2 Rd k -> exists l, pbl r1 r2 Rd = Some l /\ (l <= k)%N.
Proof.
  intros HR Hk H. pose proof (pbl_loop_spec r1 r2 Rd HR 64 0) as S.
  replace (2 * half 0) with (2 * PI) in S by (unfold half; rewrite pow2R_0; field). fold (pbl r1 r2 Rd) in S.
  destruct (pbl r1 r2 Rd) as [l|].
  - exists l. split; [reflexivity|]. destruct S as (_ & _ & S2). destruct (N.le_gt_cases l k) as [|L]; [assumption|].
    exfalso. apply H, S2. lia.
  - exfalso. apply H, S. lia.
Qed.
Lemma pbl_sym r1 r2 Rd : pbl r1 r2 Rd = pbl r2 r1 Rd.
Proof.
  unfold pbl. generalize (2 * PI) 0%N. generalize 64%nat. induction n as [|n IH]; intros d l; cbn [pbl_loop];
    rewrite !hyp_distance_0, (hc_sym r1 r2); destruct (Rltb _ _); auto.
Qed.
(** comparison at level 0 *)
Lemma far_at_0 r1 r2 Rd : 0 <= Rd -> far_at r1 r2 Rd 0 <-> Rd < Rabs (r1 + r2).
Proof.
  intros HR. unfold far_at, half. rewrite pow2R_0. replace (PI / 1) with PI by field. unfold hc. rewrite cos_PI.
  replace (cosh r1 * cosh r2 - sinh r1 * sinh r2 * -1) with (cosh r1 * cosh r2 + sinh r1 * sinh r2) by ring. rewrite <- cosh_plus.
  rewrite <- (cosh_Rabs (r1 + r2)). split; intros H.
  - destruct (Rlt_le_dec Rd (Rabs (r1 + r2))) as [|L]; [assumption|]. apply (cosh_le _ _ (Rabs_pos _)) in L. lra.
  - now apply cosh_lt.
Qed.
Lemma pbl_0 r1 r2 Rd : 0 <= Rd -> Rabs (r1 + r2) <= Rd -> pbl r1 r2 Rd = Some 0%N.
Proof.
  intros HR H. destruct (pbl_exists r1 r2 Rd 0 HR ltac:(lia)) as (l & E & Hl).
  - intros F. apply far_at_0 in F; lra.
  - rewrite E. f_equal. lia.
Qed.
Lemma pbl_0_iff r1 r2 Rd : 0 <= Rd -> pbl r1 r2 Rd = Some 0%N -> Rabs (r1 + r2) <= Rd.
Proof.
  intros HR H. apply pbl_spec in H as [H _]; [|exact HR]. rewrite far_at_0 in H by exact HR. lra.
Qed.
Lemma pbl_mono r1 r2 r1' r2' Rd l' : 0 <= r1 <= r1' -> 0 <= r2 <= r2' -> r1' <= Rd -> r2' <= Rd ->
  pbl r1' r2' Rd = Some l' -> (l' <= 64)%N -> exists l, pbl r1 r2 Rd = Some l /\ (l <= l')%N.
Proof.
  intros H1 H2 HR1 HR2 H Hb. apply pbl_spec in H as [H _]; [|lra]. apply pbl_exists; [lra|exact Hb|]. intros F. apply H.
  unfold far_at in *. eapply Rlt_le_trans; [exact F|]. apply (hc_mono Rd); try lra; auto.
Qed.

(** ** a level at which a layer is not far from the outermost layer *)
Lemma cos_lower th : 0 <= th -> 1 - cos th <= th * th / 2.
Proof.
  intros H. replace th with (2 * (th / 2)) at 1 by field. rewrite cos_2a_sin.
  assert (0 <= th / 2) by lra. assert (S : - (th / 2) <= sin (th / 2) <= th / 2).
  { destruct H0 as [P|<-]; [|rewrite sin_0; lra]. pose proof (sin_lt_x _ P). split; [|lra].
    pose proof (SIN_bound (th / 2)). destruct (Rle_lt_dec 1 (th / 2)); [lra|]. pose proof PI_RGT_0. pose proof PI2_1.
    left. apply Rlt_le_trans with 0; [lra|]. apply sin_ge_0; lra. }
  nra.
Qed.
Lemma level_bound Rd x k : 2 <= Rd -> 0 <= x <= Rd - 1 -> 5 / 6 * exp ((Rd - x) / 2) <= pow2R k ->
  hc (Rd - x - 1) (Rd - 1) (half k) <= cosh Rd.
Proof.
  intros HR Hx Hk.
  assert (E0 : hc (Rd - x - 1) (Rd - 1) (half k) = cosh x + sinh (Rd - x - 1) * sinh (Rd - 1) * (1 - cos (half k))).
  { unfold hc. replace (cosh x) with (cosh ((Rd - x - 1) - (Rd - 1))) by (rewrite <- (cosh_opp x); f_equal; ring). rewrite (cosh_minus (Rd - x - 1) (Rd - 1)). ring. }
  rewrite E0. clear E0. destruct (half_range k) as [Hh _].
  pose proof (cos_lower (half k) ltac:(lra)) as Hc. pose proof e_bounds as [e1 e2]. pose proof PI_sqr as HP. pose proof PI_RGT_0 as P0.
  set (X := exp ((Rd - x) / 2)) in *. assert (HX : 0 < X) by apply exp_pos.
  assert (Hth : half k * half k <= 987 / 100 * (36 / 25) * exp (x - Rd)).
  { assert (E : exp (x - Rd) * (X * X) = 1). { unfold X. rewrite <- !exp_plus. rewrite <- exp_0. f_equal. field. }
    pose proof (exp_pos (x - Rd)) as PE. pose proof (pow2R_pos k) as Pk.
    assert (H1 : half k * pow2R k = PI) by (unfold half; field; lra).
    assert (H2 : half k * (5 / 6 * X) <= PI) by (rewrite <- H1; apply Rmult_le_compat_l; lra).
    assert (H3 : (half k * (5 / 6 * X)) * (half k * (5 / 6 * X)) <= PI * PI).
    { assert (0 <= half k * (5 / 6 * X)) by (apply Rmult_le_pos; lra). nra. }
    assert (H4 : half k * half k * (X * X) <= 987 / 100 * (36 / 25)) by lra.
    apply Rmult_le_reg_r with (X * X); [now apply Rmult_lt_0_compat|]. rewrite (Rmult_assoc _ (exp (x - Rd))), E. lra. }
  assert (S1 : 0 <= sinh (Rd - x - 1) <= exp (Rd - x - 1) / 2).
  { split; [apply sinh_nonneg; lra|]. unfold sinh. pose proof (exp_pos (- (Rd - x - 1))). lra. }
  assert (S2 : 0 <= sinh (Rd - 1) <= exp (Rd - 1) / 2).
  { split; [apply sinh_nonneg; lra|]. unfold sinh. pose proof (exp_pos (- (Rd - 1))). lra. }
  assert (C1 : cosh x <= (exp (Rd - 1) + 1) / 2).
  { unfold cosh. assert (exp x <= exp (Rd - 1)). { destruct (proj2 Hx) as [L| ->]; [left; now apply exp_increasing|lra]. }
    assert (exp (- x) <= 1). { rewrite <- exp_0. destruct (proj1 Hx) as [L| <-]; [left; apply exp_increasing; lra|rewrite Ropp_0; lra]. } lra. }
  assert (C2 : exp Rd / 2 <= cosh Rd) by (unfold cosh; pose proof (exp_pos (- Rd)); lra).
  assert (E1 : exp (Rd - 1) * exp 1 = exp Rd) by (rewrite <- exp_plus; f_equal; ring).
  assert (E2 : exp (Rd - x - 1) * exp (Rd - 1) * exp (x - Rd) * (exp 1 * exp 1) = exp Rd).
  { rewrite <- !exp_plus. f_equal. ring. }
  assert (E3 : 737 / 100 <= exp Rd).
  { apply Rle_trans with (exp 2). { replace 2 with (1 + 1) by ring. rewrite exp_plus. nra. }
    destruct HR as [L| <-]; [left; now apply exp_increasing|lra]. }
  assert (T : sinh (Rd - x - 1) * sinh (Rd - 1) * (1 - cos (half k)) <= 987 / 100 * (36 / 25) / 8 * (exp (Rd - x - 1) * exp (Rd - 1) * exp (x - Rd))).
  { assert (A1 : sinh (Rd - x - 1) * sinh (Rd - 1) <= exp (Rd - x - 1) * exp (Rd - 1) / 4).
    { replace (exp (Rd - x - 1) * exp (Rd - 1) / 4) with ((exp (Rd - x - 1) / 2) * (exp (Rd - 1) / 2)) by field. apply Rmult_le_compat; lra. }
    assert (A2 : 0 <= sinh (Rd - x - 1) * sinh (Rd - 1)) by (apply Rmult_le_pos; lra).
    assert (A3 : 0 <= 1 - cos (half k)) by (pose proof (COS_bound (half k)); lra).
    assert (A4 : 1 - cos (half k) <= 987 / 100 * (36 / 25) / 2 * exp (x - Rd)) by lra.
    replace (987 / 100 * (36 / 25) / 8 * (exp (Rd - x - 1) * exp (Rd - 1) * exp (x - Rd))) with
      (exp (Rd - x - 1) * exp (Rd - 1) / 4 * (987 / 100 * (36 / 25) / 2 * exp (x - Rd))) by field.
    apply Rmult_le_compat; lra. }
  set (Y := exp (Rd - x - 1) * exp (Rd - 1) * exp (x - Rd)) in *.
  assert (PY : 0 < Y) by (unfold Y; repeat apply Rmult_lt_0_compat; apply exp_pos).
  assert (PE : 0 < exp (Rd - 1)) by apply exp_pos.
  assert (F1 : exp (Rd - 1) <= exp Rd * (1000 / 2715)) by nra.
  assert (F2 : Y <= exp Rd * (1000 / 7371)).
  { assert (7371 / 1000 <= exp 1 * exp 1) by nra. nra. }
  lra.
Qed.

Lemma pow2_between x : 1 / 2 < x -> exists k, x <= pow2R k < 2 * x.
Proof.
  intros Hx. set (z := Zceil x). pose proof (Zceil_ub x) as U. fold z in U.
  assert (Hz : (0 < z)%Z) by (apply lt_IZR; lra).
  destruct (Z.eq_dec z 1) as [E1|E1].
  - exists 0%N. rewrite pow2R_0. rewrite E1 in U. lra.
  - exists (N.log2_up (Z.to_N z)). pose proof (N.log2_up_spec (Z.to_N z) ltac:(lia)) as [L1 L2].
    set (k := N.log2_up (Z.to_N z)) in *. assert (Hk : (0 < k)%N) by (apply N.log2_up_pos; lia). split.
    + eapply Rle_trans; [exact U|]. unfold pow2R. apply IZR_le. lia.
    + assert (E2 : (2 ^ k = 2 * 2 ^ N.pred k)%N) by (rewrite <- N.pow_succ_r'; f_equal; lia).
      assert (L3 : IZR (Z.of_N (2 ^ N.pred k)) < x).
      { apply Rle_lt_trans with (IZR (z - 1)); [apply IZR_le; lia|]. pose proof (Zceil_lb x). fold z in H. rewrite minus_IZR. lra. }
      unfold pow2R. rewrite E2, N2Z.inj_mul, mult_IZR. cbn [Z.of_N]. lra.
Qed.

(** ** the insertion levels: layer l has radius at least Rd - l - 1 *)
Definition rmin (Rd : R) (l : nat) : R := layer_rad_min Rd l.
Lemma rmin_eq Rd l : rmin Rd l = Rd - INR l - 1.
Proof. unfold rmin, layer_rad_min. ring. Qed.
Definition lev (Rd : R) (l : nat) : N := match pbl (rmin Rd l) (Rd - 1) Rd with Some k => k | None => 0%N end.
Lemma exp_le a b : a <= b -> exp a <= exp b.
Proof. intros [H| ->]; [left; now apply exp_increasing|lra]. Qed.
Lemma exp_20 : 43 / 10 * exp 20 < IZR (2 ^ 31 - 2).
Proof.
  replace 20 with (INR 20) by (rewrite INR_IZR_INZ; reflexivity). rewrite exp_INR. destruct e_bounds as [H1 H2].
  pose proof (pow_lt_compat (exp 1) (272095 / 100000) 20 ltac:(lra) H2 ltac:(lia)) as H.
  assert (K : (272095 / 100000) ^ 20 < 21474836460 / 43) by (apply rat_gt; [lia|lia|vm_compute; reflexivity]).
  change (IZR (2 ^ 31 - 2)) with 2147483646. lra.
Qed.

(** layers that exist: l < ceil Rd *)
Lemma lev_spec Rd l : 2 / 3 <= Rd <= 40 -> INR l < Rd ->
  pbl (rmin Rd l) (Rd - 1) Rd = Some (lev Rd l) /\ pow2R (lev Rd l) <= 5 / 3 * exp ((Rd - INR l) / 2) /\ (lev Rd l <= 30)%N.
Proof.
  intros HR Hl. pose proof (pos_INR l) as P0.
  assert (G : forall k, pbl (rmin Rd l) (Rd - 1) Rd = Some k -> pow2R k <= 5 / 3 * exp ((Rd - INR l) / 2) ->
     pbl (rmin Rd l) (Rd - 1) Rd = Some (lev Rd l) /\ pow2R (lev Rd l) <= 5 / 3 * exp ((Rd - INR l) / 2) /\ (lev Rd l <= 30)%N).
  { intros k E1 E2. unfold lev. rewrite E1. split; [reflexivity|]. split; [exact E2|].
    destruct (N.le_gt_cases k 30) as [|L]; [assumption|]. exfalso.
    assert (H1 : pow2R 31 <= pow2R k) by (unfold pow2R; apply IZR_le, N2Z.inj_le, N.pow_le_mono_r; lia).
    pose proof exp_20 as H2. pose proof (exp_le ((Rd - INR l) / 2) 20 ltac:(lra)) as H3. pose proof (exp_pos 20).
    change (pow2R 31) with 2147483648 in H1. change (IZR (2 ^ 31 - 2)) with 2147483646 in H2. lra. }
  assert (X1 : 1 <= exp ((Rd - INR l) / 2)) by (rewrite <- exp_0; apply exp_le; lra).
  assert (Z : pbl (rmin Rd l) (Rd - 1) Rd = Some 0%N -> pbl (rmin Rd l) (Rd - 1) Rd = Some (lev Rd l) /\
      pow2R (lev Rd l) <= 5 / 3 * exp ((Rd - INR l) / 2) /\ (lev Rd l <= 30)%N).
  { intros E. apply (G 0%N E). rewrite pow2R_0. lra. }
  destruct (Rle_lt_dec 2 Rd) as [L2|L2]; [destruct (Rle_lt_dec (INR l) (Rd - 1)) as [L3|L3]|].
  - destruct (pow2_between (5 / 6 * exp ((Rd - INR l) / 2)) ltac:(lra)) as (k & K1 & K2).
    assert (Hk : (k <= 64)%N).
    { destruct (N.le_gt_cases k 64) as [|L]; [assumption|]. exfalso.
      assert (H1 : pow2R 31 <= pow2R k) by (unfold pow2R; apply IZR_le, N2Z.inj_le, N.pow_le_mono_r; lia).
      pose proof exp_20 as H2. pose proof (exp_le ((Rd - INR l) / 2) 20 ltac:(lra)) as H3. pose proof (exp_pos 20).
      change (pow2R 31) with 2147483648 in H1. change (IZR (2 ^ 31 - 2)) with 2147483646 in H2. lra. }
    destruct (pbl_exists (rmin Rd l) (Rd - 1) Rd k ltac:(lra) Hk) as (lv & E & Hlv).
    + unfold far_at. rewrite rmin_eq. pose proof (level_bound Rd (INR l) k L2 ltac:(lra) K1). lra.
    + apply (G lv E). apply Rle_trans with (pow2R k); [|lra]. unfold pow2R. apply IZR_le, N2Z.inj_le, N.pow_le_mono_r; lia.
  - apply Z, pbl_0; [lra|]. rewrite rmin_eq. apply Rabs_le. lra.
  - apply Z, pbl_0; [lra|]. rewrite rmin_eq. apply Rabs_le.
    assert (INR l <= 1). { change 1 with (INR 1). apply le_INR. assert (INR l < INR 2) by (change (INR 2) with 2; lra). apply INR_lt in H. lia. }
    destruct l as [|l]; [change (INR 0) with 0; lra|]. rewrite S_INR in *. pose proof (pos_INR l). lra.
Qed.

(** [base]: the comparison level of two layers *)
Definition base (Rd : R) (i j : nat) : N := match pbl (rmin Rd i) (rmin Rd j) Rd with Some l => l | None => 0%N end.
Lemma base_sym Rd i j : base Rd i j = base Rd j i.
Proof. unfold base. now rewrite pbl_sym. Qed.
(** radii and discs for which comparison levels exist and do not exceed the insertion levels, given that only the first k layers are used *)
Definition disc_ok (Rd : R) (k : nat) : Prop := 4 / 3 <= Rd \/ Rd <= 1 \/ k = 1%nat.
Lemma base_spec Rd k i j : 2 / 3 <= Rd <= 40 -> disc_ok Rd k -> INR (k - 1) < Rd -> (i < k)%nat -> (j < k)%nat ->
  pbl (rmin Rd i) (rmin Rd j) Rd = Some (base Rd i j) /\ (base Rd i j <= lev Rd i)%N /\ (base Rd i j <= lev Rd j)%N /\ (base Rd i j <= lev Rd 0)%N.
Proof.
  intros HR HD Hk Hi Hj.
  assert (Ii : INR i < Rd) by (eapply Rle_lt_trans; [apply le_INR|exact Hk]; lia).
  assert (Ij : INR j < Rd) by (eapply Rle_lt_trans; [apply le_INR|exact Hk]; lia).
  pose proof (pos_INR i) as Pi. pose proof (pos_INR j) as Pj.
  assert (Z : Rabs (rmin Rd i + rmin Rd j) <= Rd -> pbl (rmin Rd i) (rmin Rd j) Rd = Some (base Rd i j) /\
    (base Rd i j <= lev Rd i)%N /\ (base Rd i j <= lev Rd j)%N /\ (base Rd i j <= lev Rd 0)%N).
  { intros H. unfold base. rewrite pbl_0 by lra. repeat split; lia. }
  assert (Hint : forall n, INR n < 1 -> n = 0%nat). { intros n H. change 1 with (INR 1) in H. apply INR_lt in H. lia. }
  assert (Hint2 : forall n, INR n < 2 -> INR n <= 1). { intros n H. change 2 with (INR 2) in H. apply INR_lt in H. change 1 with (INR 1). apply le_INR. lia. }
  destruct (Rlt_le_dec (rmin Rd i) 0) as [Ni|Ni]; [|destruct (Rlt_le_dec (rmin Rd j) 0) as [Nj|Nj]].
  - apply Z. apply Rabs_le. rewrite !rmin_eq in *. destruct HD as [D1|[D1| ->]].
    + destruct (Rle_lt_dec 2 Rd); [lra|]. pose proof (Hint2 i ltac:(lra)). pose proof (Hint2 j ltac:(lra)). lra.
    + destruct (Req_dec Rd 1) as [->|].
      * rewrite (Hint i), (Hint j) by lra. change (INR 0) with 0. lra.
      * rewrite (Hint i), (Hint j) by lra. change (INR 0) with 0. lra.
    + assert (i = 0%nat) by lia. assert (j = 0%nat) by lia. subst. change (INR 0) with 0 in *. lra.
  - apply Z. apply Rabs_le. rewrite !rmin_eq in *. destruct HD as [D1|[D1| ->]].
    + destruct (Rle_lt_dec 2 Rd); [lra|]. pose proof (Hint2 i ltac:(lra)). pose proof (Hint2 j ltac:(lra)). lra.
    + rewrite (Hint i), (Hint j) by lra. change (INR 0) with 0. lra.
    + assert (i = 0%nat) by lia. assert (j = 0%nat) by lia. subst. change (INR 0) with 0 in *. lra.
  - destruct (lev_spec Rd i HR Ii) as (Li & _ & Bi). destruct (lev_spec Rd j HR Ij) as (Lj & _ & Bj).
    destruct (lev_spec Rd 0 HR ltac:(change (INR 0) with 0; lra)) as (L0 & _ & B0).
    pose proof Ni as Ni'. pose proof Nj as Nj'. rewrite rmin_eq in Ni', Nj'.
    destruct (pbl_mono (rmin Rd i) (rmin Rd j) (rmin Rd i) (Rd - 1) Rd (lev Rd i)) as (l1 & E1 & H1); [rewrite rmin_eq; lra|rewrite rmin_eq; lra|rewrite rmin_eq; lra|lra|exact Li|lia|].
    destruct (pbl_mono (rmin Rd j) (rmin Rd i) (rmin Rd j) (Rd - 1) Rd (lev Rd j)) as (l2 & E2 & H2); [rewrite rmin_eq; lra|rewrite rmin_eq; lra|rewrite rmin_eq; lra|lra|exact Lj|lia|].
    destruct (pbl_mono (rmin Rd i) (rmin Rd j) (rmin Rd 0) (Rd - 1) Rd (lev Rd 0)) as (l3 & E3 & H3);
      [rewrite !rmin_eq; change (INR 0) with 0; lra|rewrite rmin_eq; lra|rewrite rmin_eq; change (INR 0) with 0; lra|lra|exact L0|lia|].
    rewrite pbl_sym in E2. unfold base. rewrite E1 in *. injection E2 as <-. injection E3 as <-. auto.
Qed.

(** a layer reaching over the origin is compared at level 0 *)
Lemma base_pos Rd k i j : 2 / 3 <= Rd <= 40 -> disc_ok Rd k -> INR (k - 1) < Rd -> (i < k)%nat -> (j < k)%nat ->
  (0 < base Rd i j)%N -> 0 <= rmin Rd i /\ 0 <= rmin Rd j.
Proof.
  intros HR HD Hk Hi Hj HB.
  assert (W : forall a b, (a < k)%nat -> (b < k)%nat -> rmin Rd a < 0 -> base Rd a b = 0%N).
  { intros a b Ha Hb Na.
    assert (Ia : INR a < Rd) by (eapply Rle_lt_trans; [apply le_INR|exact Hk]; lia).
    assert (Ib : INR b < Rd) by (eapply Rle_lt_trans; [apply le_INR|exact Hk]; lia).
    pose proof (pos_INR a) as Pa. pose proof (pos_INR b) as Pb.
    assert (Hint : forall n, INR n < 1 -> n = 0%nat). { intros n H. change 1 with (INR 1) in H. apply INR_lt in H. lia. }
    assert (Hint2 : forall n, INR n < 2 -> INR n <= 1). { intros n H. change 2 with (INR 2) in H. apply INR_lt in H. change 1 with (INR 1). apply le_INR. lia. }
    unfold base. rewrite pbl_0; [reflexivity|lra|]. apply Rabs_le. rewrite !rmin_eq in *. destruct HD as [D1|[D1| ->]].
    - destruct (Rle_lt_dec 2 Rd); [lra|]. pose proof (Hint2 a ltac:(lra)). pose proof (Hint2 b ltac:(lra)). lra.
    - rewrite (Hint a), (Hint b) by lra. change (INR 0) with 0. lra.
    - assert (a = 0%nat) by lia. assert (b = 0%nat) by lia. subst. change (INR 0) with 0 in *. lra. }
  destruct (Rlt_le_dec (rmin Rd i) 0) as [Ni|Ni]; [rewrite (W i j Hi Hj Ni) in HB; lia|].
  destruct (Rlt_le_dec (rmin Rd j) 0) as [Nj|Nj]; [rewrite base_sym, (W j i Hj Hi Nj) in HB; lia|]. auto.
Qed.
