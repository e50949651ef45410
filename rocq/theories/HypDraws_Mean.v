(** The mean over the points of the bound on the expected number of draws of a hyperbolic graph, and what the draws depend on. *)
From Coq Require Import Arith NArith ZArith List Bool Reals Permutation Lia Lra Psatz.
From Flocq Require Import Core.
From Coquelicot Require Import Coquelicot.
From Verif Require Import Base Sched Bits_Model Bits_Proofs Coord_Model Coord_Proofs Coord_Geo IntSort_Model IntSort_Proofs Cover Tree_Model Tree_Proofs Tree_Build Tree_Plan Tree_Run Girg_Model Girg_Proofs Girg_Num
  Prop_Girg Mean Prop_Mean Cost_Touch GirgCost_Model GirgCost_Proofs GirgCost_Count Prop_Cost Prob_Spec Prob Prob_Events Prob_Girg Prob_Law Mean_Cells Draws_Law Draws_Bound Draws_Mean
  Hyp_Model Hyp_Math Hyp_Angle Hyp_Levels Hyp_Build Hyp_Run Hyp_Filter Hyp_Sched Hyp_Threads Hyp_Gen Prop_Hyp HypIn_Model Prop_HypIn Sampling_Model Prob_Hrg Prob_HrgLaw HypCost_Calls HypCost_Mean Prop_HypCost HypWork_Model HypWork_Proofs Prop_HypWork HypDraws_Law HypDraws_Bound.
Import ListNotations.
Local Open Scope R_scope.

(** ** a sum of two geometric series *)
Definition hrho (T : R) : R := Rpower 2 (1 - 1 / T).
Lemma hrho_range T : 0 < T < 1 -> 0 < hrho T < 1.
Proof.
  intros HT. split; [apply exp_pos|]. unfold hrho. apply Rlt_le_trans with (Rpower 2 0); [|rewrite Rpower_O; lra]. apply Rpower_lt; [lra|]. assert (1 < 1 / T); [|lra]. unfold Rdiv. rewrite Rmult_1_l, <- Rinv_1 at 1. apply Rinv_lt_contravar; lra.
Qed.
Lemma two_series b : 0 < b -> forall N (f : nat -> R) Y, 0 < Y -> (forall k, (k < N)%nat -> f k <= / (Y * 2 ^ k) /\ f k <= Rpower (Y * 2 ^ k) b) ->
  sumR (map f (seq 0 N)) <= 2 + / (1 - Rpower 2 (- b)).
Proof.
  intros Hb. set (r := Rpower 2 (- b)). assert (R0 : 0 < r) by apply exp_pos.
  assert (R1 : r < 1). { unfold r. apply Rlt_le_trans with (Rpower 2 0); [|rewrite Rpower_O; lra]. apply Rpower_lt; lra. }
  assert (I1 : 1 < / (1 - r)) by (rewrite <- Rinv_1 at 1; apply Rinv_lt_contravar; lra). set (d := r * / (1 - r)). set (K := 2 + / (1 - r)).
  assert (D1 : 1 + d = / (1 - r)) by (unfold d; field; lra). assert (D0 : 0 < d) by (unfold d; apply Rmult_lt_0_compat; lra).
  assert (PW : forall Y, 0 < Y <= 1 -> 0 < Rpower Y b <= 1). { intros Y HY. split; [apply exp_pos|]. replace 1 with (Rpower 1 b) by (unfold Rpower; rewrite ln_1, Rmult_0_r, exp_0; reflexivity). apply Rpower_mono; lra. }
  assert (P2 : forall Y, 0 < Y -> r * Rpower (Y * 2) b = Rpower Y b).
  { intros Y HY. unfold r. rewrite <- (Rpower_mult_distr Y 2 b) by lra. rewrite Rpower_Ropp. field. apply Rgt_not_eq, exp_pos. }
  set (Phi := fun Y => if Rlt_dec 1 Y then 2 / Y else K - d * Rpower Y b).
  assert (G : forall N (f : nat -> R) Y, 0 < Y -> (forall k, (k < N)%nat -> f k <= / (Y * 2 ^ k) /\ f k <= Rpower (Y * 2 ^ k) b) -> sumR (map f (seq 0 N)) <= Phi Y).
  { induction N as [|N IH]; intros f Y HY H.
    - unfold sumR. cbn [seq map fold_right]. unfold Phi. destruct (Rlt_dec 1 Y) as [L|L]; [left; apply Rdiv_lt_0_compat; lra|]. pose proof (PW Y ltac:(lra)) as PY. assert (0 <= d * (1 - Rpower Y b)) by (apply Rmult_le_pos; lra). unfold K. lra.
    - rewrite <- cons_seq, <- seq_shift. cbn [map]. rewrite sumR_cons, map_map. specialize (IH (fun k => f (S k)) (Y * 2) ltac:(lra)).
      assert (IH' : sumR (map (fun k => f (S k)) (seq 0 N)) <= Phi (Y * 2)). { apply IH. intros k Hk. specialize (H (S k) ltac:(lia)). cbn [pow] in H. rewrite <- Rmult_assoc in H. exact H. }
      destruct (H 0%nat ltac:(lia)) as [H1 H2]. cbn [pow] in H1, H2. rewrite Rmult_1_r in H1, H2. set (s := sumR _) in *. clearbody s. unfold Phi in *. destruct (Rlt_dec 1 Y) as [L|L].
      + destruct (Rlt_dec 1 (Y * 2)) as [L2|L2]; [|lra]. replace (2 / (Y * 2)) with (/ Y) in IH' by (field; lra). unfold Rdiv. lra.
      + pose proof (PW Y ltac:(lra)) as PY. destruct (Rlt_dec 1 (Y * 2)) as [L2|L2].
        * assert (/ Y < 2). { rewrite <- (Rinv_inv 2). apply Rinv_lt_contravar; [|lra]. apply Rmult_lt_0_compat; lra. } replace (2 / (Y * 2)) with (/ Y) in IH' by (field; lra). unfold K. rewrite <- D1. assert (0 <= (1 + d) * (1 - Rpower Y b)) by (apply Rmult_le_pos; lra). lra.
        * pose proof (P2 Y HY) as Q. set (z := Rpower (Y * 2) b) in *. set (w := Rpower Y b) in *. assert (d * z = (1 + d) * w) by (rewrite D1, <- Q; unfold d; field; lra). lra. }
  intros N f Y HY H. eapply Rle_trans; [apply (G N f Y HY H)|]. unfold Phi. destruct (Rlt_dec 1 Y) as [L|L].
  - unfold Rdiv, K. assert (/ Y < 1) by (apply Rmult_lt_reg_l with Y; [lra|]; rewrite Rinv_r by lra; lra). lra.
  - pose proof (PW Y ltac:(lra)) as PY. assert (0 <= d * Rpower Y b) by (apply Rmult_le_pos; lra). unfold K. lra.
Qed.

(** ** the probability of far cells *)
Section Far.
  Variables (T Rd : R).
  Hypotheses (HT : 0 < T < 1) (HR : 4 / 3 <= Rd <= 40).
  Notation X r1 r2 := (exp ((Rd - r1 - r2) / 2)).
  Lemma pfar_01 i j l : 0 < pfar T Rd i j l <= 1.
  Proof.
    unfold pfar. pose proof (rec_gt_1 T Rd (hyp_distance (rmin Rd i) 0 (rmin Rd j) (wid l))) as G. unfold Rdiv. rewrite Rmult_1_l. split; [apply Rinv_0_lt_compat; lra|]. rewrite <- Rinv_1. apply Rinv_le_contravar; lra.
  Qed.
  Lemma pow2R_ge2 l : (1 <= l)%N -> 2 <= pow2R l.
  Proof. intros H. unfold pow2R. apply IZR_le. assert (2 ^ 1 <= 2 ^ l)%N by (apply N.pow_le_mono_r; lia). change (2 ^ 1)%N with 2%N in *. lia. Qed.
  Lemma pfar_le r1 r2 l : 0 < r1 <= Rd -> 0 < r2 <= Rd -> (1 <= l)%N -> pfar T Rd (layer_of Rd r1) (layer_of Rd r2) l <= Rpower (3 * pow2R l * X r1 r2) (1 / T).
  Proof.
    intros H1 H2 Hl. set (i := layer_of Rd r1). set (j := layer_of Rd r2). pose proof e_bounds as EB. pose proof (pow2R_ge2 l Hl) as S2. set (S := pow2R l) in *.
    assert (IT : 0 < 1 / T) by (apply Rdiv_lt_0_compat; lra).
    assert (SM : forall a b, 0 < a < 2 -> b <= Rd -> 1 <= Rpower (3 * S * exp ((Rd - a - b) / 2)) (1 / T)).
    { intros a b Ha Hb. replace 1 with (Rpower 1 (1 / T)) at 1 by (unfold Rpower; rewrite ln_1, Rmult_0_r, exp_0; reflexivity). apply Rpower_mono; [|lra]. split; [lra|].
      apply Rle_trans with (6 * exp (- (1))).
      - rewrite exp_Ropp. apply Rmult_le_reg_r with (exp 1); [lra|]. rewrite Rmult_assoc, Rinv_l by lra. lra.
      - apply Rmult_le_compat; [lra|left; apply exp_pos|lra|apply exp_le; lra]. }
    pose proof (pfar_01 i j l) as [_ P1].
    destruct (Rlt_le_dec r1 2) as [S1|S1]; [eapply Rle_trans; [exact P1|]; apply SM; lra|].
    destruct (Rlt_le_dec r2 2) as [S3|S3]; [eapply Rle_trans; [exact P1|]; replace (Rd - r1 - r2) with (Rd - r2 - r1) by ring; apply SM; lra|].
    pose proof (layer_bounds Rd r1 H1) as B1. pose proof (layer_bounds Rd r2 H2) as B2. fold i in B1. fold j in B2.
    unfold pfar. rewrite hyp_distance_0, !rmin_eq. set (m1 := Rd - INR i - 1). set (m2 := Rd - INR j - 1). set (c := hc m1 m2 (wid l)).
    assert (M1 : 1 <= m1 /\ r1 - 1 <= m1) by (unfold m1; lra). assert (M2 : 1 <= m2 /\ r2 - 1 <= m2) by (unfold m2; lra).
    pose proof (sinh_exp m1 (proj1 M1)) as Q1. pose proof (sinh_exp m2 (proj1 M2)) as Q2. pose proof PI_RGT_0 as P0.
    assert (PI9 : 9 <= PI * PI). { pose proof PI2_3_2 as K. unfold PI2 in K. nra. }
    assert (IS : 0 < / S) by (apply Rinv_0_lt_compat; lra).
    assert (WR : 0 <= wid l <= PI).
    { unfold wid. fold S. split; [left; apply Rdiv_lt_0_compat; lra|]. apply Rmult_le_reg_r with S; [lra|]. replace (2 * PI / S * S) with (2 * PI) by (field; lra). nra. }
    pose proof (cos_gap_lower (wid l) WR) as CG.
    assert (CG2 : 604 / 100 * (/ S * / S) <= 1 - cos (wid l)).
    { eapply Rle_trans; [|exact CG]. unfold wid. fold S. unfold Rdiv. replace (2 * PI * / S * (2 * PI * / S)) with (4 * (PI * PI) * (/ S * / S)) by ring. assert (0 <= / S * / S) by nra. nra. }
    assert (SS : 9 / 49 * exp (r1 + r2 - 2) <= sinh m1 * sinh m2).
    { assert (E1 : 0 < exp m1) by apply exp_pos. assert (E2 : 0 < exp m2) by apply exp_pos.
      apply Rle_trans with ((3 / 7 * exp m1) * (3 / 7 * exp m2)); [|apply Rmult_le_compat; lra]. replace (3 / 7 * exp m1 * (3 / 7 * exp m2)) with (9 / 49 * (exp m1 * exp m2)) by field. rewrite <- exp_plus. apply Rmult_le_compat_l; [lra|]. apply exp_le. lra. }
    assert (HC : c = cosh (m1 - m2) + (1 - cos (wid l)) * (sinh m1 * sinh m2)) by (unfold c, hc; rewrite cosh_minus; ring).
    pose proof (cosh_pos (m1 - m2)) as CP. pose proof (exp_pos (r1 + r2 - 2)) as E3.
    assert (CL : 110 / 100 * (/ S * / S) * exp (r1 + r2 - 2) <= c).
    { rewrite HC. assert (K : 604 / 100 * (/ S * / S) * (9 / 49 * exp (r1 + r2 - 2)) <= (1 - cos (wid l)) * (sinh m1 * sinh m2)) by (apply Rmult_le_compat; [nra|lra|exact CG2|exact SS]).
      assert (0 < / S * / S * exp (r1 + r2 - 2)) by (apply Rmult_lt_0_compat; nra). lra. }
    assert (C1 : 1 <= c) by apply hc_ge_1.
    assert (LC : ln c <= acosh c). { unfold acosh. apply Rcomplements.ln_le; [lra|]. pose proof (sqrt_pos (c * c - 1)). lra. }
    (* 1 / (1 + e^y) <= e^-y *)
    assert (RQ : 1 / connectionProbRec T Rd (acosh c) <= Rpower (exp ((Rd - acosh c) / 2)) (1 / T)).
    { rewrite rec_eq by lra. unfold Rpower. rewrite ln_exp. replace (1 / T * ((Rd - acosh c) / 2)) with (- ((acosh c - Rd) / (2 * T))) by (field; lra). rewrite exp_Ropp. pose proof (exp_pos ((acosh c - Rd) / (2 * T))). unfold Rdiv at 1. rewrite Rmult_1_l. apply Rinv_le_contravar; lra. }
    eapply Rle_trans; [exact RQ|]. apply Rpower_mono; [|lra]. split; [apply exp_pos|].
    apply Rle_trans with (exp (Rd / 2) * exp (- ln c / 2)); [rewrite <- exp_plus; apply exp_le; lra|].
    set (h := exp (- ln c / 2)). assert (H0 : 0 < h) by apply exp_pos. assert (HH : h * h * c = 1). { unfold h. rewrite <- exp_plus. replace (- ln c / 2 + - ln c / 2) with (- ln c) by field. rewrite exp_Ropp, exp_ln by lra. apply Rinv_l. lra. }
    replace ((Rd - r1 - r2) / 2) with (Rd / 2 + - (r1 + r2) / 2) by field. rewrite exp_plus. set (w := exp (- (r1 + r2) / 2)). assert (W0 : 0 < w) by apply exp_pos.
    rewrite (Rmult_comm (exp (Rd / 2)) w), <- Rmult_assoc, (Rmult_comm (exp (Rd / 2)) h). apply Rmult_le_compat_r; [left; apply exp_pos|].
    assert (WW : w * w * exp (r1 + r2 - 2) * (exp 1 * exp 1) = 1). { unfold w. rewrite <- !exp_plus. replace (- (r1 + r2) / 2 + - (r1 + r2) / 2 + (r1 + r2 - 2) + (1 + 1)) with 0 by field. apply exp_0. }
    apply Rnot_lt_le. intros L. set (E := exp (r1 + r2 - 2)) in *. set (q := / S) in *. assert (SQ : S * q = 1) by (unfold q; field; lra).
    assert (L2 : 3 * w < h * q). { apply Rmult_lt_reg_l with S; [lra|]. replace (S * (h * q)) with (h * (S * q)) by ring. rewrite SQ. lra. }
    assert (L3 : 9 * (w * w) < (h * q) * (h * q)) by nra. assert (E7 : exp 1 * exp 1 <= 7404 / 1000) by nra.
    assert (L4 : 9 * (w * w) * E < (h * q) * (h * q) * E) by (apply Rmult_lt_compat_r; assumption).
    assert (L5 : 110 / 100 * ((h * q) * (h * q) * E) <= 1). { rewrite <- HH. replace (110 / 100 * (h * q * (h * q) * E)) with (h * h * (110 / 100 * (q * q) * E)) by ring. apply Rmult_le_compat_l; [nra|exact CL]. }
    assert (0 < w * w * E) by (apply Rmult_lt_0_compat; [nra|exact E3]). nra.
  Qed.
  (** the mean over the angles of the bound for a pair *)
  Definition hmean_bound (i j : nat) : R := near_prob (base Rd i j) + 5 * sumR (map (fun k => near_prob (N.of_nat k) * pfar T Rd i j (N.of_nat k + 1)) (seq 0 (N.to_nat (base Rd i j)))).
  Lemma hmean_bound_sym i j : hmean_bound i j = hmean_bound j i.
  Proof. unfold hmean_bound. rewrite (base_sym Rd i j). do 2 f_equal. apply sumR_ext. intros k _. now rewrite pfar_sym. Qed.
  Lemma hpair_mean i j x : 0 <= x < 1 -> is_RInt (fun y => hpair_bound T Rd i j x y) 0 1 (hmean_bound i j).
  Proof.
    intros Hx. assert (NM : forall l, is_RInt (fun y => near1R l x y) 0 1 (near_prob l)) by (intros l; now apply near1_mean). unfold hpair_bound, hmean_bound.
    apply (is_RInt_plus (V := R_NormedModule) (fun y => near1R (base Rd i j) x y)); [apply NM|]. apply (is_RInt_scal (V := R_NormedModule) _ 0 1 5).
    generalize (seq 0 (N.to_nat (base Rd i j))) as L. induction L as [|k L IH].
    - cbn [map]. rewrite sumR_nil. apply (is_RInt_ext (fun _ => 0)); [reflexivity|]. pose proof (is_RInt_const (V := R_NormedModule) 0 1 0) as K. assert (E : @scal R_Ring R_NormedModule (1 - 0) 0 = 0) by (unfold scal; cbn; unfold mult; cbn; ring). exact (eq_ind _ (fun m => is_RInt (fun _ => 0) 0 1 m) K _ E).
    - cbn [map]. rewrite sumR_cons. apply (is_RInt_ext (fun y => pfar T Rd i j (N.of_nat k + 1) * near1R (N.of_nat k) x y + sumR (map (fun k => near1R (N.of_nat k) x y * pfar T Rd i j (N.of_nat k + 1)) L))); [intros y _; rewrite sumR_cons; f_equal; apply Rmult_comm|].
      rewrite (Rmult_comm (near_prob _)). apply (is_RInt_plus (V := R_NormedModule)); [|exact IH]. apply (is_RInt_scal (V := R_NormedModule) _ 0 1 (pfar T Rd i j (N.of_nat k + 1))). apply NM.
  Qed.
  Definition kdraws : R := 192 + 90 / (1 - hrho T).
  Lemma kdraws_pos : 0 < kdraws.
  Proof. pose proof (hrho_range T HT). unfold kdraws. assert (0 < 90 / (1 - hrho T)) by (apply Rdiv_lt_0_compat; lra). lra. Qed.
  Lemma hmean_bound_le r1 r2 : 0 < r1 <= Rd -> 0 < r2 <= Rd -> hmean_bound (layer_of Rd r1) (layer_of Rd r2) <= kdraws * X r1 r2.
  Proof.
    intros H1 H2. pose proof (near_radius Rd r1 r2 HR H1 H2) as NR. set (x := X r1 r2) in *. assert (X0 : 0 < x) by apply exp_pos. unfold hmean_bound. set (i := layer_of Rd r1) in *. set (j := layer_of Rd r2) in *. set (M := N.to_nat (base Rd i j)).
    pose proof (hrho_range T HT) as RR. assert (IT : 1 < 1 / T). { unfold Rdiv. rewrite Rmult_1_l, <- Rinv_1 at 1. apply Rinv_lt_contravar; lra. }
    assert (P2 : forall k, pow2R (N.of_nat k) = 2 ^ k). { intros k. unfold pow2R. rewrite N2Z.inj_pow, nat_N_Z, <- pow_IZR. reflexivity. }
    assert (B : sumR (map (fun k => near_prob (N.of_nat k) * pfar T Rd i j (N.of_nat k + 1)) (seq 0 M)) <= 18 * x * (2 + / (1 - hrho T))).
    { set (f := fun k => near_prob (N.of_nat k) * pfar T Rd i j (N.of_nat k + 1)).
      assert (S0 : sumR (map (fun k => / (18 * x) * f k) (seq 0 M)) <= 2 + / (1 - hrho T)).
      { unfold hrho. replace (1 - 1 / T) with (- (1 / T - 1)) by ring. apply (two_series (1 / T - 1) ltac:(lra) M (fun k => / (18 * x) * f k) (6 * x) ltac:(lra)).
        intros k _. pose proof (pow_lt 2 k ltac:(lra)) as K0. set (Y := 6 * x * 2 ^ k). assert (Y0 : 0 < Y) by (unfold Y; apply Rmult_lt_0_compat; lra).
        pose proof (near_prob_le3 (N.of_nat k)) as N3. pose proof (near_prob_le1 (N.of_nat k)) as [N0 _]. rewrite P2 in N3. pose proof (pfar_01 i j (N.of_nat k + 1)) as [F0 F1].
        pose proof (pfar_le r1 r2 (N.of_nat k + 1) H1 H2 ltac:(lia)) as F2. fold i j x in F2. replace (N.of_nat k + 1)%N with (N.of_nat (S k)) in F2 at 2 by lia. rewrite P2 in F2. replace (3 * 2 ^ S k * x) with Y in F2 by (unfold Y; cbn [pow]; ring).
        assert (A1 : forall p, pfar T Rd i j (N.of_nat k + 1) <= p -> / (18 * x) * f k <= / Y * p).
        { intros p Hp. unfold f. apply Rle_trans with (/ (18 * x) * (3 / 2 ^ k * p)).
          - apply Rmult_le_compat_l; [left; apply Rinv_0_lt_compat; lra|]. apply Rmult_le_compat; lra.
          - right. unfold Y. field. lra. }
        split; [rewrite <- (Rmult_1_r (/ Y)); now apply A1|]. eapply Rle_trans; [apply (A1 _ F2)|]. right. replace (1 / T) with (1 + (1 / T - 1)) at 1 by ring. rewrite Rpower_plus, Rpower_1 by exact Y0. field. lra. }
      rewrite sumR_scal in S0. fold f. set (s := sumR _) in *. apply Rmult_le_reg_l with (/ (18 * x)); [apply Rinv_0_lt_compat; lra|]. rewrite <- Rmult_assoc, Rinv_l by lra. lra. }
    unfold kdraws. set (s := sumR _) in *. unfold Rdiv. set (y := / (1 - hrho T)) in *. nra.
  Qed.
End Far.

(** ** sampled radii *)
Section SampledPair.
  Variables (alpha Rd : R).
  Hypotheses (Ha : 1 / 2 < alpha) (HR : 4 / 3 <= Rd <= 40).
  Lemma layer_pair_le (g : nat -> nat -> R) (c : R) : 0 < c -> (forall r1 r2, 0 < r1 <= Rd -> 0 < r2 <= Rd -> g (layer_of Rd r1) (layer_of Rd r2) <= c * exp ((Rd - r1 - r2) / 2)) ->
    layer_mean alpha Rd (fun i => layer_mean alpha Rd (fun j => g i j)) <= c * exp (Rd / 2) * ((10 * alpha / (2 * alpha - 1)) * exp (- Rd / 2)) ^ 2.
  Proof.
    intros Hc Hg. pose proof (h_RInt alpha Rd Ha HR) as HI. pose proof (h_mean alpha Rd Ha HR) as HM.
    set (h := fun x => Rpower (above_one + x * (cosh (alpha * Rd) - above_one)) (- / (2 * alpha))) in *. set (H := (Rpower _ _ - Rpower _ _) / _) in *.
    set (K := c * exp (Rd / 2)). assert (PK : 0 < K) by (unfold K; pose proof (exp_pos (Rd / 2)); now apply Rmult_lt_0_compat).
    assert (PT : forall x y, 0 < x < 1 -> 0 < y < 1 -> g (layer_of Rd (radius_of alpha Rd x)) (layer_of Rd (radius_of alpha Rd y)) <= K * h x * h y).
    { intros x y Hx Hy. eapply Rle_trans; [apply Hg; apply (rad_range alpha Rd Ha HR); lra|]. set (rx := radius_of alpha Rd x). set (ry := radius_of alpha Rd y). replace ((Rd - rx - ry) / 2) with (Rd / 2 + (- rx / 2 + - ry / 2)) by field. rewrite !exp_plus. unfold K.
      rewrite <- Rmult_assoc, (Rmult_assoc (c * exp (Rd / 2))). apply Rmult_le_compat_l; [unfold K in PK; lra|]. apply Rmult_le_compat; try (left; apply exp_pos); apply (exp_rad alpha Rd Ha HR); lra. }
    assert (IN : forall x, 0 < x < 1 -> layer_mean alpha Rd (fun j => g (layer_of Rd (radius_of alpha Rd x)) j) <= K * h x * H).
    { intros x Hx. eapply (is_RInt_le _ (fun y => K * h x * h y) 0 1); [lra|apply (layer_RInt alpha Rd Ha HR (fun j => g (layer_of Rd (radius_of alpha Rd x)) j))| |].
      - exact (is_RInt_scal (V := R_NormedModule) _ 0 1 (K * h x) H HI).
      - intros y Hy. now apply PT. }
    assert (H0 : 0 <= H). { apply (is_RInt_ge_0 h 0 1); [lra|exact HI|]. intros x Hx. left. apply exp_pos. }
    assert (OUT : layer_mean alpha Rd (fun i => layer_mean alpha Rd (fun j => g i j)) <= K * H * H).
    { eapply (is_RInt_le _ (fun x => K * H * h x) 0 1); [lra|apply (layer_RInt alpha Rd Ha HR (fun i => layer_mean alpha Rd (fun j => g i j)))| |].
      - exact (is_RInt_scal (V := R_NormedModule) _ 0 1 (K * H) H HI).
      - intros x Hx. cbv beta. eapply Rle_trans; [now apply IN|]. right. ring. }
    eapply Rle_trans; [exact OUT|]. rewrite Rmult_assoc. apply Rmult_le_compat_l; [lra|]. cbn [pow]. rewrite Rmult_1_r. apply Rmult_le_compat; assumption.
  Qed.
End SampledPair.

(** ** the expected number of draws depends on the layers and the cells of the points only *)
Section Layers.
  Variables (levels : N) (bs : nat -> nat -> N) (touch : N -> N -> N -> bool) (cp : N -> N -> list (N * N)).
  Lemma sumR_filter {A} (p : A -> bool) (g : A -> R) L : sumR (map g (filter p L)) = sumR (map (fun x => if p x then g x else 0) L).
  Proof. induction L as [|x L IH]; [reflexivity|]. cbn [filter map]. rewrite sumR_cons. destruct (p x); cbn [map]; rewrite ?sumR_cons, IH; lra. Qed.
  Lemma sumR_list_prod (g : nat * nat -> R) X Y : sumR (map g (list_prod X Y)) = sumR (map (fun x => sumR (map (fun y => g (x, y)) Y)) X).
  Proof. induction X as [|x X IH]; [reflexivity|]. cbn [list_prod map]. rewrite map_app, sumR_app, sumR_cons, IH, map_map. reflexivity. Qed.
  Lemma sumR_seq_more (g : nat -> R) k k' : (k <= k')%nat -> (forall i, (k <= i)%nat -> g i = 0) -> sumR (map g (seq 0 k)) = sumR (map g (seq 0 k')).
  Proof.
    intros Hk H. replace k' with (k + (k' - k))%nat by lia. rewrite seq_app, map_app, sumR_app. rewrite (sumR_ext g (fun _ => 0) (seq (0 + k) (k' - k))), sumR_const; [lra|]. intros i Hi. apply in_seq in Hi. apply H. lia.
  Qed.
  Lemma gpairs_more (g : nat * nat -> R) k k' l : (k <= k')%nat -> (forall i j, (k <= i)%nat \/ (k <= j)%nat -> g (i, j) = 0) -> sumR (map g (gpairs k bs l)) = sumR (map g (gpairs k' bs l)).
  Proof.
    intros Hk H. unfold gpairs. rewrite !sumR_filter, !sumR_list_prod. cbn [fst snd].
    transitivity (sumR (map (fun x => sumR (map (fun y => if (bs x y =? l)%N then g (x, y) else 0) (seq 0 k'))) (seq 0 k))).
    - apply sumR_ext. intros x _. apply sumR_seq_more; [exact Hk|]. intros y Hy. rewrite H by auto. now destruct (_ =? _)%N.
    - apply sumR_seq_more; [exact Hk|]. intros x Hx. rewrite (sumR_ext _ (fun _ => 0)), sumR_const; [lra|]. intros y _. rewrite H by auto. now destruct (_ =? _)%N.
  Qed.
  Lemma gplan_more (f : call -> R) k k' : (k <= k')%nat ->
    (forall A B l i j, (k <= i)%nat \/ (k <= j)%nat -> f (CallI A B l i j) = 0 /\ f (CallII A B l i j) = 0) ->
    forall fuel A B l, sumR (map f (gplan k levels bs touch cp fuel A B l)) = sumR (map f (gplan k' levels bs touch cp fuel A B l)).
  Proof.
    intros Hk H.
    assert (FAR : forall A B l, sumR (map f (gfar k levels bs A B l)) = sumR (map f (gfar k' levels bs A B l))).
    { intros A B l. unfold gfar. rewrite !sumR_flat. apply sumR_ext. intros l' _. rewrite !map_map. apply gpairs_more; [exact Hk|]. intros i j Hij. now apply H. }
    assert (NEAR : forall A B l, sumR (map f (gnear k bs A B l)) = sumR (map f (gnear k' bs A B l))).
    { intros A B l. unfold gnear. rewrite !sumR_flat. apply gpairs_more; [exact Hk|]. intros i j Hij. cbn [fst snd]. destruct (_ || _); [|reflexivity]. cbn [map]. rewrite sumR_cons, sumR_nil. rewrite (proj1 (H A B l i j Hij)). ring. }
    induction fuel as [|fuel IH]; intros A B l; cbn [gplan]; destruct (touch A B l); cbn [negb]; try apply FAR; rewrite !map_app, !sumR_app, NEAR; f_equal.
    rewrite !sumR_flat. apply sumR_ext. intros ab _. apply IH.
  Qed.
End Layers.
(** a point seen as its layer and its cell on the deepest level *)
Section Codes.
  Variables (T Rd : R).
  Notation L := (lev Rd 0).
  (** a tree with these parameters: the envelopes only depend on them *)
  Definition bare : htree := {| h_R := Rd; h_T := T; h_layers := 0; h_level := []; h_first := []; h_points := []; h_index := [] |}.
  Lemma hblock_max_bare t A B l i j : h_R t = Rd -> h_T t = T -> hblock_max t A B l i j = hblock_max bare A B l i j.
  Proof. intros E1 E2. unfold hblock_max, lookup_filters, h_base, bare. cbn [h_R h_T]. now rewrite E1, E2. Qed.
  Definition in_code (i : nat) (A l : N) (c : nat * N) : bool := (fst c =? i)%nat && (hfc l + snd c / 2 ^ (L - l) =? A)%N.
  Definition ccount (cs : list (nat * N)) (i : nat) (A l : N) : nat := length (filter (in_code i A l) cs).
  Definition cdraws (cs : list (nat * N)) (x : call) : R :=
    match x with
    | CallI A B l i j => INR (if (A =? B)%N && (i =? j)%nat then length (uptri (seq 0 (ccount cs i A l))) else ccount cs i A l * ccount cs j B l)
    | CallII A B l i j => let m := INR (ccount cs i A l * ccount cs j B l) in
      if Rltb (1 / 5) (hblock_max bare A B l i j) then m else if Rltb (m * hblock_max bare A B l i j) (1 / 1000000) then 0 else 1 + 2 * hblock_max bare A B l i j * m
    end.
  Definition hvalue (cs : list (nat * N)) : R := sumR (map (cdraws cs) (gplan (ceil_nat Rd) (L + 1) (base Rd) htouchb hchild_pairs (N.to_nat L) 0 0 0)).
  Definition codes (radii xs : list R) : list (nat * N) := combine (map (layer_of Rd) radii) (map (coordR L) xs).
  Lemma ccount_0 cs i A l k : (forall c, In c cs -> (fst c < k)%nat) -> (k <= i)%nat -> ccount cs i A l = 0%nat.
  Proof.
    intros H Hi. unfold ccount. induction cs as [|c cs IH]; [reflexivity|]. cbn [filter]. unfold in_code at 1. pose proof (H c (or_introl eq_refl)). destruct (Nat.eqb_spec (fst c) i); [lia|]. cbn [andb]. apply IH. intros c' Hc'. apply H. now right.
  Qed.
  Lemma cdraws_0 cs k : (forall c, In c cs -> (fst c < k)%nat) -> forall A B l i j, (k <= i)%nat \/ (k <= j)%nat -> cdraws cs (CallI A B l i j) = 0 /\ cdraws cs (CallII A B l i j) = 0.
  Proof.
    intros H A B l i j Hij. assert (Z : (ccount cs i A l * ccount cs j B l = 0)%nat) by (destruct Hij as [Hij|Hij]; [rewrite (ccount_0 cs i A l k H Hij)|rewrite (ccount_0 cs j B l k H Hij)]; lia). cbn [cdraws]. split.
    - destruct (N.eqb_spec A B) as [E1|]; cbn [andb]; [destruct (Nat.eqb_spec i j) as [E2|]|]; try (rewrite Z; reflexivity).
      assert (Z1 : ccount cs i A l = 0%nat) by (apply (ccount_0 cs i A l k H); lia). rewrite Z1. reflexivity.
    - rewrite Z. cbn [INR]. rewrite !Rmult_0_l, Rmult_0_r. destruct (Rltb _ _); [reflexivity|]. destruct (Rltb 0 (1 / 1000000)) eqn:F; [reflexivity|]. apply Rltb_false in F. lra.
  Qed.
End Codes.
Lemma filter_perm_len {A} (p : A -> bool) o o' : Permutation o o' -> length (filter p o) = length (filter p o').
Proof.
  induction 1 as [|x o o' _ IH|x y o|o o' o'' _ IH1 _ IH2]; cbn [filter]; [reflexivity| | |congruence].
  - destruct (p x); cbn [length]; congruence.
  - destruct (p x), (p y); reflexivity.
Qed.
Lemma map_nth_all {A} (d : A) (cs : list A) : map (fun u => nth u cs d) (seq 0 (length cs)) = cs.
Proof. induction cs as [|c cs IH]; [reflexivity|]. cbn [length seq map nth]. f_equal. rewrite <- seq_shift, map_map. exact IH. Qed.
Section CodeValue.
  Context {n : nat} {radii xs : list R} {T Rd : R} {omp_max team : nat} (CI : hcost_input n Rd omp_max team) (LR : length radii = n) (FR : List.Forall (fun r => 0 < r <= Rd) radii) (CX : in_cube n xs).
  Notation angles := (map angle_of xs).
  Let HI := hcost_hrg n Rd omp_max team radii xs CI LR FR CX.
  Variables (t : htree) (ord : list nat) (TS : htree_spec radii angles T Rd t ord).
  Notation cs := (codes Rd radii xs).
  Notation L := (lev Rd 0).
  Notation V := (hV radii angles Rd ord).
  Lemma codes_nth u : (u < n)%nat -> nth u cs (0%nat, 0%N) = (hlay radii Rd u, coordR L (phi angles u / 2 / PI)).
  Proof.
    intros Hu. pose proof (proj1 CX) as LX. unfold codes. rewrite combine_nth by (rewrite !map_length; lia). f_equal.
    - rewrite (nth_indep _ 0%nat (layer_of Rd 0)) by (rewrite map_length; lia). rewrite (map_nth (layer_of Rd)). reflexivity.
    - rewrite (nth_indep _ 0%N (coordR L 0)) by (rewrite map_length; lia). rewrite (map_nth (coordR L)). f_equal. unfold phi. rewrite (nth_indep angles 0 (angle_of 0)) by (rewrite map_length; lia). rewrite (map_nth angle_of). symmetry. apply angle_unit.
  Qed.
  Lemma codes_length : length cs = n.
  Proof. pose proof (proj1 CX) as LX. unfold codes. rewrite combine_length, !map_length. lia. Qed.
  Lemma V_count i A l : (l <= L)%N -> length (V i A l) = ccount Rd cs i A l.
  Proof.
    intros Hl. unfold hV. transitivity (length (filter (fun u => (hlay radii Rd u =? i)%nat && (Hyp_Build.cel angles l u =? A)%N) (seq 0 n))).
    { pose proof (hs_perm _ _ _ _ _ _ TS) as PM. rewrite LR in PM. apply filter_perm_len. exact PM. }
    assert (E : cs = map (fun u => nth u cs (0%nat, 0%N)) (seq 0 n)). { rewrite <- codes_length at 1. symmetry. apply map_nth_all. }
    unfold ccount. set (cs0 := cs) in *. rewrite E at 1.
    assert (G : forall X, (forall u, In u X -> (u < n)%nat) -> length (filter (fun u => (hlay radii Rd u =? i)%nat && (Hyp_Build.cel angles l u =? A)%N) X) = length (filter (in_code Rd i A l) (map (fun u => nth u cs0 (0%nat, 0%N)) X))).
    { clear E. induction X as [|u X IH]; intros HX; [reflexivity|]. cbn [map filter]. specialize (IH (fun v Hv => HX v (or_intror Hv))). pose proof (HX u (or_introl eq_refl)) as Hu.
      assert (E : in_code Rd i A l (nth u cs0 (0%nat, 0%N)) = (hlay radii Rd u =? i)%nat && (Hyp_Build.cel angles l u =? A)%N).
      { unfold cs0. rewrite (codes_nth u Hu). unfold in_code. cbn [fst snd]. do 2 f_equal. unfold Hyp_Build.cel, hcel, hidx. f_equal.
        rewrite (coordR_shift (phi angles u / 2 / PI) ltac:(apply ang_unit, (phi_ok radii angles Rd (use_di HI)); lia) (N.to_nat (L - l)) l). replace (N.of_nat (N.to_nat (L - l))) with (L - l)%N by lia. replace (l + (L - l))%N with L by lia. reflexivity. }
      rewrite E. destruct (_ && _); cbn [length]; congruence. }
    apply G. intros u Hu. apply in_seq in Hu. lia.
  Qed.
  Lemma hvalue_eq : sumR (map (@hcall_draws radii angles Rd t ord) (hplan Rd t (N.to_nat (h_levels t - 1)) 0%N 0%N 0%N)) = hvalue T Rd cs.
  Proof.
    transitivity (sumR (map (cdraws T Rd cs) (hplan Rd t (N.to_nat (h_levels t - 1)) 0%N 0%N 0%N))).
    - apply sumR_ext. intros x Hx. pose proof (hplan0_ok radii angles T Rd (use_di HI) t ord TS x Hx) as OK.
      assert (LV : forall l i j, (i < h_layers t)%nat -> (j < h_layers t)%nat -> (l <= base Rd i j)%N -> (l <= L)%N).
      { intros l i j Hi Hj Hl. destruct (hbase_ok radii angles T Rd (use_di HI) t ord TS i j Hi Hj) as (_ & _ & B & _). rewrite (hs_levels _ _ _ _ _ _ TS) in B. lia. }
      destruct x as [A B l i j|A B l i j]; cbn [hcall_draws cdraws].
      + destruct OK as (_ & _ & Hi & Hj & El). assert (LL : (l <= L)%N) by (apply (LV l i j Hi Hj); lia). rewrite <- !(V_count _ _ l LL). destruct (_ && _)%bool; f_equal; [apply uptri_len; now rewrite seq_length|apply prod_length].
      + destruct OK as (_ & _ & Hi & Hj & El & _). assert (LL : (l <= L)%N) by (apply (LV l i j Hi Hj); lia). rewrite <- !(V_count _ _ l LL). now rewrite (hblock_max_bare T Rd t A B l i j (hs_R _ _ _ _ _ _ TS) (hs_T _ _ _ _ _ _ TS)).
    - unfold hvalue, hplan. rewrite (hs_levels _ _ _ _ _ _ TS). replace (L + 1 - 1)%N with L by lia.
      apply (gplan_more (L + 1) (base Rd) htouchb hchild_pairs (cdraws T Rd cs) (h_layers t) (ceil_nat Rd) (hs_layers _ _ _ _ _ _ TS)).
      apply cdraws_0. intros c Hc. apply (In_nth _ _ (0%nat, 0%N)) in Hc as (u & Hu & <-). rewrite codes_length in Hu. rewrite codes_nth by exact Hu. cbn [fst]. apply (hs_lay _ _ _ _ _ _ TS). lia.
  Qed.
End CodeValue.
(** functions of the codes have means *)
Section CodeMean.
  Variables (alpha Rd : R).
  Hypotheses (Ha : 1 / 2 < alpha) (HR : 4 / 3 <= Rd <= 40).
  Notation L := (lev Rd 0).
  Definition code (p : list R) : nat * N := (layer_of Rd (radius_of alpha Rd (radius_draw p)), coordR L (angle_draw p)).
  Fixpoint code_mean (n : nat) (G : list (nat * N) -> R) : R :=
    match n with
    | O => G []
    | S n => layer_mean alpha Rd (fun k => nsum (fun c => code_mean n (fun cs => G ((k, N.of_nat c) :: cs))) (N.to_nat (2 ^ L)) / pow2R L)
    end.
  Lemma code_mean_is n : forall G, is_points_mean n 2 (fun ps => G (map code ps)) (code_mean n G).
  Proof.
    induction n as [|n IH]; intros G; cbn [is_points_mean code_mean]; [reflexivity|].
    exists (fun p => code_mean n (fun cs => G (code p :: cs))). split; [intros p _; exact (IH (fun cs => G (code p :: cs)))|].
    exists (fun x => nsum (fun c => code_mean n (fun cs => G ((layer_of Rd (radius_of alpha Rd x), N.of_nat c) :: cs))) (N.to_nat (2 ^ L)) / pow2R L). split.
    - intros x _. apply cube1. exact (cell_mean L (fun c => code_mean n (fun cs => G ((layer_of Rd (radius_of alpha Rd x), c) :: cs)))).
    - exact (layer_RInt alpha Rd Ha HR (fun k => nsum (fun c => code_mean n (fun cs => G ((k, N.of_nat c) :: cs))) (N.to_nat (2 ^ L)) / pow2R L)).
  Qed.
  Lemma codes_code ps : codes Rd (map (fun p => radius_of alpha Rd (radius_draw p)) ps) (map angle_draw ps) = map code ps.
  Proof. unfold codes. rewrite !map_map. induction ps as [|p ps IH]; [reflexivity|]. cbn [map combine]. rewrite IH. reflexivity. Qed.
End CodeMean.
