(** The hyperbolic generator in IEEE-754 double precision: rounding to nearest even after every operation, functions of <cmath> that are right up
    to two units in the last place.  Conditions under which HypF_Gen applies. *)
From Coq Require Import Arith NArith ZArith List Bool Reals Lia Lra Psatz.
From Flocq Require Import Core.
From Verif Require Import Base Sched Coord_Model Coord_Proofs Coord_Geo Tree_Model Tree_Run Girg_Model Girg_Num Hyp_Model Hyp_Math Hyp_Angle Hyp_Levels Hyp_Build Hyp_Run
  Ieee HypF_Model HypF_Build HypF_Run HypF_Gen HypF_Err.
Import ListNotations.
Local Open Scope R_scope.
Local Notation u := u53.

(** double arithmetic; [b2 e] is 2^e, [u53] is 2^-53 (half a unit in the last place of 1) *)
Record libm_ok (M : hmath) : Prop := {
  lm_r : forall x, hr M x = RN x;
  lm_pi : hpi M = RN PI;
  lm_cosh : forall x, is_double x -> Rabs x <= 100 -> Rabs (hcosh M x - cosh x) <= 4 * u53 * Rabs (cosh x);
  lm_sinh : forall x, is_double x -> Rabs x <= 100 -> Rabs (hsinh M x - sinh x) <= 4 * u53 * Rabs (sinh x);
  lm_acosh : forall x, is_double x -> 1 <= x -> Rabs (hacosh M x - acosh x) <= 4 * u53 * Rabs (acosh x);
  lm_cos : forall x, is_double x -> Rabs x <= 7 -> Rabs (hcos M x - cos x) <= 2 * u53;
  lm_sin : forall x, is_double x -> Rabs x <= 7 -> Rabs (hsin M x - sin x) <= 2 * u53;
  lm_exp : forall x, is_double x -> 0 <= hexp M x }.

(** ** the filters *)
Lemma RN_0 : RN 0 = 0. Proof. unfold RN. apply round_0. typeclasses eauto. Qed.
Lemma double_Z z : (Z.abs z < 2 ^ 53)%Z -> is_double (IZR z).
Proof. intros H. replace (IZR z) with (IZR z * b2 0) by (cbn; ring). apply FLT_double; [exact H|lia]. Qed.
Lemma RN_Z z : (Z.abs z < 2 ^ 53)%Z -> RN (IZR z) = IZR z. Proof. intros H. now apply RN_id, double_Z. Qed.
Theorem libm_sound M rg : libm_ok M -> good_rng rg -> (forall p g, is_double p -> is_double (fst (uni0 rg p g))) -> hsound M rg.
Proof.
  intros L GG HD. pose proof u_small as U. constructor.
  - intros T Rd d. rewrite (lm_r M L). unfold connectionProbRecF. rewrite !(lm_r M L). set (x := RN (RN (1 / 2 / T) * RN (d - Rd))).
    pose proof (lm_exp M L x (RN_double _)) as He. assert (H1 : 1 <= RN (1 + hexp M x)) by (rewrite <- (RN_Z 1) at 1 by lia; apply RN_le; lra).
    set (y := RN (1 + hexp M x)) in *. assert (Hy : 0 < / y <= 1). { split; [apply Rinv_0_lt_compat; lra|]. rewrite <- Rinv_1. apply Rinv_le_contravar; lra. }
    split; [apply RN_nonneg; unfold Rdiv; lra|]. rewrite <- (RN_Z 1) at 2 by lia. apply RN_le. unfold Rdiv. lra.
  - rewrite (lm_r M L). apply RN_0.
  - rewrite (lm_r M L). apply Rlt_le_trans with (b2 (-20)); [apply bpow_gt_0|]. rewrite <- (RN_id (b2 (-20))) by (apply b2_double; lia). apply RN_le.
    change (b2 (-20)) with (/ 1048576). lra.
  - intros g. rewrite !(lm_r M L). replace (100 / 1) with (IZR 100) by field. rewrite (RN_Z 100) by lia. pose proof (gu01 rg GG g) as H.
    split; [apply RN_nonneg; lra|]. rewrite <- (RN_Z 100) at 2 by lia. apply RN_le. lra.
  - intros z g. rewrite !(lm_r M L). set (p := RN z). intros Hp. assert (Dp : is_double p) by apply RN_double.
    pose proof (guni rg GG p g Hp) as Hx. pose proof (HD p g Dp) as Dx. set (x := fst (uni0 rg p g)) in *.
    assert (Ip : 1 <= / p) by (rewrite <- Rinv_1; apply Rinv_le_contravar; lra).
    assert (Hb : b2 (-1022) <= 100 / p). { apply Rle_trans with (b2 0); [apply bpow_le; lia|]. change (b2 0) with 1. unfold Rdiv. lra. }
    pose proof (RN_rel (100 / p) Hb) as [_ Hr]. assert (H0 : 0 <= RN (100 / p)) by (apply RN_nonneg; unfold Rdiv; lra).
    split; [apply RN_nonneg; nra|]. rewrite <- (RN_Z 100) at 2 by lia. apply RN_le.
    destruct (double_gap x p Dx Dp Hx) as [G|G]; [|rewrite G; lra].
    apply Rle_trans with (100 / p * (1 + u) * x); [apply Rmult_le_compat_r; lra|]. replace (100 / p * (1 + u) * x) with (100 * (x * (1 + u) / p)) by (field; lra).
    assert (x * (1 + u) / p <= 1); [|lra]. apply Rmult_le_reg_r with p; [lra|]. unfold Rdiv. rewrite Rmult_assoc, Rinv_l by lra. lra.
Qed.

(** ** absolute errors *)
Lemma abs_mul x x' y y' ex ey bx by' : Rabs x <= bx -> Rabs (x' - x) <= ex -> Rabs y <= by' -> Rabs (y' - y) <= ey -> Rabs (x' * y' - x * y) <= ex * by' + bx * ey + ex * ey.
Proof.
  intros Hx Hex Hy Hey. replace (x' * y' - x * y) with ((x' - x) * y + x * (y' - y) + (x' - x) * (y' - y)) by ring.
  eapply Rle_trans; [apply Rabs_triang|]. eapply Rle_trans; [apply Rplus_le_compat_r, Rabs_triang|]. rewrite !Rabs_mult.
  assert (Rabs (x' - x) * Rabs y <= ex * by') by (apply Rmult_le_compat; auto using Rabs_pos).
  assert (Rabs x * Rabs (y' - y) <= bx * ey) by (apply Rmult_le_compat; auto using Rabs_pos).
  assert (Rabs (x' - x) * Rabs (y' - y) <= ex * ey) by (apply Rmult_le_compat; auto using Rabs_pos). lra.
Qed.
Lemma abs_RN x y e b : Rabs x <= b -> Rabs (y - x) <= e -> Rabs (RN y - x) <= e + u * (b + e) + eta.
Proof.
  intros Hx He. replace (RN y - x) with ((RN y - y) + (y - x)) by ring. eapply Rle_trans; [apply Rabs_triang|].
  pose proof (RN_err y) as H. assert (Rabs y <= b + e). { replace y with (x + (y - x)) by ring. eapply Rle_trans; [apply Rabs_triang|]. lra. }
  pose proof u_small. assert (u * Rabs y <= u * (b + e)) by (apply Rmult_le_compat_l; lra). lra.
Qed.
Lemma cosh_sinh_abs x : Rabs (sinh x) <= cosh x.
Proof. pose proof (cosh_sqr x). pose proof (cosh_ge_1 x). apply Rabs_le. split; nra. Qed.
Lemma cosh_grow x d : 0 <= x -> 0 <= d <= / 2 -> cosh (x + d) <= cosh x * (1 + 2 * d).
Proof.
  intros Hx Hd. rewrite cosh_plus. pose proof (cosh_ge_1 x). pose proof (cosh_sinh_abs x) as S. apply Rabs_le_inv in S.
  assert (E : exp d <= 1 + 2 * d).
  { pose proof (exp_opp_mul d) as E1. pose proof (exp_pos d) as P. assert (L : 1 - d <= exp (- d)).
    { destruct (Req_dec d 0) as [->|]; [rewrite Ropp_0, exp_0; lra|]. pose proof (exp_ineq1 (- d) ltac:(lra)). lra. }
    assert (exp d * (1 - d) <= 1) by nra. nra. }
  rewrite <- cosh_plus_sinh in E. pose proof (sinh_nonneg d ltac:(lra)). nra.
Qed.
Lemma cosh_shrink x d : 0 <= x -> 0 <= d <= x -> cosh x * (1 - d) <= cosh (x - d).
Proof.
  intros Hx Hd. assert (H : cosh x <= cosh (x - d) * exp d).
  { replace x with ((x - d) + d) at 1 by ring. rewrite cosh_plus, <- cosh_plus_sinh. pose proof (cosh_sinh_abs (x - d)) as S. apply Rabs_le_inv in S.
    pose proof (sinh_nonneg d ltac:(lra)). nra. }
  assert (L : 1 - d <= exp (- d)). { destruct (Req_dec d 0) as [->|]; [rewrite Ropp_0, exp_0; lra|]. pose proof (exp_ineq1 (- d) ltac:(lra)). lra. }
  pose proof (exp_opp_mul d) as E1. pose proof (exp_pos (- d)) as P. pose proof (cosh_pos x).
  apply Rle_trans with (cosh x * exp (- d)); [apply Rmult_le_compat_l; lra|].
  replace (cosh (x - d)) with (cosh (x - d) * exp d * exp (- d)) by (rewrite Rmult_assoc, E1; ring). apply Rmult_le_compat_r; lra.
Qed.

(** ** pi and its halves *)
Lemma PI_err : Rabs (RN PI - PI) <= 2 * u.
Proof.
  pose proof PI_upper. pose proof PI2_3_2.
  assert (E : Rabs (RN PI - PI) <= / 2 * b2 (-51)).
  { unfold RN. eapply Rle_trans; [apply error_le_half_ulp; typeclasses eauto|]. rewrite ulp_neq_0 by lra. unfold cexp.
    assert (Hm : mag radix2 PI = 2%Z :> Z). { apply mag_unique. rewrite Rabs_pos_eq by lra. change (b2 (2 - 1)) with 2. change (b2 2) with 4. lra. }
    rewrite Hm. change (fexp64 2) with (-51)%Z. lra. }
  eapply Rle_trans; [exact E|]. change (/ 2) with (b2 (-1)). rewrite <- bpow_plus. change (2 * u) with (b2 1 * b2 (-53)). rewrite <- bpow_plus. apply bpow_le. lia.
Qed.
Lemma PIF_bounds : 3 <= RN PI <= 22 / 7.
Proof.
  pose proof PI_err as H. pose proof u_small. pose proof PI_upper. pose proof PI2_3_2. apply Rabs_le_inv in H.
  split; [|lra]. rewrite <- (RN_Z 3) at 1 by lia. apply RN_le. lra.
Qed.
Definition thF (k : N) : R := RN PI / pow2R k.
Lemma pow2R_b2 k : pow2R k = b2 (Z.of_N k).
Proof. unfold pow2R. rewrite N2Z.inj_pow. rewrite (IZR_Zpower radix2) by lia. reflexivity. Qed.
Lemma thF_succ k : thF (k + 1) = thF k / 2.
Proof. unfold thF. rewrite pow2R_add, pow2R_1. pose proof (pow2R_pos k). field. lra. Qed.
Lemma thF_lower k : (k <= 900)%N -> b2 (-900) <= thF k.
Proof.
  intros H. unfold thF. rewrite pow2R_b2. pose proof PIF_bounds. unfold Rdiv. rewrite <- bpow_opp. apply Rle_trans with (1 * b2 (- Z.of_N k)).
  - rewrite Rmult_1_l. apply bpow_le. lia.
  - apply Rmult_le_compat_r; [apply bpow_ge_0|lra].
Qed.
Lemma thF_double k : (k <= 900)%N -> is_double (thF k).
Proof.
  induction k as [|k IH] using N.peano_ind; intros H.
  - unfold thF. replace (RN PI / pow2R 0) with (RN PI); [apply RN_double|]. rewrite pow2R_b2. cbn. field.
  - rewrite <- N.add_1_r, thF_succ. apply double_half; [apply IH; lia|]. eapply Rle_trans; [|apply thF_lower; lia]. apply bpow_le. lia.
Qed.
Lemma thF_err k : Rabs (thF k - half k) <= 2 * u.
Proof.
  unfold thF, half. pose proof (pow2R_ge1 k) as P. replace (RN PI / pow2R k - PI / pow2R k) with ((RN PI - PI) * / pow2R k) by (field; lra).
  rewrite Rabs_mult. pose proof PI_err as H. assert (0 < / pow2R k <= 1). { split; [apply Rinv_0_lt_compat; lra|]. rewrite <- Rinv_1. apply Rinv_le_contravar; lra. }
  rewrite (Rabs_pos_eq (/ _)) by lra. pose proof (Rabs_pos (RN PI - PI)). nra.
Qed.
Lemma thF_range k : 0 <= thF k <= 22 / 7.
Proof.
  pose proof PIF_bounds. unfold thF. pose proof (pow2R_ge1 k) as P. assert (0 < / pow2R k <= 1). { split; [apply Rinv_0_lt_compat; lra|]. rewrite <- Rinv_1. apply Rinv_le_contravar; lra. }
  unfold Rdiv. split; nra.
Qed.

(** ** the comparison in partitioningBaseLevel *)
Section Dist.
  Variables (M : hmath) (LM : libm_ok M).
  Definition XF (r1 r2 th : R) : R :=
    Rmax 1 (RN (hcosh M (RN (r1 - r2)) + RN (RN (RN (1 - hcos M (RN (0 - th))) * hsinh M r1) * hsinh M r2))).
  Lemma distF_eq r1 r2 th : hyp_distanceF M r1 0 r2 th = hacosh M (XF r1 r2 th).
  Proof. unfold hyp_distanceF, XF. now rewrite !(lm_r M LM). Qed.
  Lemma XF_double r1 r2 th : is_double (XF r1 r2 th).
  Proof. unfold XF. apply Rmax_case; [apply (double_Z 1); lia|apply RN_double]. Qed.
  Lemma Rmax_contract x y e : 1 <= x -> Rabs (y - x) <= e -> Rabs (Rmax 1 y - x) <= e.
  Proof. intros H H1. apply Rabs_le_inv in H1. apply Rmax_case_strong; intros H2; apply Rabs_le; lra. Qed.
  Lemma XF_err r1 r2 z k : is_double r1 -> is_double r2 -> Rabs r1 <= 40 -> Rabs r2 <= 40 -> r1 - r2 = IZR z -> (k <= 900)%N ->
    Rabs (XF r1 r2 (thF k) - hc r1 r2 (half k)) <= 64 * u * (cosh r1 * cosh r2).
  Proof.
    intros D1 D2 B1 B2 Hz Hk. pose proof u_small as U. pose proof eta_small as T0. unfold XF. apply Rmax_contract; [apply hc_ge_1|].
    assert (Dz : is_double (r1 - r2)).
    { rewrite Hz. apply double_Z. apply Rabs_le_inv in B1, B2. assert (A : (-100 <= z <= 100)%Z) by (split; apply le_IZR; lra). lia. }
    rewrite (RN_id _ Dz). assert (EN : RN (0 - thF k) = - thF k). { rewrite Rminus_0_l, RN_opp, (RN_id _ (thF_double k Hk)). reflexivity. } rewrite EN.
    set (c1 := cosh r1). set (c2 := cosh r2). pose proof (cosh_ge_1 r1) as C1. pose proof (cosh_ge_1 r2) as C2. fold c1 in C1. fold c2 in C2.
    pose proof (cosh_sinh_abs r1) as S1. pose proof (cosh_sinh_abs r2) as S2. fold c1 in S1. fold c2 in S2.
    replace (hc r1 r2 (half k)) with (cosh (r1 - r2) + (1 - cos (half k)) * sinh r1 * sinh r2) by (unfold hc; rewrite cosh_minus; ring).
    assert (W : 1 <= c1 * c2) by nra.
    assert (P1 : Rabs (cosh (r1 - r2)) <= 2 * (c1 * c2)).
    { pose proof (cosh_ge_1 (r1 - r2)). rewrite Rabs_pos_eq by lra. rewrite cosh_minus. fold c1 c2.
      assert (X : Rabs (sinh r1 * sinh r2) <= c1 * c2) by (rewrite Rabs_mult; apply Rmult_le_compat; auto using Rabs_pos). apply Rabs_le_inv in X. lra. }
    assert (P2 : Rabs (hcosh M (r1 - r2) - cosh (r1 - r2)) <= 8 * u * (c1 * c2)).
    { eapply Rle_trans; [apply (lm_cosh M LM); [exact Dz|]|].
      - apply Rabs_le_inv in B1, B2. apply Rabs_le. lra.
      - apply Rle_trans with (4 * u * (2 * (c1 * c2))); [apply Rmult_le_compat_l; lra|lra]. }
    assert (Q0 : Rabs (1 - cos (half k)) <= 2) by (pose proof (COS_bound (half k)); apply Rabs_le; lra).
    assert (Q1 : Rabs (1 - hcos M (- thF k) - (1 - cos (half k))) <= 4 * u).
    { replace (1 - hcos M (- thF k) - (1 - cos (half k))) with (- ((hcos M (- thF k) - cos (- thF k)) + (cos (thF k) - cos (half k)))) by (rewrite cos_neg; ring).
      rewrite Rabs_Ropp. eapply Rle_trans; [apply Rabs_triang|]. pose proof (thF_range k) as TR.
      assert (A1 : Rabs (hcos M (- thF k) - cos (- thF k)) <= 2 * u).
      { apply (lm_cos M LM); [|rewrite Rabs_Ropp, Rabs_pos_eq by lra; lra]. unfold is_double. apply generic_format_opp. apply thF_double. exact Hk. }
      pose proof (cos_lip (thF k) (half k)). pose proof (thF_err k). lra. }
    assert (Q2 : Rabs (RN (1 - hcos M (- thF k)) - (1 - cos (half k))) <= 7 * u).
    { eapply Rle_trans; [apply abs_RN; [exact Q0|exact Q1]|]. nra. }
    set (D' := RN (1 - hcos M (- thF k))) in *. set (D := 1 - cos (half k)) in *.
    assert (N1 : Rabs (hsinh M r1 - sinh r1) <= 4 * u * c1).
    { eapply Rle_trans; [apply (lm_sinh M LM); [exact D1|lra]|]. apply Rmult_le_compat_l; [lra|exact S1]. }
    assert (N2 : Rabs (hsinh M r2 - sinh r2) <= 4 * u * c2).
    { eapply Rle_trans; [apply (lm_sinh M LM); [exact D2|lra]|]. apply Rmult_le_compat_l; [lra|exact S2]. }
    assert (UC : u * u * c1 <= / 1000000000 * (u * c1)) by (rewrite Rmult_assoc; apply Rmult_le_compat_r; [nra|lra]).
    assert (UC0 : 0 < u * c1) by nra. assert (EC : eta <= / 1000000000 * (u * c1)) by nra.
    assert (UC2 : u * u * (c1 * c2) <= / 1000000000 * (u * (c1 * c2))) by (rewrite Rmult_assoc; apply Rmult_le_compat_r; [nra|lra]).
    assert (UC3 : 0 < u * (c1 * c2)) by nra. assert (EC2 : eta <= / 1000000000 * (u * (c1 * c2))) by nra.
    assert (R1 : Rabs (D' * hsinh M r1 - D * sinh r1) <= 16 * (u * c1)).
    { eapply Rle_trans; [apply abs_mul; [exact Q0|exact Q2|exact S1|exact N1]|]. lra. }
    assert (M1 : Rabs (D * sinh r1) <= 2 * c1) by (rewrite Rabs_mult; apply Rmult_le_compat; auto using Rabs_pos).
    assert (R2 : Rabs (RN (D' * hsinh M r1) - D * sinh r1) <= 20 * (u * c1)).
    { eapply Rle_trans; [apply abs_RN; [exact M1|exact R1]|]. lra. }
    assert (R3 : Rabs (RN (D' * hsinh M r1) * hsinh M r2 - D * sinh r1 * sinh r2) <= 30 * (u * (c1 * c2))).
    { eapply Rle_trans; [apply abs_mul; [exact M1|exact R2|exact S2|exact N2]|]. lra. }
    assert (M2 : Rabs (D * sinh r1 * sinh r2) <= 2 * (c1 * c2)).
    { rewrite Rabs_mult. apply Rle_trans with (2 * c1 * c2); [apply Rmult_le_compat; auto using Rabs_pos|lra]. }
    assert (R4 : Rabs (RN (RN (D' * hsinh M r1) * hsinh M r2) - D * sinh r1 * sinh r2) <= 34 * (u * (c1 * c2))).
    { eapply Rle_trans; [apply abs_RN; [exact M2|exact R3]|]. lra. }
    eapply Rle_trans.
    - apply (abs_RN _ _ (42 * (u * (c1 * c2))) (4 * (c1 * c2))).
      + eapply Rle_trans; [apply Rabs_triang|]. lra.
      + match goal with |- Rabs (?a + ?b - (?x + ?y)) <= _ => replace (a + b - (x + y)) with ((a - x) + (b - y)) by ring end.
        eapply Rle_trans; [apply Rabs_triang|]. lra.
    - lra.
  Qed.
  (** the margin below which doubles may take the other branch *)
  Definition margin (r1 r2 Rd : R) : R := b2 (-45) * (cosh r1 * cosh r2 + Rd * cosh Rd).
  Lemma far_eq r1 r2 z Rd k : is_double r1 -> is_double r2 -> Rabs r1 <= 40 -> Rabs r2 <= 40 -> r1 - r2 = IZR z -> (k <= 900)%N ->
    0 <= Rd <= 40 -> margin r1 r2 Rd < Rabs (hc r1 r2 (half k) - cosh Rd) ->
    Rltb Rd (hacosh M (XF r1 r2 (thF k))) = Rltb Rd (acosh (hc r1 r2 (half k))).
  Proof.
    intros D1 D2 B1 B2 Hz Hk HR HM. pose proof u_small as U. pose proof (XF_err r1 r2 z k D1 D2 B1 B2 Hz Hk) as E. apply Rabs_le_inv in E.
    pose proof (cosh_ge_1 r1) as C1. pose proof (cosh_ge_1 r2) as C2. pose proof (cosh_ge_1 Rd) as C3. assert (W : 1 <= cosh r1 * cosh r2) by nra.
    assert (EU : b2 (-45) = 256 * u). { change 256 with (b2 8). unfold u53. rewrite <- bpow_plus. reflexivity. }
    unfold margin in HM. rewrite EU in HM. set (X := hc r1 r2 (half k)) in *. set (X' := XF r1 r2 (thF k)) in *.
    assert (X1 : 1 <= X) by apply hc_ge_1. assert (X1' : 1 <= X') by apply Rmax_l.
    pose proof (lm_acosh M LM X' (XF_double _ _ _) X1') as A. pose proof (acosh_nonneg X' X1') as A0. rewrite (Rabs_pos_eq (acosh X')) in A by exact A0. apply Rabs_le_inv in A.
    set (W0 := cosh r1 * cosh r2) in *. assert (UW : 0 < u * W0) by nra. assert (RC : 0 <= Rd * cosh Rd) by (apply Rmult_le_pos; lra).
    assert (URC : 0 <= u * (Rd * cosh Rd)) by (apply Rmult_le_pos; lra).
    destruct (Rle_lt_dec X (cosh Rd)) as [L|L].
    - (* not far *)
      rewrite Rabs_left1 in HM by lra. assert (F1 : Rltb Rd (acosh X) = false).
      { apply Rltb_false. destruct (Rle_lt_dec (acosh X) Rd) as [H|H]; [exact H|]. apply (acosh_gt_iff _ _ X1 (proj1 HR)) in H. lra. }
      rewrite F1. apply Rltb_false.
      assert (HX : X' <= cosh Rd * (1 - 8 * u * Rd)) by nra.
      assert (HX2 : X' <= cosh (Rd - 8 * u * Rd)). { eapply Rle_trans; [exact HX|]. apply cosh_shrink; [lra|]. split; nra. }
      assert (HA : acosh X' <= Rd - 8 * u * Rd). { rewrite <- (acosh_cosh (Rd - 8 * u * Rd)) by nra. apply acosh_le; [exact X1'|exact HX2]. }
      apply Rle_trans with (acosh X' * (1 + 4 * u)); [lra|]. apply Rle_trans with ((Rd - 8 * u * Rd) * (1 + 4 * u)); [apply Rmult_le_compat_r; lra|]. nra.
    - rewrite Rabs_pos_eq in HM by lra. assert (F1 : Rltb Rd (acosh X) = true).
      { apply Rltb_true. apply (acosh_gt_iff _ _ X1 (proj1 HR)). exact L. }
      rewrite F1. apply Rltb_true.
      assert (HX : cosh Rd * (1 + 2 * (8 * u * Rd)) < X') by nra.
      assert (HX2 : cosh (Rd + 8 * u * Rd) < X'). { eapply Rle_lt_trans; [|exact HX]. apply cosh_grow; [lra|]. split; nra. }
      assert (HA : Rd + 8 * u * Rd < acosh X'). { apply acosh_gt_iff; [exact X1'|nra|exact HX2]. }
      destruct (Req_dec Rd 0) as [E0|E0].
      + rewrite E0 in *. nra.
      + apply Rlt_le_trans with (acosh X' * (1 - 4 * u)); [|lra]. assert (UR : 0 < u * Rd) by (apply Rmult_lt_0_compat; lra). assert (UR2 : u * (u * Rd) <= / 1000000000 * (u * Rd)) by (apply Rmult_le_compat_r; lra).
        apply Rlt_trans with ((Rd + 8 * u * Rd) * (1 - 4 * u)); [lra|apply Rmult_lt_compat_r; lra].
  Qed.
  Lemma pbl_loopF_eq r1 r2 Rd : (forall k, (k <= 64)%N -> Rltb Rd (hacosh M (XF r1 r2 (thF k))) = Rltb Rd (acosh (hc r1 r2 (half k)))) ->
    forall fuel level, (level + N.of_nat fuel <= 64)%N -> pbl_loopF M fuel r1 r2 Rd level (2 * thF level) = pbl_loop fuel r1 r2 Rd level (2 * half level).
  Proof.
    intros H. induction fuel as [|f IH]; intros level Hl; cbn [pbl_loopF pbl_loop]; rewrite !(lm_r M LM);
      replace (2 * half level / 2) with (half level) by field; replace (2 * thF level / 2) with (thF level) by field;
      rewrite (RN_id (thF level)) by (apply thF_double; lia); rewrite distF_eq, hyp_distance_0, H by lia; [reflexivity|].
    destruct (Rltb _ _); [|reflexivity].
    replace (half level) with (2 * half (level + 1)) by (rewrite half_succ; field). replace (thF level) with (2 * thF (level + 1)) by (rewrite thF_succ; field).
    apply IH. lia.
  Qed.
End Dist.

(** ** the disc *)
(** a disc of doubles on which the data structure is built as in exact arithmetic *)
Record double_disc (radii angles : list R) (Rd : R) : Prop := {
  dd_len : length radii = length angles;
  dd_n : (1 <= length radii)%nat;
  dd_n31 : (N.of_nat (length radii) < 2 ^ 31)%N;
  dd_R : is_double Rd /\ 2 / 3 <= Rd <= 40;
  (** radii may exceed R a little: sampleRadii rounds *)
  dd_r : List.Forall (fun r => is_double r /\ Rd * b2 (-52) <= r <= Rd * (1 + b2 (-46))) radii;
  dd_phi : List.Forall (fun phi => is_double phi /\ 0 <= phi < 2 * RN PI) angles;
  dd_thin : 4 / 3 <= Rd \/ Rd <= 1 \/ List.Forall (fun r => Rd - 1 + b2 (-53) <= r) radii;
  (** no comparison of partitioningBaseLevel is too close to call *)
  dd_clear : forall (i j : nat) (k : N), INR i < Rd -> INR j < Rd -> (k <= 64)%N ->
    b2 (-45) * (cosh (Rd - INR i - 1) * cosh (Rd - INR j - 1) + Rd * cosh Rd) < Rabs (hc (Rd - INR i - 1) (Rd - INR j - 1) (PI / pow2R k) - cosh Rd) }.
Definition radF (Rd r : R) : R := Rd - Rmax 0 (RN (Rd - r)).
Definition unitF (phi : R) : R := RN (RN (phi / 2) / RN PI).
Definition phiF (phi : R) : R := 2 * PI * unitF phi.
Lemma nth_map_lt {X Y} (f : X -> Y) l d d' i : (i < length l)%nat -> nth i (map f l) d' = f (nth i l d).
Proof. intros H. rewrite (nth_indep _ d' (f d)) by (rewrite map_length; exact H). apply map_nth. Qed.
Lemma half_phi phi : is_double phi -> 0 <= phi < 2 * RN PI -> 0 <= RN (phi / 2) < RN PI.
Proof.
  intros D H. pose proof PIF_bounds as P. destruct (Rle_lt_dec (b2 (-1000)) phi) as [L|L].
  - rewrite (RN_id (phi / 2)) by now apply double_half. lra.
  - split; [apply RN_nonneg; lra|]. apply Rle_lt_trans with (b2 0); [|change (b2 0) with 1; lra]. apply RN_le_b2; [|lia].
    apply Rle_trans with (b2 (-1000)); [pose proof (bpow_gt_0 radix2 (-1000)); lra|apply bpow_le; lia].
Qed.
Lemma unitF_range phi : is_double phi -> 0 <= phi < 2 * RN PI -> 0 <= unitF phi < 1.
Proof.
  intros D H. pose proof PIF_bounds as P. pose proof (half_phi phi D H) as H1. pose proof u_small as U. unfold unitF. set (x := RN (phi / 2)) in *.
  assert (Q : 0 <= x / RN PI). { unfold Rdiv. apply Rmult_le_pos; [lra|]. left. apply Rinv_0_lt_compat. lra. }
  split; [now apply RN_nonneg|].
  destruct (Rle_lt_dec (b2 (-1000)) (x / RN PI)) as [L|L].
  - assert (L' : b2 (-1022) <= x / RN PI) by (eapply Rle_trans; [|exact L]; apply bpow_le; lia).
    pose proof (RN_rel _ L') as [_ R]. eapply Rle_lt_trans; [exact R|].
    destruct (double_gap x (RN PI) (RN_double _) (RN_double _) H1) as [G|G].
    + replace (x / RN PI * (1 + u)) with (x * (1 + u) / RN PI) by (field; lra). apply Rmult_lt_reg_r with (RN PI); [lra|]. unfold Rdiv. rewrite Rmult_assoc, Rinv_l by lra. lra.
    + exfalso. rewrite G in L. unfold Rdiv in L. rewrite Rmult_0_l in L. pose proof (bpow_gt_0 radix2 (-1000)). lra.
  - apply Rle_lt_trans with (b2 (-1000)); [apply RN_le_b2; [lra|lia]|]. change 1 with (b2 0). apply bpow_lt. lia.
Qed.
Lemma radF_range Rd r : is_double Rd -> 2 / 3 <= Rd -> is_double r -> Rd * b2 (-52) <= r -> 0 < radF Rd r <= Rd.
Proof.
  intros DR HR D H. pose proof u_small as U. unfold radF. pose proof (Rmax_l 0 (RN (Rd - r))) as H0. split; [|lra].
  assert (EU : b2 (-52) = 2 * u). { change 2 with (b2 1). unfold u53. rewrite <- bpow_plus. reflexivity. } rewrite EU in H.
  assert (RN (Rd - r) < Rd); [|apply Rlt_Rminus, Rmax_lub_lt; lra]. destruct (Rle_lt_dec (b2 (-1022)) (Rd - r)) as [L|L].
  - pose proof (RN_rel _ L) as [_ R]. eapply Rle_lt_trans; [exact R|]. nra.
  - apply Rle_lt_trans with (b2 (-1)); [apply RN_le_b2; [|lia]|change (b2 (-1)) with (/ 2); lra].
    apply Rle_trans with (b2 (-1022)); [lra|apply bpow_le; lia].
Qed.
(** a negative difference of less than 1 is converted to 0 *)
Lemma layer_cast Rd r : 2 / 3 <= Rd <= 40 -> r <= Rd * (1 + b2 (-46)) -> Ztrunc (RN (Rd - r)) = Ztrunc (Rmax 0 (RN (Rd - r))).
Proof.
  intros HR H. assert (B : b2 (-46) <= b2 (-10)) by (apply bpow_le; lia). change (b2 (-10)) with (/ 1024) in B.
  destruct (Rle_lt_dec 0 (RN (Rd - r))) as [L|L]; [now rewrite Rmax_right|]. rewrite Rmax_left by lra. rewrite (Ztrunc_IZR 0), Ztrunc_ceil by lra. apply Zceil_imp.
  change (0 - 1)%Z with (-1)%Z. split; [|lra]. apply Rlt_le_trans with (- b2 (-1)); [change (b2 (-1)) with (/ 2); lra|].
  rewrite <- (RN_id (- b2 (-1))) by (unfold is_double; apply generic_format_opp, b2_double; lia). apply RN_le. change (b2 (-1)) with (/ 2). nra.
Qed.
Lemma rmin_double Rd i : is_double Rd -> 2 / 3 <= Rd <= 40 -> INR i < Rd -> is_double (Rd - INR i - 1) /\ is_double (Rd - INR i) /\ -1 <= Rd - INR i - 1 <= 39.
Proof.
  intros D HR Hi. pose proof (pos_INR i) as P. rewrite INR_IZR_INZ in *.
  assert (B : 0 <= Rd <= b2 52). { split; [lra|]. apply Rle_trans with (b2 6); [change (b2 6) with 64; lra|apply bpow_le; lia]. }
  split; [|split; [|lra]].
  - replace (Rd - IZR (Z.of_nat i) - 1) with (Rd - IZR (Z.of_nat i + 1)) by (rewrite plus_IZR; ring). apply double_minus; [exact D|exact B|]. rewrite plus_IZR.
    destruct i as [|i]; [cbn [Z.of_nat] in *; apply Rabs_le; lra|]. assert (1 <= IZR (Z.of_nat (S i))) by (apply IZR_le; lia). apply Rabs_le. lra.
  - apply double_minus; [exact D|exact B|]. rewrite Rabs_pos_eq by lra. lra.
Qed.
Section Fits.
  Variables (M : hmath) (LM : libm_ok M) (radii angles : list R) (Rd : R) (DD : double_disc radii angles Rd).
  Notation radii' := (map (radF Rd) radii).
  Notation angles' := (map phiF angles).
  Notation n := (length radii).
  Lemma rad' w : (w < n)%nat -> rad radii' w = radF Rd (rad radii w). Proof. intros H. now apply nth_map_lt. Qed.
  Lemma phi' w : (w < n)%nat -> phi angles' w = phiF (phi angles w). Proof. intros H. apply nth_map_lt. rewrite <- (dd_len _ _ _ DD). exact H. Qed.
  Lemma rad_dd w : (w < n)%nat -> is_double (rad radii w) /\ Rd * b2 (-52) <= rad radii w <= Rd * (1 + b2 (-46)).
  Proof. intros H. pose proof (dd_r _ _ _ DD) as F. rewrite Forall_forall in F. apply F. now apply nth_In. Qed.
  Lemma phi_dd w : (w < n)%nat -> is_double (phi angles w) /\ 0 <= phi angles w < 2 * RN PI.
  Proof. intros H. pose proof (dd_phi _ _ _ DD) as F. rewrite Forall_forall in F. apply F. apply nth_In. rewrite <- (dd_len _ _ _ DD). exact H. Qed.
  Lemma disc' : disc_input radii' angles' Rd.
  Proof.
    destruct (dd_R _ _ _ DD) as [DR HR]. constructor; rewrite ?map_length; try apply DD.
    - apply Forall_forall. intros x Hx. apply in_map_iff in Hx as (r & <- & Hr). pose proof (dd_r _ _ _ DD) as F. rewrite Forall_forall in F. destruct (F r Hr) as [D H].
      apply radF_range; auto; lra.
    - apply Forall_forall. intros x Hx. apply in_map_iff in Hx as (a & <- & Ha). pose proof (dd_phi _ _ _ DD) as F. rewrite Forall_forall in F. destruct (F a Ha) as [D H].
      pose proof (unitF_range a D H). pose proof PI_RGT_0. unfold phiF. nra.
    - destruct (dd_thin _ _ _ DD) as [H|[H|H]]; [now left|right; now left|right; right]. apply Forall_forall. intros x Hx. apply in_map_iff in Hx as (r & <- & Hr).
      rewrite Forall_forall in H. specialize (H r Hr). unfold radF. assert (RN (Rd - r) <= 1 - u); [|assert (Rmax 0 (RN (Rd - r)) <= 1 - u) by (apply Rmax_lub; pose proof u_small; lra); pose proof u53_pos; lra].
      assert (D1 : is_double (1 - u)).
      { replace (1 - u) with (IZR (2 ^ 53 - 1) * b2 (-53)); [apply FLT_double; lia|]. unfold u53. rewrite minus_IZR. replace (IZR (2 ^ 53)) with (b2 53) by reflexivity.
        rewrite Rmult_minus_distr_r, <- bpow_plus. replace (53 + -53)%Z with 0%Z by lia. change (b2 0) with 1. ring. }
      rewrite <- (RN_id _ D1). apply RN_le. fold u53 in H. lra.
  Qed.
  Lemma hm_lt i : (i < hm Rd)%nat -> INR i < Rd.
  Proof. apply (lt_hm _ _ _ disc'). Qed.
  Lemma rminF i : (i < hm Rd)%nat -> layer_rad_minF M Rd i = Rd - INR i - 1.
  Proof.
    intros Hi. pose proof (hm_lt i Hi) as H. destruct (dd_R _ _ _ DD) as [DR HR]. destruct (rmin_double Rd i DR HR H) as (D1 & D2 & B).
    unfold layer_rad_minF. rewrite !(lm_r M LM), Rmult_1_r. assert (HI : (Z.abs (Z.of_nat i) < 2 ^ 53)%Z).
    { assert (Hz : (Z.of_nat i < 40)%Z) by (apply lt_IZR; rewrite <- INR_IZR_INZ; lra). lia. }
    rewrite INR_IZR_INZ, (RN_Z _ HI), <- INR_IZR_INZ, (RN_id _ D2). now apply RN_id.
  Qed.
  Lemma bases_eq i j : (i < hm Rd)%nat -> (j < hm Rd)%nat ->
    pblF M (layer_rad_minF M Rd i) (layer_rad_minF M Rd j) Rd = pbl (layer_rad_min Rd i) (layer_rad_min Rd j) Rd.
  Proof.
    intros Hi Hj. rewrite !rminF by assumption. pose proof (hm_lt i Hi) as Hi'. pose proof (hm_lt j Hj) as Hj'. destruct (dd_R _ _ _ DD) as [DR HR].
    destruct (rmin_double Rd i DR HR Hi') as (D1 & _ & B1). destruct (rmin_double Rd j DR HR Hj') as (D2 & _ & B2).
    change (layer_rad_min Rd i) with (rmin Rd i). change (layer_rad_min Rd j) with (rmin Rd j). rewrite !rmin_eq. unfold pblF.
    assert (E1 : hr M (2 * hpi M) = 2 * thF 0).
    { rewrite (lm_r M LM), (lm_pi M LM). unfold thF. replace (RN PI / pow2R 0) with (RN PI) by (rewrite pow2R_b2; cbn; field).
      apply RN_id. replace (2 * RN PI) with (RN PI * b2 (Z.of_N 1)) by (change (b2 (Z.of_N 1)) with 2; ring). apply double_scale, RN_double. }
    rewrite E1. transitivity (pbl_loop 64 (Rd - INR i - 1) (Rd - INR j - 1) Rd 0 (2 * half 0)).
    - apply pbl_loopF_eq; [exact LM| |lia]. intros k Hk. apply (far_eq M LM _ _ (Z.of_nat j - Z.of_nat i)).
      + exact D1.
      + exact D2.
      + apply Rabs_le. lra.
      + apply Rabs_le. lra.
      + rewrite minus_IZR, <- !INR_IZR_INZ. ring.
      + lia.
      + lra.
      + apply (dd_clear _ _ _ DD); assumption.
    - Transparent pbl. unfold pbl. Opaque pbl. replace (2 * half 0) with (2 * PI) by (unfold half; rewrite pow2R_b2; cbn; field). reflexivity.
  Qed.
  Theorem double_fits : fits M radii angles radii' angles' Rd.
  Proof.
    destruct (dd_R _ _ _ DD) as [DR HR]. constructor.
    - apply map_length.
    - apply map_length.
    - apply disc'.
    - intros w Hw. destruct (rad_dd w Hw) as (_ & H). pose proof (bpow_gt_0 radix2 (-52)). nra.
    - unfold num_layers0F, num_layers0. rewrite (lm_r M LM), !rdiv1, (RN_id _ DR). reflexivity.
    - intros l Hl. assert (H0 : (0 < hm Rd)%nat) by (pose proof (hm_ceil _ _ _ disc'); lia).
      assert (E1 : layer_rad_minF M Rd 0 = hr M (Rd - 1)).
      { rewrite rminF by exact H0. cbn [INR]. replace (Rd - 0 - 1) with (Rd - 1) by ring.
        rewrite (lm_r M LM). symmetry. apply RN_id. destruct (rmin_double Rd 0 DR HR ltac:(cbn; lra)) as (D & _). cbn [INR] in D. replace (Rd - 0 - 1) with (Rd - 1) in D by ring. exact D. }
      assert (E2 : layer_rad_min Rd 0 = Rd - 1). { change (layer_rad_min Rd 0) with (rmin Rd 0). rewrite rmin_eq. cbn [INR]. ring. }
      rewrite <- E1, <- E2. now apply bases_eq.
    - apply bases_eq.
    - intros w Hw. unfold radius_to_layerF, radius_to_layer. rewrite !(lm_r M LM), (rad' w Hw). unfold radF. rewrite !rdiv1, (RN_id _ (RN_double _)).
      replace (Rd - (Rd - Rmax 0 (RN (Rd - rad radii w)))) with (Rmax 0 (RN (Rd - rad radii w))) by ring. unfold double_to_u32. rewrite (layer_cast Rd); [reflexivity|lra|apply (rad_dd w Hw)].
    - intros w l Hw Hl. unfold hcellForPointF, hcellForPoint. rewrite numCells_Some by lia. cbn [obind]. f_equal. rewrite !(lm_r M LM), (lm_pi M LM), (phi' w Hw).
      unfold phiF. fold (unitF (phi angles w)). replace (2 * PI * unitF (phi angles w) / 2 / PI) with (unitF (phi angles w)) by (field; apply PI_neq0).
      change (IZR (Z.of_N (2 ^ l))) with (pow2R l). rewrite pow2R_b2. apply RN_id. apply double_scale, RN_double.
  Qed.
End Fits.

(** ** the comparison of two points *)
Lemma exp40 x : x <= 41 -> exp x <= b2 64.
Proof.
  intros H. apply Rle_trans with (exp (INR 41)); [apply exp_le; rewrite INR_IZR_INZ; change (Z.of_nat 41) with 41%Z; lra|]. rewrite exp_INR. apply Rle_trans with ((28 / 10) ^ 41).
  - apply pow_incr. pose proof e_bounds. pose proof (exp_pos 1). lra.
  - unfold Rdiv. rewrite Rpow_mult_distr, pow_inv, !pow_IZR. change (b2 64) with (IZR 18446744073709551616).
    apply Rmult_le_reg_r with (IZR (10 ^ Z.of_nat 41)); [apply IZR_lt; reflexivity|]. rewrite Rmult_assoc, Rinv_l, Rmult_1_r by (apply IZR_neq; discriminate). rewrite <- mult_IZR. apply IZR_le. vm_compute. discriminate.
Qed.
Lemma sinh_le40 x : x <= 41 -> sinh x <= b2 64.
Proof. intros H. eapply Rle_trans; [|exact (exp40 x H)]. rewrite <- cosh_plus_sinh. pose proof (cosh_pos x). lra. Qed.
Section Hit.
  Variables (M : hmath) (LM : libm_ok M) (Rd r1 r2 p1 p2 : R).
  Hypothesis (DR : is_double Rd) (HR : 2 / 3 <= Rd <= 40).
  Hypothesis (D1 : is_double r1) (D2 : is_double r2) (H1 : 0 < r1 <= Rd + 1) (H2 : 0 < r2 <= Rd + 1).
  Hypothesis (DP1 : is_double p1) (DP2 : is_double p2) (HP1 : Rabs p1 <= 7) (HP2 : Rabs p2 <= 7).
  Lemma inv_rel r : is_double r -> 0 < r <= Rd + 1 -> rel (10 * u) (/ sinh r) (RN (1 / hsinh M r)) /\ b2 (-64) <= / sinh r.
  Proof.
    intros D H. pose proof u_small as U. pose proof (sinh_pos r (proj1 H)) as S. pose proof (sinh_le40 r ltac:(lra)) as SB.
    assert (L : b2 (-64) <= / sinh r). { change (-64)%Z with (- (64))%Z. rewrite bpow_opp. apply Rinv_le_contravar; [exact S|exact SB]. }
    split; [|exact L]. replace (10 * u) with (2 * (4 * u) + 2 * u) by ring. apply rel_RN; [lra| |].
    - eapply Rle_trans; [|exact L]. apply bpow_le. lia.
    - unfold Rdiv. rewrite Rmult_1_l. apply rel_inv; [lra|exact S|]. apply (lm_sinh M LM); [exact D|rewrite Rabs_pos_eq by lra; lra].
  Qed.
  Lemma coth_rel r : is_double r -> 0 < r <= Rd + 1 -> rel (15 * u) (cosh r / sinh r) (RN (hcosh M r / hsinh M r)) /\ 1 <= cosh r / sinh r.
  Proof.
    intros D H. pose proof u_small as U. pose proof (sinh_pos r (proj1 H)) as S. pose proof (cosh_sinh_abs r) as CS. rewrite Rabs_pos_eq in CS by lra.
    assert (L : 1 <= cosh r / sinh r). { apply Rmult_le_reg_r with (sinh r); [exact S|]. unfold Rdiv. rewrite Rmult_assoc, Rinv_l by lra. lra. }
    split; [|exact L]. apply (rel_le ((4 * u + 2 * (4 * u) + 2 * (4 * u) * (4 * u)) + 2 * u)); [nra|]. apply rel_RN; [split; nra| |].
    - apply Rle_trans with (b2 0); [apply bpow_le; lia|exact L].
    - apply rel_div; try lra.
      + apply (lm_cosh M LM); [exact D|rewrite Rabs_pos_eq by lra; lra].
      + apply (lm_sinh M LM); [exact D|rewrite Rabs_pos_eq by lra; lra].
  Qed.
  Definition aF : R := RN (RN (hcosh M r1 / hsinh M r1) * RN (hcosh M r2 / hsinh M r2)).
  Definition bF : R := RN (RN (hcosh M Rd * RN (1 / hsinh M r1)) * RN (1 / hsinh M r2)).
  Definition cF : R := RN (RN (hcos M p1 * hcos M p2) + RN (hsin M p1 * hsin M p2)).
  Notation A := (cosh r1 / sinh r1 * (cosh r2 / sinh r2)).
  Notation B := (cosh Rd * / sinh r1 * / sinh r2).
  Lemma a_rel : rel (33 * u) A aF /\ 1 <= A.
  Proof.
    pose proof u_small as U. destruct (coth_rel r1 D1 H1) as [E1 L1]. destruct (coth_rel r2 D2 H2) as [E2 L2]. assert (L : 1 <= A) by nra. split; [|exact L].
    apply (rel_le ((15 * u + 15 * u + 15 * u * (15 * u)) + 2 * u)); [nra|]. apply rel_RN; [split; nra| |apply rel_mul; try lra; assumption].
    apply Rle_trans with (b2 0); [apply bpow_le; lia|exact L].
  Qed.
  Lemma b_rel : rel (30 * u) B bF /\ 0 < B.
  Proof.
    pose proof u_small as U. destruct (inv_rel r1 D1 H1) as [E1 L1]. destruct (inv_rel r2 D2 H2) as [E2 L2]. pose proof (cosh_ge_1 Rd) as CR.
    assert (P1 : 0 < b2 (-64)) by apply bpow_gt_0.
    assert (EC : rel (4 * u) (cosh Rd) (hcosh M Rd)) by (apply (lm_cosh M LM); [exact DR|rewrite Rabs_pos_eq by lra; lra]).
    assert (L3 : b2 (-64) <= cosh Rd * / sinh r1) by nra.
    assert (E3 : rel (17 * u) (cosh Rd * / sinh r1) (RN (hcosh M Rd * RN (1 / hsinh M r1)))).
    { apply (rel_le ((4 * u + 10 * u + 4 * u * (10 * u)) + 2 * u)); [nra|]. apply rel_RN; [split; nra| |apply rel_mul; try lra; assumption].
      eapply Rle_trans; [|exact L3]. apply bpow_le. lia. }
    assert (L4 : b2 (-128) <= B). { change (-128)%Z with (-64 + -64)%Z. rewrite bpow_plus. apply Rmult_le_compat; lra. }
    split.
    - apply (rel_le ((17 * u + 10 * u + 17 * u * (10 * u)) + 2 * u)); [nra|]. apply rel_RN; [split; nra| |apply rel_mul; try lra; assumption].
      eapply Rle_trans; [|exact L4]. apply bpow_le. lia.
    - pose proof (bpow_gt_0 radix2 (-128)). lra.
  Qed.
  Lemma c_err : Rabs (cF - cos (p1 - p2)) <= 14 * u.
  Proof.
    pose proof u_small as U. pose proof eta_small as T0. assert (UU : u * u <= / 1000000000 * u) by (apply Rmult_le_compat_r; lra).
    assert (K : forall x x' y y', Rabs x <= 1 -> Rabs y <= 1 -> Rabs (x' - x) <= 2 * u -> Rabs (y' - y) <= 2 * u -> Rabs (RN (x' * y') - x * y) <= 6 * u).
    { intros x x' y y' Bx By Ex Ey. eapply Rle_trans; [apply abs_RN; [|apply abs_mul; [exact Bx|exact Ex|exact By|exact Ey]]|].
      - rewrite Rabs_mult. instantiate (1 := 1). pose proof (Rabs_pos x). pose proof (Rabs_pos y). nra.
      - assert (u * (u * u) <= / 1000000000 * u) by nra. lra. }
    assert (CB : forall x, Rabs (cos x) <= 1) by (intros x; apply Rabs_le; apply COS_bound). assert (SB : forall x, Rabs (sin x) <= 1) by (intros x; apply Rabs_le; apply SIN_bound).
    pose proof (K _ _ _ _ (CB p1) (CB p2) (lm_cos M LM p1 DP1 HP1) (lm_cos M LM p2 DP2 HP2)) as K1.
    pose proof (K _ _ _ _ (SB p1) (SB p2) (lm_sin M LM p1 DP1 HP1) (lm_sin M LM p2 DP2 HP2)) as K2.
    unfold cF. eapply Rle_trans; [apply (abs_RN _ _ (12 * u) 1); [apply CB|]|].
    - rewrite cos_minus. match goal with |- Rabs (?a + ?b - (?x + ?y)) <= _ => replace (a + b - (x + y)) with ((a - x) + (b - y)) by ring end.
      eapply Rle_trans; [apply Rabs_triang|]. lra.
    - lra.
  Qed.
  Notation err := (b2 (-47) * (cosh r1 * cosh r2 + cosh Rd)).
  Lemma hit_close : if Rltb (RN (aF - bF)) cF then hc r1 r2 (p1 - p2) < cosh Rd + err else cosh Rd - err < hc r1 r2 (p1 - p2).
  Proof.
    pose proof u_small as U. pose proof eta_small as T0. destruct a_rel as [EA LA]. destruct b_rel as [EB LB]. pose proof c_err as EC. unfold rel in EA, EB.
    pose proof (sinh_pos r1 (proj1 H1)) as S1. pose proof (sinh_pos r2 (proj1 H2)) as S2. set (S := sinh r1 * sinh r2). assert (S0 : 0 < S) by (unfold S; nra).
    assert (EH : hc r1 r2 (p1 - p2) - cosh Rd = S * (A - B - cos (p1 - p2))) by (unfold hc, S; field; lra).
    assert (ES : S * (A + B) = cosh r1 * cosh r2 + cosh Rd) by (unfold S; field; lra).
    assert (EU : b2 (-47) = 64 * u). { change 64 with (b2 6). unfold u53. rewrite <- bpow_plus. reflexivity. }
    rewrite EU, <- ES. set (a := A) in *. set (b := B) in *. clearbody a b. rewrite (Rabs_pos_eq a) in EA by lra. rewrite (Rabs_pos_eq b) in EB by lra.
    assert (UU : u * u * (a + b) <= / 1000000000 * (u * (a + b))) by (rewrite Rmult_assoc; apply Rmult_le_compat_r; [nra|lra]).
    assert (U0 : u <= u * (a + b)) by nra.
    assert (EL : Rabs (RN (aF - bF) - (a - b)) <= 35 * (u * (a + b))).
    { eapply Rle_trans; [apply (abs_RN _ _ (33 * (u * (a + b))) (a + b))|].
      - apply Rabs_le. lra.
      - replace (aF - bF - (a - b)) with ((aF - a) + - (bF - b)) by ring. eapply Rle_trans; [apply Rabs_triang|]. rewrite Rabs_Ropp. assert (0 < u * b) by nra. lra.
      - assert (eta <= / 1000000000 * (u * (a + b))) by nra. lra. }
    apply Rabs_le_inv in EL, EC. set (c := cos (p1 - p2)) in *.
    destruct (Rltb (RN (aF - bF)) cF) eqn:E; [apply Rltb_true in E|apply Rltb_false in E].
    - assert (Q : a - b - c < 64 * (u * (a + b))) by lra. apply (Rmult_lt_compat_l S _ _ S0) in Q. lra.
    - assert (Q : - (64 * (u * (a + b))) < a - b - c) by lra. apply (Rmult_lt_compat_l S _ _ S0) in Q. lra.
  Qed.
End Hit.
(** the angle whose cell is used is close to the angle *)
Lemma phiF_err phi : is_double phi -> 0 <= phi < 2 * RN PI -> Rabs (phiF phi - phi) <= 32 * u.
Proof.
  intros D H. pose proof u_small as U. pose proof eta_small as T0. pose proof PIF_bounds as P. pose proof PI_err as PE. pose proof PI_upper as PU. pose proof PI_RGT_0 as P0.
  assert (UU : u * u <= / 1000000000 * u) by (apply Rmult_le_compat_r; lra).
  pose proof (RN_err (phi / 2)) as E1. rewrite (Rabs_pos_eq (phi / 2)) in E1 by lra. set (x := RN (phi / 2)) in *. pose proof (half_phi phi D H) as HX. fold x in HX.
  assert (E2 : Rabs (unitF phi - x / RN PI) <= u + eta).
  { unfold unitF. fold x. eapply Rle_trans; [apply RN_err|]. assert (0 <= x / RN PI <= 1).
    { split; [unfold Rdiv; apply Rmult_le_pos; [lra|left; apply Rinv_0_lt_compat; lra]|]. apply Rmult_le_reg_r with (RN PI); [lra|]. unfold Rdiv. rewrite Rmult_assoc, Rinv_l by lra. lra. }
    rewrite Rabs_pos_eq by lra. nra. }
  unfold phiF. set (y := unitF phi) in *. set (w := RN PI) in *.
  assert (E3 : Rabs (2 * PI * (y - x / w)) <= 7 * (u + eta)).
  { rewrite Rabs_mult, (Rabs_pos_eq (2 * PI)) by lra. pose proof (Rabs_pos (y - x / w)). nra. }
  assert (E4 : Rabs (2 * (x / w) * (PI - w)) <= 4 * u).
  { rewrite Rabs_mult. assert (Q : 0 <= x / w <= 1).
    { split; [unfold Rdiv; apply Rmult_le_pos; [lra|left; apply Rinv_0_lt_compat; lra]|]. apply Rmult_le_reg_r with w; [lra|]. unfold Rdiv. rewrite Rmult_assoc, Rinv_l by lra. lra. }
    rewrite (Rabs_pos_eq (2 * (x / w))) by lra. rewrite Rabs_minus_sym in PE. pose proof (Rabs_pos (PI - w)). nra. }
  assert (E5 : Rabs (2 * (x - phi / 2)) <= 8 * u).
  { rewrite Rabs_mult, (Rabs_pos_eq 2) by lra. assert (u * (phi / 2) <= u * (22 / 7)) by (apply Rmult_le_compat_l; lra). lra. }
  replace (2 * PI * y - phi) with (2 * PI * (y - x / w) + 2 * (x / w) * (PI - w) + 2 * (x - phi / 2)) by (field; lra).
  eapply Rle_trans; [apply Rabs_triang|]. eapply Rle_trans; [apply Rplus_le_compat_r, Rabs_triang|]. lra.
Qed.
