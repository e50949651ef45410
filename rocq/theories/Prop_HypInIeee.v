(** Property C75: the points that sampleRadii and sampleAngles draw in double arithmetic are valid inputs of the generator in double arithmetic. *)
From Coq Require Import Arith NArith ZArith List Bool Reals Permutation Lia Lra Psatz.
From Flocq Require Import Core.
From Verif Require Import Base Sched Coord_Model Coord_Proofs Coord_Geo Tree_Model Tree_Run Sampling_Model Sampling_Proofs Prop_Sampling Girg_Model Girg_Num Prop_Girg Ieee
  Hyp_Model Hyp_Math Hyp_Angle Hyp_Levels Hyp_Build Hyp_Threads Prop_Hyp HypIn_Model Prop_HypIn HypF_Model HypF_Build HypF_Run HypF_Err HypF_Ieee Prop_HypIeee HypInF_Model.
Import ListNotations.
Local Open Scope R_scope.
Local Notation u := u53.

Lemma above_double : is_double above_one /\ above_one = 1 + 2 * u.
Proof.
  assert (E : above_one = 1 + 2 * u). { unfold above_one. f_equal. replace (/ IZR (2 ^ 52)) with (b2 (-52)) by reflexivity. change 2 with (b2 1). unfold u53. rewrite <- bpow_plus. reflexivity. }
  split; [|exact E]. rewrite E. replace (1 + 2 * u) with (IZR (2 ^ 52 + 1) * b2 (-52)); [apply FLT_double; lia|].
  rewrite plus_IZR. replace (IZR (2 ^ 52)) with (b2 52) by reflexivity. rewrite Rmult_plus_distr_r, <- bpow_plus. change (b2 (52 + -52)) with 1. rewrite Rmult_1_l. f_equal.
  change 2 with (b2 1). unfold u53. rewrite <- bpow_plus. reflexivity.
Qed.
(** ** the angle *)
Lemma angle_range M x : libm_ok M -> is_double x -> 0 <= x < 1 -> is_double (angle_ofF M x) /\ 0 <= angle_ofF M x < 2 * RN PI.
Proof.
  intros LM D Hx. unfold angle_ofF, uniF. rewrite !(lm_r M LM), (lm_pi M LM). split; [apply RN_double|]. pose proof PIF_bounds as PB. pose proof u_small as U.
  assert (D2 : is_double (2 * RN PI)). { replace (2 * RN PI) with (RN PI * b2 (Z.of_N 1)) by (change (b2 (Z.of_N 1)) with 2; ring). apply double_scale, RN_double. }
  rewrite Rminus_0_r, !Rplus_0_r. rewrite (RN_id (2 * RN PI) D2), (RN_id (2 * RN PI) D2), (RN_id (RN _) (RN_double _)). set (p := 2 * RN PI) in *.
  split; [apply RN_nonneg; apply Rmult_le_pos; unfold p; lra|].
  assert (HP : 6 <= p <= 44 / 7) by (unfold p; lra).
  assert (X1 : x <= 1 - u / 2 - u / 4). { destruct (double_gap x 1 D ltac:(apply (double_Z 1); lia) Hx) as [G|G]; [|lra]. assert (u * u <= / 100 * u) by (apply Rmult_le_compat_r; lra). nra. }
  assert (MG : mag_val radix2 p (mag radix2 p) = 3%Z) by (apply mag_unique_pos; change (b2 (3 - 1)) with 4; change (b2 3) with 8; lra).
  assert (PP : pred radix2 fexp64 p = p - b2 (-50)).
  { rewrite pred_eq_pos by lra. unfold pred_pos. rewrite MG, Req_bool_false by (change (b2 (3 - 1)) with 4; lra). rewrite ulp_neq_0 by lra. unfold cexp. rewrite MG. reflexivity. }
  assert (E50 : b2 (-50) = 8 * u). { change 8 with (b2 3). unfold u53. rewrite <- bpow_plus. reflexivity. }
  apply Rle_lt_trans with (pred radix2 fexp64 p); [|rewrite PP; lra].
  assert (DP : generic_format radix2 fexp64 (pred radix2 fexp64 p)) by (apply generic_format_pred; try typeclasses eauto; exact D2).
  apply round_N_le_midp; try typeclasses eauto; [exact DP|]. rewrite succ_pred by (try typeclasses eauto; exact D2). rewrite PP, E50.
  assert (x * p <= p - p * (u / 2 + u / 4)) by nra. nra.
Qed.
(** ** the radius *)
Lemma cosh_quadratic t : 0 <= t <= / 2 -> cosh t <= 1 + t * t.
Proof.
  intros H. assert (E : cosh t = 1 + 2 * (sinh (t / 2) * sinh (t / 2))).
  { replace t with (t / 2 + t / 2) at 1 by field. rewrite cosh_plus. pose proof (cosh_sqr (t / 2)). lra. }
  rewrite E. pose proof (sinh_small (t / 2) ltac:(lra)) as S. pose proof (sinh_nonneg (t / 2) ltac:(lra)) as S0. set (s := sinh (t / 2)) in *.
  assert (s <= t / 2 * (5 / 4)) by nra. nra.
Qed.
Lemma acosh_above x : above_one <= x -> b2 (-26) <= acosh x.
Proof.
  intros H. destruct above_double as [_ E]. pose proof u_small as U. assert (B : b2 (-26) * b2 (-26) = 2 * u). { rewrite <- bpow_plus. change 2 with (b2 1). unfold u53. rewrite <- bpow_plus. reflexivity. }
  assert (B1 : 0 < b2 (-26) <= / 2). { split; [apply bpow_gt_0|]. change (/ 2) with (b2 (-1)). apply bpow_le. lia. }
  rewrite <- (acosh_cosh (b2 (-26))) by lra. apply acosh_le; [apply cosh_ge_1|]. pose proof (cosh_quadratic (b2 (-26)) ltac:(lra)). lra.
Qed.
Lemma coth_bound y : 33 / 100 <= y -> cosh y <= 5 * sinh y.
Proof.
  intros H. unfold cosh, sinh. pose proof (exp_opp_mul y) as E. pose proof (exp_ineq1_le y) as I. pose proof (exp_pos (- y)) as P. nra.
Qed.
Lemma radius_rangeF M alpha Rd x : libm_ok M -> is_double alpha -> is_double Rd -> 1 / 2 <= alpha -> 2 / 3 <= Rd -> alpha * Rd <= 99 -> is_double x -> 0 <= x < 1 ->
  above_one <= hcosh M (RN (alpha * Rd)) /\ is_double (radius_ofF M alpha Rd x) /\ Rd * b2 (-52) <= radius_ofF M alpha Rd x <= Rd * (1 + b2 (-46)).
Proof.
  intros LM DA DR HA HR HAR DX HX. pose proof u_small as U. destruct above_double as [D1 E1].
  assert (UU : u * u <= / 1000000000 * u) by (apply Rmult_le_compat_r; lra).
  assert (N0 : b2 (-1022) <= b2 (-50)) by (apply bpow_le; lia). assert (N1 : b2 (-50) <= b2 (-10)) by (apply bpow_le; lia). change (b2 (-10)) with (/ 1024) in N1.
  assert (AR : 1 / 3 <= alpha * Rd) by nra.
  destruct (RN_rel (alpha * Rd) ltac:(lra)) as [Y1 Y2]. set (y := RN (alpha * Rd)) in *.
  assert (YB : 33 / 100 <= y <= 100) by nra.
  pose proof (lm_cosh M LM y (RN_double _) ltac:(rewrite Rabs_pos_eq; lra)) as EC. pose proof (cosh_ge_1 y) as C1. rewrite (Rabs_pos_eq (cosh y)) in EC by lra. apply Rabs_le_inv in EC.
  set (b := hcosh M y) in *.
  assert (CL : 105 / 100 <= cosh y).
  { pose proof (sinh_small (33 / 100 / 2) ltac:(lra)) as S. assert (E : cosh (33 / 100) = 1 + 2 * (sinh (33 / 100 / 2) * sinh (33 / 100 / 2))).
    { replace (33 / 100) with (33 / 100 / 2 + 33 / 100 / 2) at 1 by field. rewrite cosh_plus. pose proof (cosh_sqr (33 / 100 / 2)). lra. }
    pose proof (cosh_le (33 / 100) y ltac:(lra) ltac:(lra)). nra. }
  assert (B1 : 104 / 100 <= b) by nra.
  split; [lra|]. unfold radius_ofF, uniF. rewrite !(lm_r M LM). fold y. fold b. split; [apply RN_double|].
  destruct (RN_rel (b - above_one) ltac:(lra)) as [W1 W2]. set (w := RN (b - above_one)) in *.
  assert (W0 : 0 <= w) by nra.
  assert (V : 0 <= RN (x * w) <= w). { split; [apply RN_nonneg; apply Rmult_le_pos; lra|]. rewrite <- (RN_id w) at 2 by (unfold w; apply RN_double). apply RN_le. nra. }
  set (v := RN (x * w)) in *.
  destruct (RN_rel (v + above_one) ltac:(lra)) as [Z1 Z2].
  assert (Z3 : above_one <= RN (v + above_one)). { rewrite <- (RN_id above_one D1) at 1. apply RN_le. lra. }
  pose proof (lm_acosh M LM (RN (v + above_one)) (RN_double _) ltac:(lra)) as EA. set (z := RN (v + above_one)) in *.
  assert (ZU : z <= cosh y * (1 + 7 * u)).
  { eapply Rle_trans; [exact Z2|]. assert (v + above_one <= b * (1 + u)) by nra. assert (b <= cosh y * (1 + 4 * u)) by lra. apply Rle_trans with (b * (1 + u) * (1 + u)); [apply Rmult_le_compat_r; lra|].
    apply Rle_trans with (cosh y * (1 + 4 * u) * ((1 + u) * (1 + u))); [rewrite (Rmult_assoc b); apply Rmult_le_compat_r; nra|]. rewrite Rmult_assoc. apply Rmult_le_compat_l; [lra|].
    assert (u * (u * u) <= 1 * (u * u)) by (apply Rmult_le_compat_r; [apply Rmult_le_pos; lra|lra]). lra. }
  assert (AU : acosh z <= y + 35 * u).
  { rewrite <- (acosh_cosh (y + 35 * u)) by lra. apply acosh_le; [lra|]. eapply Rle_trans; [exact ZU|]. rewrite cosh_plus. pose proof (coth_bound y ltac:(lra)) as CB. pose proof (sinh_pos y ltac:(lra)) as SY.
    pose proof (cosh_ge_1 (35 * u)). pose proof (sinh_small (35 * u) ltac:(lra)) as SS.
    assert (cosh y * 1 <= cosh y * cosh (35 * u)) by (apply Rmult_le_compat_l; lra). assert (sinh y * (35 * u) <= sinh y * sinh (35 * u)) by (apply Rmult_le_compat_l; lra).
    assert (cosh y * (7 * u) <= 5 * sinh y * (7 * u)) by (apply Rmult_le_compat_r; lra). lra. }
  pose proof (acosh_above z Z3) as AL. assert (P26 : 0 < b2 (-26)) by apply bpow_gt_0. rewrite (Rabs_pos_eq (acosh z)) in EA by lra. apply Rabs_le_inv in EA.
  assert (IA : 0 < 1 / alpha <= 2). { split; [apply Rdiv_lt_0_compat; lra|]. apply Rmult_le_reg_r with alpha; [lra|]. unfold Rdiv. rewrite Rmult_assoc, Rinv_l by lra. lra. }
  assert (IR : Rd / 99 <= 1 / alpha). { apply Rmult_le_reg_r with (99 * alpha); [lra|]. replace (Rd / 99 * (99 * alpha)) with (alpha * Rd) by field. replace (1 / alpha * (99 * alpha)) with 99 by (field; lra). exact HAR. }
  destruct (RN_rel (1 / alpha) ltac:(lra)) as [I1 I2]. set (ia := RN (1 / alpha)) in *. set (h := hacosh M z) in *.
  assert (HL : b2 (-27) <= h). { assert (b2 (-27) * 2 = b2 (-26)) by (change 2 with (b2 1); rewrite <- bpow_plus; reflexivity). assert (4 * u * acosh z <= / 2 * acosh z) by (apply Rmult_le_compat_r; lra). lra. }
  assert (IL : Rd / 128 <= ia) by (assert (Rd / 99 * (1 - u) <= 1 / alpha * (1 - u)) by (apply Rmult_le_compat_r; lra); assert (Rd / 99 * u <= Rd / 99 * (/ 1000)) by (apply Rmult_le_compat_l; lra); lra).
  assert (P27 : 0 < b2 (-27)) by apply bpow_gt_0.
  assert (PL : Rd * b2 (-34) <= h * ia). { replace (Rd * b2 (-34)) with (b2 (-27) * (Rd / 128)); [apply Rmult_le_compat; lra|]. replace (b2 (-27)) with (b2 7 * b2 (-34)) by (rewrite <- bpow_plus; reflexivity). change (b2 7) with 128. field. }
  assert (B34 : b2 (-50) <= / 1000 * b2 (-34)). { replace (b2 (-50)) with (b2 (-16) * b2 (-34)) by (rewrite <- bpow_plus; reflexivity). apply Rmult_le_compat_r; [apply bpow_ge_0|]. apply Rle_trans with (b2 (-10)); [apply bpow_le; lia|change (b2 (-10)) with (/ 1024); lra]. }
  assert (B52 : b2 (-52) <= b2 (-50)) by (apply bpow_le; lia). pose proof (bpow_gt_0 radix2 (-52)) as P52.
  assert (R34 : 2 / 3 * b2 (-34) <= Rd * b2 (-34)) by (apply Rmult_le_compat_r; [apply bpow_ge_0|lra]).
  assert (R52 : Rd * b2 (-52) <= Rd * (/ 1000 * b2 (-34))) by (apply Rmult_le_compat_l; lra). pose proof (bpow_gt_0 radix2 (-34)) as P34.
  destruct (RN_rel (h * ia) ltac:(lra)) as [F1 F2]. split.
  - eapply Rle_trans; [|exact F1]. assert (h * ia * u <= h * ia * (/ 1000)) by (apply Rmult_le_compat_l; lra). lra.
  - eapply Rle_trans; [exact F2|].
    assert (EE : b2 (-46) = 128 * u). { change 128 with (b2 7). unfold u53. rewrite <- bpow_plus. reflexivity. } rewrite EE.
    assert (H1 : h <= (alpha * Rd * (1 + u) + 35 * u) * (1 + 4 * u)). { apply Rle_trans with (acosh z * (1 + 4 * u)); [lra|]. apply Rmult_le_compat_r; lra. }
    assert (H2 : h <= alpha * Rd * (1 + 111 * u)).
    { eapply Rle_trans; [exact H1|]. assert (35 * u <= 105 * u * (alpha * Rd)) by (assert (105 * u * (1 / 3) <= 105 * u * (alpha * Rd)) by (apply Rmult_le_compat_l; lra); lra). apply Rle_trans with (alpha * Rd * ((1 + 106 * u) * (1 + 4 * u))).
      - rewrite <- Rmult_assoc. apply Rmult_le_compat_r; lra.
      - apply Rmult_le_compat_l; lra. }
    assert (H3 : h * ia <= Rd * ((1 + 111 * u) * (1 + u))).
    { apply Rle_trans with (alpha * Rd * (1 + 111 * u) * (1 / alpha * (1 + u))); [apply Rmult_le_compat; lra|]. right. field. lra. }
    apply Rle_trans with (Rd * ((1 + 111 * u) * (1 + u)) * (1 + u)); [apply Rmult_le_compat_r; lra|]. rewrite Rmult_assoc. apply Rmult_le_compat_l; [lra|].
    assert (u * (u * u) <= 1 * (u * u)) by (apply Rmult_le_compat_r; [apply Rmult_le_pos; lra|lra]). lra.
Qed.

(** ** the sampling functions *)
(** the engine's canonical draws are doubles in [0,1) *)
Definition double_engine (en : hengine) : Prop := good_rng (he en) /\ forall g, is_double (fst (u01 (he en) g)).
(** arguments of the sampling functions: doubles alpha and R of ordinary size *)
Record double_args (n omp_max team : nat) (alpha Rd : R) (seed : Z) (parallel : bool) : Prop := {
  da_n : (1 <= n)%nat; da_n31 : (N.of_nat n + 9999 < 2 ^ 31)%N; da_omp : (1 <= omp_max)%nat;
  da_alpha : is_double alpha /\ 1 / 2 <= alpha; da_R : is_double Rd /\ 2 / 3 <= Rd; da_prod : alpha * Rd <= 99;
  da_team : (1 <= team <= if parallel then Nat.min omp_max (N.to_nat ((N.of_nat n + 9999) / 10000)) else 1)%nat;
  da_seed : (seed < 0 \/ seed + Z.of_nat team <= 2 ^ 31)%Z }.
Definition radius_valid (Rd r : R) : Prop := is_double r /\ Rd * b2 (-52) <= r <= Rd * (1 + b2 (-46)).
Definition angle_valid (a : R) : Prop := is_double a /\ 0 <= a < 2 * RN PI.

Lemma args_exact n omp_max team alpha Rd seed parallel : double_args n omp_max team alpha Rd seed parallel -> sample_args n omp_max team alpha Rd seed parallel.
Proof.
  intros [A1 A2 A3 [_ A4] [_ A5] A6 A7 A8]. constructor; auto; try lra. destruct above_double as [_ E]. pose proof u_small as U.
  pose proof (exp_ineq1_le (alpha * Rd)) as I. pose proof (exp_opp_mul (alpha * Rd)) as P. assert (AR : 1 / 3 <= alpha * Rd) by nra. pose proof (exp_pos (- (alpha * Rd))) as Q.
  unfold cosh. set (x := exp (alpha * Rd)) in *. set (y := exp (- (alpha * Rd))) in *. assert (x * (x + y) >= x * (2 + 4 * u)) by nra. nra.
Qed.
Lemma hsample_specF M en Radii Angles n alpha Rd seed parallel omp_max team : libm_ok M -> double_args n omp_max team alpha Rd seed parallel -> forall o,
  hsample_outcomeF M en Radii Angles n alpha Rd seed parallel omp_max team o <->
  exists gens, gens_ok (he en) seed team gens /\
    o = Some (chunks (hsample_stepF M (he en) Radii Angles alpha Rd) team n (map (Nat.iter (warm n omp_max parallel) (raw en)) gens)).
Proof.
  intros LM DA o. pose proof (args_exact _ _ _ _ _ _ _ DA) as SA. destruct (threads_pos _ _ _ _ _ _ _ SA) as (th & E1 & E2 & E3 & E4). unfold hsample_outcomeF. rewrite E1. cbn [obind]. rewrite E4. cbn [obind].
  assert (SD : seeds_defined seed team = true).
  { unfold seeds_defined. apply orb_true_iff. destruct (da_seed _ _ _ _ _ _ _ DA) as [H|H]; [left; apply Z.ltb_lt; lia|right; apply Z.ltb_lt; lia]. }
  assert (CC : above_one <= hcosh M (hr M (alpha * Rd))).
  { rewrite (lm_r M LM). destruct (da_alpha _ _ _ _ _ _ _ DA), (da_R _ _ _ _ _ _ _ DA). apply (radius_rangeF M alpha Rd 0 LM); auto; try lra; [apply DA|apply (double_Z 0); lia]. }
  rewrite SD, (proj2 (Rleb_true _ _) CC). cbn [andb]. pose proof (da_team _ _ _ _ _ _ _ DA) as HT. split.
  - intros [_ (gens & Hg & F)]. exists gens. split; [exact Hg|]. apply filled_iff in F; [exact F|lia|rewrite map_length; eapply gens_length; eauto].
  - intros (gens & Hg & ->). split; [lia|]. exists gens. split; [exact Hg|]. apply filled_iff; [lia|rewrite map_length; eapply gens_length; eauto|reflexivity].
Qed.
Section Sampled.
  Context {M : hmath} (LM : libm_ok M) {en : hengine} (DE : double_engine en) {n omp_max team : nat} {alpha Rd : R} {seed : Z} {parallel : bool}.
  Context (DA : double_args n omp_max team alpha Rd seed parallel).
  Lemma step_valid Radii Angles g : (Radii = true -> radius_valid Rd (fst (fst (hsample_stepF M (he en) Radii Angles alpha Rd g)))) /\
    (Angles = true -> angle_valid (snd (fst (hsample_stepF M (he en) Radii Angles alpha Rd g)))).
  Proof.
    destruct DE as [GR DD]. destruct (da_alpha _ _ _ _ _ _ _ DA), (da_R _ _ _ _ _ _ _ DA). unfold hsample_stepF.
    assert (RV : forall g', radius_valid Rd (radius_ofF M alpha Rd (fst (u01 (he en) g')))).
    { intros g'. pose proof (gu01 _ GR g') as U. apply (radius_rangeF M alpha Rd _ LM); auto; apply DA. }
    assert (AV : forall g', angle_valid (angle_ofF M (fst (u01 (he en) g')))) by (intros g'; apply angle_range; auto; apply (gu01 _ GR)).
    pose proof (AV g) as A0. pose proof (RV g) as R0. destruct Angles; [destruct (u01 (he en) g) as [x g1]|].
    - pose proof (RV g1) as R1. destruct Radii; [destruct (u01 (he en) g1)|]; cbn [fst snd] in *; split; intros E; auto; discriminate.
    - destruct Radii; [destruct (u01 (he en) g)|]; cbn [fst snd] in *; split; intros E; auto; discriminate.
  Qed.
  Lemma chunks_valid Radii Angles gens : gens_ok (he en) seed team gens ->
    let l := chunks (hsample_stepF M (he en) Radii Angles alpha Rd) team n (map (Nat.iter (warm n omp_max parallel) (raw en)) gens) in
    length l = n /\ (Radii = true -> List.Forall (radius_valid Rd) (map fst l)) /\ (Angles = true -> List.Forall angle_valid (map snd l)).
  Proof.
    intros Hg l. pose proof (da_team _ _ _ _ _ _ _ DA) as HT. split; [apply chunks_length; [lia|rewrite map_length; eapply gens_length; eauto]|].
    split; intros E; apply List.Forall_forall; intros x Hx; apply in_map_iff in Hx as (p & <- & Hp); apply in_chunks in Hp as (g & ->); now apply step_valid.
  Qed.
End Sampled.
(** *** C75: n radii and angles, valid for the generator in doubles *)
Theorem C75_radii : forall M en n alpha Rd seed parallel omp_max team,
  libm_ok M -> double_engine en -> double_args n omp_max team alpha Rd seed parallel ->
  (exists o, sampleRadiiF M en n alpha Rd seed parallel omp_max team o) /\
  forall o, sampleRadiiF M en n alpha Rd seed parallel omp_max team o -> exists rs, o = Some rs /\ length rs = n /\ List.Forall (radius_valid Rd) rs.
Proof.
  intros M en n alpha Rd seed parallel omp_max team LM DE DA. split.
  - destruct (gens_exist (he en) seed team) as (gens & Hg). eexists. eexists. split; [apply (hsample_specF M en true false _ _ _ _ _ _ _ LM DA); exists gens; split; [exact Hg|reflexivity]|reflexivity].
  - intros o (oo & Ho & ->). apply (hsample_specF M en true false _ _ _ _ _ _ _ LM DA) in Ho as (gens & Hg & ->). cbn [obind]. destruct (chunks_valid LM DE DA true false gens Hg) as (L & V & _).
    eexists. split; [reflexivity|]. rewrite map_length. auto.
Qed.
Theorem C75_angles : forall M en n seed parallel omp_max team,
  libm_ok M -> double_engine en -> double_args n omp_max team 1 10 seed parallel ->
  (exists o, sampleAnglesF M en n seed parallel omp_max team o) /\
  forall o, sampleAnglesF M en n seed parallel omp_max team o -> exists phis, o = Some phis /\ length phis = n /\ List.Forall angle_valid phis.
Proof.
  intros M en n seed parallel omp_max team LM DE DA. split.
  - destruct (gens_exist (he en) seed team) as (gens & Hg). eexists. eexists. split; [apply (hsample_specF M en false true _ _ _ _ _ _ _ LM DA); exists gens; split; [exact Hg|reflexivity]|reflexivity].
  - intros o (oo & Ho & ->). apply (hsample_specF M en false true _ _ _ _ _ _ _ LM DA) in Ho as (gens & Hg & ->). cbn [obind]. destruct (chunks_valid LM DE DA false true gens Hg) as (L & _ & V).
    eexists. split; [reflexivity|]. rewrite map_length. auto.
Qed.
Theorem C75_both : forall M en n alpha Rd seed parallel omp_max team,
  libm_ok M -> double_engine en -> double_args n omp_max team alpha Rd seed parallel ->
  (exists o, sampleRadiiAndAnglesF M en n alpha Rd seed parallel omp_max team o) /\
  forall o, sampleRadiiAndAnglesF M en n alpha Rd seed parallel omp_max team o ->
  exists rs phis, o = Some (rs, phis) /\ length rs = n /\ length phis = n /\ List.Forall (radius_valid Rd) rs /\ List.Forall angle_valid phis.
Proof.
  intros M en n alpha Rd seed parallel omp_max team LM DE DA. split.
  - destruct (gens_exist (he en) seed team) as (gens & Hg). eexists. eexists. split; [apply (hsample_specF M en true true _ _ _ _ _ _ _ LM DA); exists gens; split; [exact Hg|reflexivity]|reflexivity].
  - intros o (oo & Ho & ->). apply (hsample_specF M en true true _ _ _ _ _ _ _ LM DA) in Ho as (gens & Hg & ->). cbn [obind]. destruct (chunks_valid LM DE DA true true gens Hg) as (L & V1 & V2).
    eexists. eexists. split; [reflexivity|]. rewrite !map_length. auto.
Qed.
(** no comparison of two layers in partitioningBaseLevel is a near tie (a property of R alone) *)
Definition clear_levels (Rd : R) : Prop := forall (i j : nat) (k : N), INR i < Rd -> INR j < Rd -> (k <= 64)%N ->
  b2 (-45) * (cosh (Rd - INR i - 1) * cosh (Rd - INR j - 1) + Rd * cosh Rd) < Rabs (hc (Rd - INR i - 1) (Rd - INR j - 1) (PI / pow2R k) - cosh Rd).
(** *** sampling followed by generation, all in doubles: whatever is sampled, the generator has no undefined behaviour and returns a simple graph *)
Theorem C75_sample_and_generate : forall M en n alpha T Rd sseed parallel somp steam nd part hg seed omp_max team radii angles,
  libm_ok M -> double_engine en -> double_args n somp steam alpha Rd sseed parallel -> 4 / 3 <= Rd <= 40 -> clear_levels Rd ->
  sampleRadiiAndAnglesF M en n alpha Rd sseed parallel somp steam (Some (radii, angles)) ->
  double_rng (hb hg) -> is_partition task_eq part -> (1 <= N.of_nat omp_max <= 2 ^ 17)%N -> (1 <= team <= omp_max)%nat ->
  double_disc radii angles Rd /\
  (returns Rd omp_max team <-> exists o, hrg_outcomeF M nd part hg radii angles T Rd seed omp_max team o) /\
  forall o, hrg_outcomeF M nd part hg radii angles T Rd seed omp_max team o ->
    exists edges, o = Some edges /\ NoDup edges /\
      (forall v w, In (v, w) edges -> (v < n)%nat /\ (w < n)%nat) /\ (forall v, ~ In (v, v) edges) /\ (forall v w, In (v, w) edges -> ~ In (w, v) edges).
Proof.
  intros M en n alpha T Rd sseed parallel somp steam nd part hg seed omp_max team radii angles LM DE DA HR CL HS GG HP HO HT.
  destruct (proj2 (C75_both M en n alpha Rd sseed parallel somp steam LM DE DA) _ HS) as (rs & phis & [= <- <-] & L1 & L2 & V1 & V2).
  assert (DD : double_disc radii angles Rd).
  { constructor.
    - congruence.
    - rewrite L1. apply DA.
    - rewrite L1. pose proof (da_n31 _ _ _ _ _ _ _ DA). lia.
    - split; [apply DA|lra].
    - exact V1.
    - exact V2.
    - left. lra.
    - exact CL. }
  split; [exact DD|]. rewrite <- L1. exact (C74_simple_graph M nd part hg radii angles T Rd seed omp_max team LM DD GG HP HO HT).
Qed.
(** ** Non-vacuity *)
Definition zero_engine : hengine := {| he := zero_rng; raw := fun g => g |}.
Theorem C75_example : double_engine zero_engine /\ double_args 25 4 1 (3 / 4) (5 / 2) 12 true /\ clear_levels (5 / 2) /\ 4 / 3 <= 5 / 2 <= 40 /\
  exists radii angles, sampleRadiiAndAnglesF rounded_math zero_engine 25 (3 / 4) (5 / 2) 12 true 4 1 (Some (radii, angles)).
Proof.
  assert (DE : double_engine zero_engine).
  { split; [apply zero_rng_ok|]. intros g. cbn. replace (/ 2) with (b2 (-1)) by reflexivity. apply b2_double. lia. }
  assert (DA : double_args 25 4 1 (3 / 4) (5 / 2) 12 true).
  { constructor; try lia; try lra; try reflexivity; try (vm_compute; lia).
    - split; [|lra]. replace (3 / 4) with (IZR 3 * b2 (-2)) by (change (b2 (-2)) with (/ 4); lra). apply FLT_double; lia.
    - split; [|lra]. apply ex_disc. }
  split; [exact DE|]. split; [exact DA|]. split; [exact (dd_clear _ _ _ ex_disc)|]. split; [lra|].
  destruct (C75_both rounded_math zero_engine 25 (3 / 4) (5 / 2) 12 true 4 1 rounded_ok DE DA) as [[o Ho] H]. destruct (H o Ho) as (rs & phis & -> & _). eauto.
Qed.
Print Assumptions C75_radii.
Print Assumptions C75_angles.
Print Assumptions C75_both.
Print Assumptions C75_sample_and_generate.
Print Assumptions C75_example.
