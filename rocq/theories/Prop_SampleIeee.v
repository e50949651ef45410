(** Property C78: weights and positions sampled in double arithmetic. *)
From Coq Require Import Arith NArith ZArith List Bool Reals Lia Lra Psatz.
From Flocq Require Import Core.
From Verif Require Import Base Sched Coord_Model Coord_Proofs Coord_Geo Tree_Model Tree_Proofs Tree_Run Sampling_Model Sampling_Proofs Prop_Sampling Girg_Model Girg_Num Prop_Girg Ieee Prop_Ieee
  Hyp_Model HypF_Model HypF_Err HypF_Ieee Prop_HypIeee SampleF_Proofs.
Import ListNotations.
Local Open Scope R_scope.

(** ** Specification *)
(** std::uniform_real_distribution<>{} returns doubles *)
Definition double_draws (rg : rng) : Prop := forall g, is_double (fst (u01 rg g)).
(** the arguments of generateWeights *)
Record weight_args (n : nat) (ple : R) (seed : Z) (parallel : bool) (omp_max team : nat) : Prop := {
  wa_n : (2 < n)%nat;
  wa_n31 : (N.of_nat n < 2 ^ 31)%N;
  wa_ple : is_double ple /\ 5 / 4 <= ple <= 16;
  wa_omp : (1 <= omp_max)%nat;
  wa_team : (1 <= team <= input_threads parallel omp_max n)%nat;
  wa_seed : (seed < 0 \/ seed + Z.of_nat omp_max <= 2 ^ 31)%Z }.
(** a sampled weight [w] for the draw [x]: a double in the given range, near the exact quantile of the truncated power law *)
Definition good_weight (n : nat) (ple : R) (x w : R) : Prop :=
  is_double w /\ 1 - b2 (-52) <= w <= Rpower 2 (53 / (ple - 1)) * (1 + b2 (-40)) /\
  exists q, 1 <= q < INR n / 2 /\ power_law_cdf n ple q = x /\
    (Rpower q (ple - 1) <= b2 45 -> Rabs (w - q) <= b2 (-45) * Rpower q (ple - 1) * q).

(** ** Proofs *)
Lemma threads_le parallel omp_max n : (1 <= omp_max)%nat -> (input_threads parallel omp_max n <= omp_max)%nat.
Proof. intros H. unfold input_threads. destruct parallel; lia. Qed.
Lemma wa_defined n ple seed parallel omp_max team : weight_args n ple seed parallel omp_max team -> seeds_defined seed team = true.
Proof.
  intros H. pose proof (threads_le parallel omp_max n (wa_omp _ _ _ _ _ _ H)). pose proof (wa_team _ _ _ _ _ _ H). unfold seeds_defined. apply orb_true_iff.
  destruct (wa_seed _ _ _ _ _ _ H); [left; now apply Z.ltb_lt|right; apply Z.ltb_lt; lia].
Qed.
Lemma gens_exist rg seed team : exists gens, gens_ok rg seed team gens.
Proof. unfold gens_ok. destruct (0 <=? seed)%Z; [eauto|]. exists (map (rseed rg) (repeat 0%Z team)), (repeat 0%Z team). now rewrite repeat_length. Qed.
Lemma weight_good f pw n ple x : pow_ok pw -> (2 < n)%nat -> (N.of_nat n < 2 ^ 31)%N -> is_double ple -> 5 / 4 <= ple <= 16 -> is_double x -> 0 <= x < 1 ->
  good_weight n ple x (weight_of (double_env f pw) n ple x).
Proof.
  intros PW Hn H31 DP HP DX HX. rewrite w_unfold. destruct (w_range pw PW n ple Hn H31 HP x DX HX) as [D R]. split; [exact D|split; [exact R|]].
  assert (P1 : 1 < ple) by lra. exists (weight_of ideal_env n ple x). split; [now apply weight_range|]. split; [|exact (w_accuracy pw PW n ple Hn H31 HP x DX HX)].
  destruct (w_bs n ple Hn HP x HX) as (B & _ & E). unfold power_law_cdf. pose proof (a_range n ple Hn P1) as A. cbv zeta in A.
  replace (Rpower (weight_of ideal_env n ple x) (1 - ple)) with ((Rpower (INR n / 2) (1 - ple) - 1) * x + 1); [field; lra|].
  replace (1 - ple) with (- (ple - 1)) at 2 by ring. rewrite Rpower_Ropp, E, Rinv_inv. reflexivity.
Qed.
Lemma draws_good rg team n per gens x : good_rng rg -> double_draws rg -> In x (concat (thread_draws rg team n per gens)) -> is_double x /\ 0 <= x < 1.
Proof.
  intros GR DD Hu. apply in_concat in Hu as (l & Hl & Hu). apply in_map_iff in Hl as (bg & <- & _). apply in_rows in Hu as (g' & ->). split; [apply DD|apply (gu01 _ GR)].
Qed.

Lemma mul_bound s i A B : s <= A -> 0 < i <= B -> 0 <= A -> s * i <= A * B.
Proof. intros H1 H2 H3. destruct (Rle_lt_dec 0 s); [apply Rmult_le_compat; lra|]. assert (s * i <= 0) by nra. assert (0 <= A * B) by nra. lra. Qed.

(** ** Theorems *)
(** weights: one draw per weight, each weight a double between 1 - 2^-52 and 2^(53/(ple-1)) that is near the quantile of its draw *)
Theorem C78_weights : forall f pw rg n ple seed parallel omp_max team, pow_ok pw -> good_rng rg -> double_draws rg ->
  weight_args n ple seed parallel omp_max team ->
  (exists o, generateWeights (double_env f pw) rg n ple seed parallel omp_max team o) /\
  forall o, generateWeights (double_env f pw) rg n ple seed parallel omp_max team o ->
  exists ws gens, o = Some ws /\ gens_ok rg seed team gens /\ length ws = n /\
    Forall2 (good_weight n ple) (concat (thread_draws rg team n 1 gens)) ws.
Proof.
  intros f pw rg n ple seed parallel omp_max team PW GR DD WA. pose proof (wa_defined _ _ _ _ _ _ WA) as SD. pose proof (wa_team _ _ _ _ _ _ WA) as TM.
  unfold generateWeights, weights_outcome. rewrite SD. split.
  - destruct (gens_exist rg seed team) as (gens & Hg). exists (Some (chunks (weight_step (double_env f pw) rg n ple) team n gens)). split; [exact TM|]. exists gens. split; [exact Hg|].
    apply filled_iff; [lia|eapply gens_length; eauto|reflexivity].
  - intros o (_ & gens & Hg & Hf). apply filled_iff in Hf; [|lia|eapply gens_length; eauto]. subst o.
    pose proof (chunks_length (weight_step (double_env f pw) rg n ple) team n gens ltac:(lia) (gens_length _ _ _ _ Hg)) as HL.
    rewrite chunks_weights in *. rewrite map_length in HL.
    eexists; exists gens. split; [reflexivity|]. split; [exact Hg|]. split; [now rewrite map_length|].
    assert (HU : forall x, In x (concat (thread_draws rg team n 1 gens)) -> is_double x /\ 0 <= x < 1) by (intros x; now apply draws_good).
    revert HU. generalize (concat (thread_draws rg team n 1 gens)). clear -PW WA. destruct WA as [W1 W2 [W3 W4] _ _ _].
    induction l as [|x l IH]; intros HU; constructor; [destruct (HU x (or_introl eq_refl)); now apply weight_good|apply IH; intros y Hy; apply HU; now right].
Qed.
(** positions are n points of d doubles in [0,1) *)
Theorem C78_positions : forall rg n d seed parallel omp_max team, good_rng rg -> double_draws rg -> (1 <= omp_max)%nat ->
  (1 <= team <= input_threads parallel omp_max n)%nat -> (seed < 0 \/ seed + Z.of_nat omp_max <= 2 ^ 31)%Z ->
  (exists o, generatePositions rg n d seed parallel omp_max team o) /\
  forall o, generatePositions rg n d seed parallel omp_max team o ->
  exists ps, o = Some ps /\ length ps = n /\ List.Forall (fun p => length p = d /\ List.Forall (fun x => is_double x /\ 0 <= x < 1) p) ps.
Proof.
  intros rg n d seed parallel omp_max team GR DD HO TM HS.
  assert (SD : seeds_defined seed team = true).
  { pose proof (threads_le parallel omp_max n HO). unfold seeds_defined. apply orb_true_iff. destruct HS; [left; now apply Z.ltb_lt|right; apply Z.ltb_lt; lia]. }
  destruct (C28_positions rg n d seed team GR ltac:(lia) SD) as [[o Ho] H]. split; [exists o; now split|].
  intros o' (_ & Ho'). destruct (H o' Ho') as (ps & gens & -> & Hg & L & F1 & _ & EC). exists ps. split; [reflexivity|]. split; [exact L|].
  rewrite List.Forall_forall in F1 |- *. intros p Hp. split; [now apply F1|]. apply List.Forall_forall. intros x Hx. apply (draws_good rg team n d gens x GR DD). rewrite <- EC. apply in_concat. eauto.
Qed.
(** with a correctly rounded pow no weight is below 1 *)
Theorem C78_rounded_pow : pow_ok (fun x a => RN (Rpower x a)) /\
  forall f n ple x, (2 < n)%nat -> (N.of_nat n < 2 ^ 31)%N -> is_double ple -> 5 / 4 <= ple <= 16 -> is_double x -> 0 <= x < 1 ->
  1 <= weight_of (double_env f (fun x a => RN (Rpower x a))) n ple x.
Proof.
  assert (PW : pow_ok (fun x a => RN (Rpower x a))).
  { intros x a _ _ _ [H _]. split; [apply RN_double|]. assert (N0 : b2 (-1022) <= b2 (-1000)) by (apply bpow_le; lia). destruct (RN_rel (Rpower x a) ltac:(lra)) as [A B]. rewrite b2_52. pose proof u53_pos. assert (0 < Rpower x a) by apply exp_pos. apply Rabs_le. nra. }
  split; [exact PW|]. intros f n ple x Hn H31 DP HP DX HX. rewrite w_unfold. destruct (w_pow _ PW n ple Hn H31 HP x DX HX) as (g' & _ & _ & G & L & E & _). rewrite E.
  rewrite <- (RN_Z 1) at 1 by lia. apply RN_le. apply Rle_trans with (exp 0); [rewrite exp_0; lra|]. apply exp_le'. apply Rmult_le_pos; [lra|apply L].
Qed.
(** the whole pipeline without scaling: sampled weights and positions are valid inputs of generateEdges in doubles, as soon as their sum is at most 2^30 and
    log2 does not round up past an integer; the threshold graph is the one of the rounded edge rule *)
Theorem C78_sample_and_generate : forall f pw cfg rgw rgp rge n D ple wseed pseed seed parallel omp_in team_w team_p omp_max team ws ps,
  pow_ok pw -> good_log2 f -> good_rng rgw -> double_draws rgw -> good_rng rgp -> double_draws rgp -> good_rng rge ->
  weight_args n ple wseed parallel omp_in team_w -> (1 <= D <= 5)%N -> (1 <= team_p <= input_threads parallel omp_in n)%nat -> (pseed < 0 \/ pseed + Z.of_nat omp_in <= 2 ^ 31)%Z ->
  generateWeights (double_env f pw) rgw n ple wseed parallel omp_in team_w (Some ws) ->
  generatePositions rgp n (N.to_nat D) pseed parallel omp_in team_p (Some ps) ->
  float_sum ws <= b2 30 ->
  (forall w0, In w0 ws -> (forall w, In w ws -> w0 <= w) -> let q := RN (RN (float_sum ws / w0) / w0) in forall z, (1 <= z)%Z -> IZR z <= f q -> b2 z <= q) ->
  (1 <= N.of_nat omp_max <= 2 ^ 17)%N -> (1 <= team <= omp_max)%nat -> (seed < 0 \/ seed + Z.of_nat omp_max <= 2 ^ 31)%Z ->
  ieee_input f D ws ps seed omp_max team /\
  (exists o, girg_outcome (double_env f pw) cfg rge ws ps AInf seed omp_max team o) /\
  forall o, girg_outcome (double_env f pw) cfg rge ws ps AInf seed omp_max team o ->
    exists edges, o = Some edges /\ forall u v, (u < n)%nat -> (v < n)%nat -> u <> v -> (In (u, v) edges \/ In (v, u) edges <-> float_edge D ws ps u v).
Proof.
  intros f pw cfg rgw rgp rge n D ple wseed pseed seed parallel omp_in team_w team_p omp_max team ws ps PW GL GW DW GP DPo GE WA HD TP HPS Hw Hp HS HL HO HT HSe.
  destruct (C78_weights f pw rgw n ple wseed parallel omp_in team_w PW GW DW WA) as [_ H1]. destruct (H1 _ Hw) as (ws' & gens & E & _ & LW & F2). injection E as <-.
  destruct (C78_positions rgp n (N.to_nat D) pseed parallel omp_in team_p GP DPo (wa_omp _ _ _ _ _ _ WA) TP HPS) as [_ H2]. destruct (H2 _ Hp) as (ps' & E & LP & FP). injection E as <-.
  pose proof u_small as US. pose proof b2_52 as E52. destruct (wa_ple _ _ _ _ _ _ WA) as [_ PL].
  assert (GWS : forall w, In w ws -> is_double w /\ 1 - b2 (-52) <= w <= b2 400).
  { intros w Hi. assert (Gx : exists x, good_weight n ple x w).
    { clear -F2 Hi. induction F2 as [|x w' l l' G F IH]; [destruct Hi|]. destruct Hi as [->|Hi]; [now exists x|now apply IH]. }
    destruct Gx as (x & D1 & R1 & _). split; [exact D1|]. split; [apply R1|]. eapply Rle_trans; [apply R1|]. apply Rle_trans with (Rpower 2 212 * 2).
    - apply Rmult_le_compat; [left; apply exp_pos|pose proof (bpow_ge_0 radix2 (-40)); lra| |].
      + apply Rle_Rpower; [lra|]. apply Rmult_le_reg_r with (ple - 1); [lra|]. unfold Rdiv. rewrite Rmult_assoc, Rinv_l by lra. lra.
      + assert (b2 (-40) <= b2 0) by (apply bpow_le; lia). change (b2 0) with 1 in H. lra.
    - replace (Rpower 2 212) with (b2 212) by (rewrite bpow_exp; reflexivity). change 2 with (b2 1). rewrite <- bpow_plus. apply bpow_le. lia. }
  assert (HI : ieee_input f D ws ps seed omp_max team).
  { constructor; try assumption.
    - intros ->. cbn in LW. pose proof (wa_n _ _ _ _ _ _ WA). lia.
    - intros w Hi. destruct (GWS w Hi) as (D1 & R1 & R2). split; [exact D1|]. split; [|exact R2]. apply Rle_trans with (b2 (-1)); [apply bpow_le; lia|change (b2 (-1)) with (/ 2); lra].
    - intros w0 H0 Hmin q. split; [|apply (HL w0 H0 Hmin)]. destruct (GWS w0 H0) as (D1 & R1 & _).
      assert (I0 : 0 < / w0 <= 1 + 1 / 10) by (split; [apply Rinv_0_lt_compat; lra|replace (1 + 1 / 10) with (/ (10 / 11)) by field; apply Rinv_le_contravar; lra]).
      assert (B30 : 0 < b2 30) by apply bpow_gt_0. assert (P : b2 31 = 2 * b2 30) by (change 2 with (b2 1); rewrite <- bpow_plus; reflexivity).
      assert (Q1 : RN (float_sum ws / w0) <= b2 30 * (6 / 5)).
      { apply Rle_trans with (RN (b2 30 * (11 / 10))); [apply RN_le; unfold Rdiv at 1; replace (11 / 10) with (1 + 1 / 10) by field; apply mul_bound; lra|].
        assert (T : b2 (-1022) <= b2 30) by (apply bpow_le; lia). destruct (RN_rel (b2 30 * (11 / 10)) ltac:(lra)) as [_ X]. assert (u53 <= / 100) by lra. nra. }
      assert (Q2 : q <= b2 30 * (3 / 2)).
      { apply Rle_trans with (RN (b2 30 * (14 / 10))); [apply RN_le; unfold Rdiv at 1; apply Rle_trans with (b2 30 * (6 / 5) * (1 + 1 / 10)); [apply mul_bound; lra|lra]|].
        assert (T : b2 (-1022) <= b2 30) by (apply bpow_le; lia). destruct (RN_rel (b2 30 * (14 / 10)) ltac:(lra)) as [_ X]. assert (u53 <= / 100) by lra. nra. }
      lra.
    - congruence.
    - rewrite LW. apply WA. }
  split; [exact HI|]. destruct (C57_threshold_exact_in_doubles f pw cfg rge D ws ps seed omp_max team GL GE HI) as [X1 X2]. split; [exact X1|]. intros o Ho. rewrite <- LW. exact (X2 o Ho).
Qed.
(** the largest weights of the power law are never drawn in a large graph: n = 2^30 and ple = 3, both within the ranges of gengirg, give no weight of n/4 or more,
    although the law has positive mass on [n/4, n/2] *)
Theorem C78_heavy_weights_refuted : forall f pw x, pow_ok pw -> is_double x -> 0 <= x < 1 ->
  let n := N.to_nat (2 ^ 30) in weight_of (double_env f pw) n 3 x < INR n / 4 /\ power_law_cdf n 3 (INR n / 4) < 1.
Proof.
  intros f pw x PW DX HX n. assert (EN : INR n = b2 30) by (unfold n; rewrite INR_IZR_INZ, N_nat_Z; reflexivity).
  assert (Hn : (2 < n)%nat) by (unfold n; apply Nat2Z.inj_lt; rewrite N_nat_Z; reflexivity). assert (H31 : (N.of_nat n < 2 ^ 31)%N) by (unfold n; rewrite N2Nat.id; reflexivity).
  assert (Q4 : INR n / 4 = b2 28) by (rewrite EN; replace (/ 4) with (b2 (-2)) by reflexivity; unfold Rdiv; change (/ 4) with (b2 (-2)); rewrite <- bpow_plus; reflexivity). split.
  - destruct (weight_good f pw n 3 x PW Hn H31 (double_Z 3 ltac:(lia)) ltac:(lra) DX HX) as (_ & [_ B] & _). eapply Rle_lt_trans; [exact B|].
    apply Rle_lt_trans with (b2 27 * (1 + b2 (-40))).
    + apply Rmult_le_compat_r; [pose proof (bpow_ge_0 radix2 (-40)); lra|]. replace (b2 27) with (Rpower 2 27) by (rewrite bpow_exp; reflexivity). apply Rle_Rpower; lra.
    + rewrite Q4. replace (b2 28) with (b2 27 * 2) by (change 2 with (b2 1); rewrite <- bpow_plus; reflexivity). apply Rmult_lt_compat_l; [apply bpow_gt_0|]. assert (b2 (-40) < b2 0) by (apply bpow_lt; lia). change (b2 0) with 1 in H. lra.
  - assert (P1 : 1 < 3) by lra. pose proof (a_range n 3 Hn P1) as A. cbv zeta in A. unfold power_law_cdf. apply Rmult_lt_reg_r with (1 - Rpower (INR n / 2) (1 - 3)); [lra|]. unfold Rdiv at 1. rewrite Rmult_assoc, Rinv_l by lra.
    assert (Rpower (INR n / 2) (1 - 3) < Rpower (INR n / 4) (1 - 3)); [|lra].
    unfold Rpower. apply exp_increasing. assert (0 < b2 30) by apply bpow_gt_0. assert (ln (INR n / 4) < ln (INR n / 2)) by (apply ln_increasing; rewrite EN; lra). lra.
Qed.
(** ** Non-vacuity *)
Example C78_inputs : good_rng zero_rng /\ double_draws zero_rng /\ pow_ok (fun x a => RN (Rpower x a)) /\ weight_args 25 (5 / 2) 12 true 4 1 /\
  exists ws, generateWeights (double_env log2_double (fun x a => RN (Rpower x a))) zero_rng 25 (5 / 2) 12 true 4 1 (Some ws).
Proof.
  assert (DD : double_draws zero_rng) by (intros g; cbn; replace (/ 2) with (b2 (-1)) by reflexivity; apply b2_double; lia).
  assert (WA : weight_args 25 (5 / 2) 12 true 4 1).
  { constructor; try lia; try reflexivity; [|vm_compute; lia]. split; [|lra]. replace (5 / 2) with (IZR 5 * b2 (-1)) by (change (b2 (-1)) with (/ 2); lra). apply FLT_double; lia. }
  split; [apply zero_rng_ok|split; [exact DD|split; [apply C78_rounded_pow|split; [exact WA|]]]].
  destruct (C78_weights log2_double _ zero_rng 25 (5 / 2) 12 true 4 1 (proj1 C78_rounded_pow) ltac:(apply zero_rng_ok) DD WA) as [[o Ho] H]. destruct (H o Ho) as (ws & _ & -> & _). eauto.
Qed.
(** a run that meets all hypotheses of C78_sample_and_generate: a generator of weights that draws 0, three nodes *)
Definition low_rng : rng := {| G := Z; rseed := fun z => z; u01 := fun g => (0, (g + 1)%Z)%R; uni0 := fun p g => (0, (g + 1)%Z)%R; geo := fun p g => (Z.to_N (g mod 4), (g + 1)%Z) |}.
Example C78_pipeline : let pw := fun x a => RN (Rpower x a) in good_rng low_rng /\ double_draws low_rng /\ weight_args 3 (5 / 2) 12 true 4 1 /\
  exists ws ps, generateWeights (double_env log2_double pw) low_rng 3 (5 / 2) 12 true 4 1 (Some ws) /\
    generatePositions zero_rng 3 2 5 true 4 1 (Some ps) /\ float_sum ws <= b2 30 /\
    (forall w0, In w0 ws -> (forall w, In w ws -> w0 <= w) -> let q := RN (RN (float_sum ws / w0) / w0) in forall z, (1 <= z)%Z -> IZR z <= log2_double q -> b2 z <= q) /\
    ieee_input log2_double 2 ws ps 9 4 3.
Proof.
  intros pw.
  assert (DZ : double_draws zero_rng) by (intros g; cbn; replace (/ 2) with (b2 (-1)) by reflexivity; apply b2_double; lia).
  assert (GZ : good_rng zero_rng) by apply zero_rng_ok.
  assert (DL : double_draws low_rng) by (intros g; apply (double_Z 0); lia).
  assert (GL : good_rng low_rng).
  { constructor; cbn [low_rng u01 uni0 geo fst]; intros; [lra|lra|exact (ggeo zero_rng GZ p g H)]. }
  assert (WA : weight_args 3 (5 / 2) 12 true 4 1).
  { constructor; try lia; try reflexivity; [|vm_compute; lia]. split; [|lra]. replace (5 / 2) with (IZR 5 * b2 (-1)) by (change (b2 (-1)) with (/ 2); lra). apply FLT_double; lia. }
  split; [exact GL|split; [exact DL|split; [exact WA|]]].
  assert (W1 : weight_of (double_env log2_double pw) 3 (5 / 2) 0 = 1).
  { unfold weight_of. cbn [rnd double_env fpow]. rewrite Rmult_0_r, RN_0, Rplus_0_l, (RN_Z 1) by lia. unfold pw. unfold Rpower. rewrite ln_1, Rmult_0_r, exp_0. apply (RN_Z 1). lia. }
  destruct (C78_positions zero_rng 3 2 5 true 4 1 GZ DZ ltac:(lia) ltac:(vm_compute; lia) ltac:(right; lia)) as [[o Ho] H]. destruct (H o Ho) as (ps & -> & _). clear H.
  assert (Hw : generateWeights (double_env log2_double pw) low_rng 3 (5 / 2) 12 true 4 1 (Some [1; 1; 1])).
  { split; [apply WA|]. unfold weights_outcome. rewrite (wa_defined _ _ _ _ _ _ WA). exists [12%Z]. split; [reflexivity|]. apply filled_iff; [lia|reflexivity|]. f_equal. rewrite chunks_weights. replace (concat (thread_draws low_rng 1 3 1 [12%Z])) with [0; 0; 0] by reflexivity. cbn [map]. rewrite W1. reflexivity. }
  assert (S3 : float_sum [1; 1; 1] = 3) by (unfold float_sum; cbn [fold_left]; rewrite Rplus_0_l, (RN_Z 1) by lia; replace (1 + 1) with 2 by ring; rewrite (RN_Z 2) by lia; replace (2 + 1) with 3 by ring; apply (RN_Z 3); lia).
  assert (HS : float_sum [1; 1; 1] <= b2 30) by (rewrite S3; apply Rle_trans with (b2 2); [change (b2 2) with 4; lra|apply bpow_le; lia]).
  assert (HL : forall w0, In w0 [1; 1; 1] -> (forall w, In w [1; 1; 1] -> w0 <= w) -> let q := RN (RN (float_sum [1; 1; 1] / w0) / w0) in forall z, (1 <= z)%Z -> IZR z <= log2_double q -> b2 z <= q).
  { intros w0 Hi _. assert (w0 = 1) by (cbn in Hi; destruct Hi as [<-|[<-|[<-|[]]]]; reflexivity). subst w0. cbv zeta. rewrite S3. unfold Rdiv. rewrite Rinv_1, !Rmult_1_r, !(RN_Z 3) by lia. apply C57_logarithm_criterion; [lra|apply Rlt_le_trans with (b2 2); [change (b2 2) with 4; lra|apply bpow_le; lia]|].
    intros z Hz H3. assert (Z2 : (2 <= z)%Z). { apply Z.nlt_ge. intros C. assert (z = 1)%Z by lia. subst z. change (b2 1) with 2 in H3. lra. }
    assert (b2 2 <= b2 z) by (apply bpow_le; lia). change (b2 2) with 4 in H. assert (b2 (-47) <= b2 (-2)) by (apply bpow_le; lia). change (b2 (-2)) with (/ 4) in H0. pose proof (bpow_gt_0 radix2 (-47)). nra. }
  exists [1; 1; 1], ps. split; [exact Hw|split; [exact Ho|split; [exact HS|split; [exact HL|]]]].
  apply (C78_sample_and_generate log2_double pw {| use_bmi2 := true; gnuc := true; ndebug := true |} low_rng zero_rng zero_rng 3 2 (5 / 2) 12 5 9 true 4 1 1 4 3 [1; 1; 1] ps); try assumption; try lia.
  - apply C78_rounded_pow.
  - apply C57_example.
  - apply (wa_team _ _ _ _ _ _ WA).
Qed.
Print Assumptions C78_weights.
Print Assumptions C78_positions.
Print Assumptions C78_rounded_pow.
Print Assumptions C78_sample_and_generate.
Print Assumptions C78_heavy_weights_refuted.
