(** Properties C27, C28, C29: sampling of weights and positions.
    Specification vocabulary: [draws rg k g] = the next k uniform [0,1) draws of a generator in state g; probabilities are Riemann
    integrals of indicator functions over the uniform draw in [0,1]. *)
From Coq Require Import Arith NArith ZArith List Bool Reals Lia Lra.
From Coquelicot Require Import Coquelicot.
From Verif Require Import Base Sched Tree_Model Tree_Run Sampling_Model Sampling_Proofs.
Import ListNotations.
Local Open Scope nat_scope.

(** the k next draws of uniform_real_distribution<>{} *)
Definition draws (rg : rng) (k : nat) (g : G rg) : list R := rows (u01 rg) k g.
(** the uniform numbers consumed by [team] threads that process [per] draws per item, thread by thread *)
Definition thread_draws (rg : rng) (team n per : nat) (gens : list (G rg)) : list (list R) :=
  map (fun bg => draws rg (length (fst bg) * per) (snd bg)) (combine (static_split (seq 0 n) team) gens).

Lemma rows_concat_chunks rg d team n gens : concat (chunks (position_step rg d) team n gens) = concat (thread_draws rg team n d gens).
Proof.
  unfold chunks, thread_draws. induction (combine _ _) as [|bg r IH]; cbn; [reflexivity|]. rewrite concat_app, IH. f_equal. apply rows_positions.
Qed.
Lemma chunks_weights E rg n ple team gens : chunks (weight_step E rg n ple) team n gens = map (weight_of E n ple) (concat (thread_draws rg team n 1 gens)).
Proof.
  unfold chunks, thread_draws, draws. induction (combine _ _) as [|bg r IH]; cbn; [reflexivity|]. rewrite map_app, IH. f_equal.
  rewrite Nat.mul_1_r. apply (rows_map (u01 rg) (weight_of E n ple)).
Qed.

(** ** C27 *)
(** the cumulative distribution function of the truncated power law on [1, n/2] *)
Definition power_law_cdf (n : nat) (ple x : R) : R := ((1 - Rpower x (1 - ple)) / (1 - Rpower (INR n / 2) (1 - ple)))%R.

Section W.
  Variables (n : nat) (ple : R).
  Hypothesis Hn : 2 < n.
  Hypothesis Hp : (1 < ple)%R.
  Let e := (1 - ple)%R.
  Let a := Rpower (INR n / 2) e.
  Lemma half_gt1 : (1 < INR n / 2)%R.
  Proof. assert (3 <= INR n)%R; [|lra]. replace 3%R with (INR 3) by (cbn; lra). apply le_INR. lia. Qed.
  Lemma e_neg : (e < 0)%R. Proof. unfold e. lra. Qed.
  Lemma a_range : (0 < a < 1)%R.
  Proof.
    unfold a. split; [apply exp_pos|]. unfold Rpower. rewrite <- exp_0. apply exp_increasing.
    assert (0 < ln (INR n / 2))%R by (rewrite <- ln_1; apply ln_increasing; [lra|apply half_gt1]). pose proof e_neg. nra.
  Qed.
  Lemma weight_ideal u : weight_of ideal_env n ple u = Rpower ((a - 1) * u + 1) (1 / e).
  Proof.
    unfold weight_of, a, e. cbn [rnd fpow ideal_env]. replace (- ple + 1)%R with (1 - ple)%R by ring. replace (1 / 2 * INR n)%R with (INR n / 2)%R by field. reflexivity.
  Qed.
  Lemma base_range u : (0 <= u < 1)%R -> (a < (a - 1) * u + 1 <= 1)%R.
  Proof. intros Hu. pose proof a_range. nra. Qed.
  Lemma Rpower_le_iff x y c : (0 < x)%R -> (0 < y)%R -> (c < 0)%R -> (Rpower x (1 / c) <= y <-> Rpower y c <= x)%R.
  Proof.
    intros Hx Hy Hc.
    assert (H1 : (Rpower x (1 / c) <= y <-> 1 / c * ln x <= ln y)%R).
    { unfold Rpower. rewrite <- (exp_ln y Hy) at 1. split; intros H; [|destruct H as [H|H]; [left; now apply exp_increasing|right; now rewrite H]].
      apply Rnot_lt_le. intros C. apply exp_increasing in C. lra. }
    assert (H2 : (Rpower y c <= x <-> c * ln y <= ln x)%R).
    { unfold Rpower. rewrite <- (exp_ln x Hx) at 1. split; intros H; [|destruct H as [H|H]; [left; now apply exp_increasing|right; now rewrite H]].
      apply Rnot_lt_le. intros C. apply exp_increasing in C. lra. }
    rewrite H1, H2. replace (ln x) with (c * (1 / c * ln x))%R at 2 by (field; lra). set (z := (1 / c * ln x)%R). split; intros H; nra.
  Qed.
  Lemma weight_le_iff u x : (0 <= u < 1)%R -> (0 < x)%R -> (weight_of ideal_env n ple u <= x <-> u <= power_law_cdf n ple x)%R.
  Proof.
    intros Hu Hx. rewrite weight_ideal. pose proof (base_range u Hu). pose proof a_range. pose proof e_neg.
    rewrite Rpower_le_iff by lra. unfold power_law_cdf. fold e. fold a.
    assert (K : (u <= (1 - Rpower x e) / (1 - a) <-> u * (1 - a) <= 1 - Rpower x e)%R).
    { split; intros H'.
      - apply Rmult_le_compat_r with (r := (1 - a)%R) in H'; [|lra]. unfold Rdiv in H'. rewrite Rmult_assoc, Rinv_l, Rmult_1_r in H' by lra. exact H'.
      - apply Rmult_le_reg_r with (1 - a)%R; [lra|]. unfold Rdiv. rewrite Rmult_assoc, Rinv_l, Rmult_1_r by lra. exact H'. }
    rewrite K. split; lra.
  Qed.
  Lemma weight_range u : (0 <= u < 1)%R -> (1 <= weight_of ideal_env n ple u < INR n / 2)%R.
  Proof.
    intros Hu. rewrite weight_ideal. pose proof (base_range u Hu) as B. pose proof a_range as A. pose proof e_neg as N.
    assert (I : (1 / e < 0)%R). { unfold Rdiv. rewrite Rmult_1_l. now apply Rinv_lt_0_compat. }
    split.
    - unfold Rpower. rewrite <- exp_0 at 1.
      assert (ln ((a - 1) * u + 1) <= 0)%R. { rewrite <- ln_1. destruct (proj2 B) as [L|L]; [left; apply ln_increasing; lra|right; now rewrite L]. }
      assert (0 <= 1 / e * ln ((a - 1) * u + 1))%R by nra. destruct H0 as [L|L]; [left; now apply exp_increasing|right; now rewrite <- L].
    - replace (INR n / 2)%R with (Rpower a (1 / e)).
      + unfold Rpower at 1 2. apply exp_increasing. assert (ln a < ln ((a - 1) * u + 1))%R by (apply ln_increasing; lra). nra.
      + unfold a. rewrite Rpower_mult. replace (e * (1 / e))%R with 1%R by (field; lra). apply Rpower_1. pose proof half_gt1. lra.
  Qed.
  Lemma cdf_range x : (1 <= x <= INR n / 2)%R -> (0 <= power_law_cdf n ple x <= 1)%R.
  Proof.
    intros Hx. unfold power_law_cdf. fold e. fold a. pose proof a_range as A. pose proof e_neg as N. pose proof half_gt1 as Hh.
    assert (L1 : (0 <= ln x <= ln (INR n / 2))%R).
    { split; [rewrite <- ln_1; destruct (proj1 Hx) as [L|L]; [left; apply ln_increasing; lra|right; now rewrite L]|].
      destruct (proj2 Hx) as [L|L]; [left; apply ln_increasing; lra|right; now rewrite L]. }
    assert (B1 : (Rpower x e <= 1)%R). { unfold Rpower. rewrite <- exp_0. assert (e * ln x <= 0)%R as [L|L] by nra; [left; now apply exp_increasing|right; now rewrite L]. }
    assert (B2 : (a <= Rpower x e)%R). { unfold a, Rpower. assert (e * ln (INR n / 2) <= e * ln x)%R as [L|L] by nra; [left; now apply exp_increasing|right; now rewrite L]. }
    split.
    - apply Rmult_le_reg_r with (1 - a)%R; [lra|]. unfold Rdiv. rewrite Rmult_assoc, Rinv_l, Rmult_1_r by lra. lra.
    - apply Rmult_le_reg_r with (1 - a)%R; [lra|]. unfold Rdiv. rewrite Rmult_assoc, Rinv_l, Rmult_1_r by lra. lra.
  Qed.
End W.

(** P(u <= c) = c for uniform u *)
Lemma is_RInt_indicator_le (A : R -> bool) c : (0 <= c <= 1)%R -> (forall u, 0 < u < 1 -> (A u = true <-> u <= c))%R ->
  is_RInt (fun u => if A u then 1 else 0)%R 0 1 c.
Proof.
  intros Hc HA. replace c with (plus (scal (c - 0) 1) (scal (1 - c) 0))%R by (unfold plus, scal; cbn; unfold mult; cbn; lra).
  apply (is_RInt_Chasles (V := R_NormedModule)) with c.
  - apply (is_RInt_ext (V := R_NormedModule) (fun _ => 1%R)); [|apply (is_RInt_const (V := R_NormedModule))].
    intros u. rewrite Rmin_left, Rmax_right by lra. intros Hu. destruct (A u) eqn:E; [reflexivity|]. exfalso. assert (A u = true) by (apply HA; lra). congruence.
  - apply (is_RInt_ext (V := R_NormedModule) (fun _ => 0%R)); [|apply (is_RInt_const (V := R_NormedModule))].
    intros u. rewrite Rmin_left, Rmax_right by lra. intros Hu. destruct (A u) eqn:E; [|reflexivity]. exfalso. apply HA in E; lra.
Qed.

Theorem C27_weights : forall rg n ple seed team, good_rng rg -> 2 < n -> (1 < ple)%R -> 1 <= team -> seeds_defined seed team = true ->
  (exists o, weights_outcome ideal_env rg n ple seed team o) /\
  forall o, weights_outcome ideal_env rg n ple seed team o ->
  exists ws gens, o = Some ws /\ gens_ok rg seed team gens /\ length ws = n /\
    (* one uniform draw per weight, thread by thread in order *)
    (exists us, us = concat (thread_draws rg team n 1 gens) /\ length us = n /\
       Forall2 (fun u w => 1 <= w < INR n / 2 /\ forall x, 0 < x -> (w <= x <-> u <= power_law_cdf n ple x))%R us ws).
Proof.
  intros rg n ple seed team GR Hn Hp Ht Hs. unfold weights_outcome. rewrite Hs.
  assert (HX : exists gens, gens_ok rg seed team gens).
  { unfold gens_ok. destruct (0 <=? seed)%Z; [eauto|]. exists (map (rseed rg) (repeat 0%Z team)), (repeat 0%Z team). now rewrite repeat_length. }
  split.
  - destruct HX as (gens & Hg). exists (Some (chunks (weight_step ideal_env rg n ple) team n gens)), gens. split; [exact Hg|].
    apply filled_iff; [lia|eapply gens_length; eauto|reflexivity].
  - intros o (gens & Hg & Hf). apply filled_iff in Hf; [|lia|eapply gens_length; eauto]. subst o.
    pose proof (chunks_length (weight_step ideal_env rg n ple) team n gens ltac:(lia) (gens_length _ _ _ _ Hg)) as HL.
    rewrite chunks_weights in *. rewrite map_length in HL.
    eexists; exists gens. split; [reflexivity|]. split; [exact Hg|]. split; [now rewrite map_length|]. eexists. split; [reflexivity|]. split; [exact HL|].
    assert (HU : forall u, In u (concat (thread_draws rg team n 1 gens)) -> (0 <= u < 1)%R).
    { intros u Hu. apply in_concat in Hu as (l & Hl & Hu). apply in_map_iff in Hl as (bg & <- & _). apply in_rows in Hu as (g' & ->). apply (gu01 _ GR). }
    revert HU. generalize (concat (thread_draws rg team n 1 gens)). clear -Hn Hp. induction l as [|u l IH]; intros HU; constructor.
    + assert (Hu : (0 <= u < 1)%R) by (apply HU; now left). split; [now apply weight_range|]. intros x Hx. now apply weight_le_iff.
    + apply IH. intros x Hx. apply HU. now right.
Qed.
(** the law of a single weight: P(weight <= x) is the power law CDF *)
Theorem C27_law : forall n ple x, 2 < n -> (1 < ple)%R -> (1 <= x <= INR n / 2)%R ->
  is_RInt (fun u => if Rle_dec (weight_of ideal_env n ple u) x then 1 else 0)%R 0 1 (power_law_cdf n ple x).
Proof.
  intros n ple x Hn Hp Hx.
  apply (is_RInt_ext (fun u => if Rleb (weight_of ideal_env n ple u) x then 1 else 0)%R).
  { intros u _. unfold Rleb. destruct (Rle_dec _ _); reflexivity. }
  apply is_RInt_indicator_le; [now apply cdf_range|]. intros u Hu. rewrite Rleb_true. apply weight_le_iff; auto; lra.
Qed.
(** the CDF of the statement is a distribution function on [1, n/2] *)
Theorem C27_cdf_endpoints : forall n ple, 2 < n -> (1 < ple)%R -> power_law_cdf n ple 1 = 0%R /\ power_law_cdf n ple (INR n / 2) = 1%R.
Proof.
  intros n ple Hn Hp. unfold power_law_cdf. pose proof (a_range n ple Hn Hp). split.
  - unfold Rpower at 1. rewrite ln_1, Rmult_0_r, exp_0. unfold Rdiv. ring.
  - field. lra.
Qed.
(** the restriction n > 2 is needed: for n = 1 every weight drawn with u > 0 is below 1 *)
Theorem C27_one_node : forall ple u, (1 < ple)%R -> (0 < u < 1)%R -> (weight_of ideal_env 1 ple u < 1)%R.
Proof.
  intros ple u Hp Hu. unfold weight_of. cbn [rnd fpow ideal_env INR].
  set (e := (- ple + 1)%R). assert (He : (e < 0)%R) by (unfold e; lra).
  assert (Ha : (1 < Rpower (1 / 2 * 1) e)%R).
  { unfold Rpower. rewrite <- exp_0 at 1. apply exp_increasing. assert (ln (1 / 2 * 1) < 0)%R by (rewrite <- ln_1; apply ln_increasing; lra). nra. }
  set (a := Rpower (1 / 2 * 1) e) in *. assert (I : (1 / e < 0)%R). { unfold Rdiv. rewrite Rmult_1_l. now apply Rinv_lt_0_compat. }
  unfold Rpower. apply Rlt_le_trans with (exp 0); [|rewrite exp_0; lra]. apply exp_increasing. assert (0 < ln ((a - 1) * u + 1))%R by (rewrite <- ln_1; apply ln_increasing; nra). nra.
Qed.

(** ** C28 *)
Theorem C28_positions : forall rg n d seed team, good_rng rg -> 1 <= team -> seeds_defined seed team = true ->
  (exists o, positions_outcome rg n d seed team o) /\
  forall o, positions_outcome rg n d seed team o ->
  exists ps gens, o = Some ps /\ gens_ok rg seed team gens /\ length ps = n /\ List.Forall (fun p : list R => length p = d) ps /\
    List.Forall (List.Forall (fun x => 0 <= x < 1)%R) ps /\
    (* read row by row, the coordinates are the consecutive draws of the threads: no draw is used twice *)
    concat ps = concat (thread_draws rg team n d gens).
Proof.
  intros rg n d seed team GR Ht Hs. unfold positions_outcome. rewrite Hs.
  assert (HX : exists gens, gens_ok rg seed team gens).
  { unfold gens_ok. destruct (0 <=? seed)%Z; [eauto|]. exists (map (rseed rg) (repeat 0%Z team)), (repeat 0%Z team). now rewrite repeat_length. }
  split.
  - destruct HX as (gens & Hg). exists (Some (chunks (position_step rg d) team n gens)), gens. split; [exact Hg|].
    apply filled_iff; [lia|eapply gens_length; eauto|reflexivity].
  - intros o (gens & Hg & Hf). apply filled_iff in Hf; [|lia|eapply gens_length; eauto]. subst o. eexists; exists gens. split; [reflexivity|].
    split; [exact Hg|]. split; [apply chunks_length; [lia|eapply gens_length; eauto]|]. split; [|split; [|apply rows_concat_chunks]].
    + apply List.Forall_forall. intros p H. apply in_chunks in H as (g & ->). rewrite position_step_eq. apply rows_length.
    + apply List.Forall_forall. intros p H. apply in_chunks in H as (g & ->). rewrite position_step_eq. cbn. apply List.Forall_forall. intros x H.
      apply in_rows in H as (g' & ->). apply (gu01 _ GR).
Qed.

(** ** C29 *)
Lemma outcomes_unique : forall E rg n d ple seed team, (0 <= seed)%Z -> 1 <= team ->
  (forall o1 o2, weights_outcome E rg n ple seed team o1 -> weights_outcome E rg n ple seed team o2 -> o1 = o2) /\
  (forall o1 o2, positions_outcome rg n d seed team o1 -> positions_outcome rg n d seed team o2 -> o1 = o2).
Proof.
  intros E rg n d ple seed team Hs Ht. unfold weights_outcome, positions_outcome, gens_ok. rewrite (proj2 (Z.leb_le _ _) Hs).
  destruct (seeds_defined seed team).
  - split; intros o1 o2 (g1 & -> & F1) (g2 & -> & F2); apply filled_iff in F1, F2; try lia; try (now rewrite map_length, seq_length); congruence.
  - split; congruence.
Qed.
(** the results depend only on the arguments and the number of threads used *)
Theorem C29_reproducible : forall E rg n d ple seed par1 omp1 par2 omp2 team, (0 <= seed)%Z ->
  (forall o1 o2, generateWeights E rg n ple seed par1 omp1 team o1 -> generateWeights E rg n ple seed par2 omp2 team o2 -> o1 = o2) /\
  (forall o1 o2, generatePositions rg n d seed par1 omp1 team o1 -> generatePositions rg n d seed par2 omp2 team o2 -> o1 = o2).
Proof.
  intros E rg n d ple seed par1 omp1 par2 omp2 team Hs.
  split; intros o1 o2 [H1 F1] [H2 F2]; destruct (outcomes_unique E rg n d ple seed team Hs (proj1 H1)); eauto.
Qed.
(** small inputs and parallel = false: not even on the number of threads *)
Theorem C29_thread_count_irrelevant : forall E rg n d ple seed par1 omp1 team1 par2 omp2 team2, (0 <= seed)%Z ->
  (N.of_nat n < 20000)%N \/ (par1 = false /\ par2 = false) ->
  (forall o1 o2, generateWeights E rg n ple seed par1 omp1 team1 o1 -> generateWeights E rg n ple seed par2 omp2 team2 o2 -> o1 = o2) /\
  (forall o1 o2, generatePositions rg n d seed par1 omp1 team1 o1 -> generatePositions rg n d seed par2 omp2 team2 o2 -> o1 = o2).
Proof.
  intros E rg n d ple seed par1 omp1 team1 par2 omp2 team2 Hs Hc.
  assert (H1 : input_threads par1 omp1 n = 1 /\ input_threads par2 omp2 n = 1).
  { unfold input_threads. destruct Hc as [H|[-> ->]]; [|split; reflexivity].
    assert (N.of_nat n / 10000 < 2)%N by (apply N.div_lt_upper_bound; lia). destruct par1, par2; lia. }
  destruct H1 as [I1 I2].
  split; intros o1 o2 [T1 F1] [T2 F2]; rewrite I1 in T1; rewrite I2 in T2; assert (team1 = 1) by lia; assert (team2 = 1) by lia; subst;
    destruct (outcomes_unique E rg n d ple seed 1 Hs (le_n 1)); eauto.
Qed.
(** with at least 20000 nodes the number of threads does matter: a single generator or one per thread *)
Example C29_thread_count_matters_above : forall n, N.of_nat n = 20000%N -> input_threads true 1 n <> input_threads true 2 n.
Proof. intros n H. unfold input_threads. rewrite H. change (20000 / 10000)%N with 2%N. change (N.to_nat 2) with 2. cbn. lia. Qed.
(** and so do the results: the second half of the draws comes from another seed *)
Theorem C29_two_threads_two_seeds : forall E rg n ple seed ws, (0 <= seed < 2 ^ 31 - 1)%Z ->
  weights_outcome E rg (2 * n) ple seed 2 (Some ws) ->
  ws = map (weight_of E (2 * n) ple) (draws rg n (rseed rg seed) ++ draws rg n (rseed rg (seed + 1))).
Proof.
  intros E rg n ple seed ws Hs. unfold weights_outcome, gens_ok. rewrite (proj2 (Z.leb_le _ _) (proj1 Hs)).
  assert (seeds_defined seed 2 = true) as ->. { unfold seeds_defined. apply orb_true_iff. right. apply Z.ltb_lt. lia. }
  intros (g & -> & F). apply filled_iff in F; [|lia|now rewrite map_length, seq_length]. injection F as ->. rewrite chunks_weights. f_equal.
  unfold thread_draws. set (m := 2 * n). unfold static_split. cbn [seq map combine fst snd concat]. rewrite app_nil_r.
  assert (B : forall tid, tid < 2 -> length (static_block (seq 0 m) 2 tid) = n).
  { intros tid Htid. unfold static_block. rewrite firstn_length, skipn_length, seq_length. unfold static_begin.
    assert (m / 2 = n) as -> by (unfold m; rewrite Nat.mul_comm; apply Nat.div_mul; lia).
    assert (m mod 2 = 0) as -> by (unfold m; rewrite Nat.mul_comm; apply Nat.mod_mul; lia). unfold m; destruct tid as [|[|tid]]; cbn; lia. }
  rewrite !B by lia. rewrite !Nat.mul_1_r. cbn [Z.of_nat Pos.of_succ_nat]. now rewrite Z.add_0_r.
Qed.

(** hypotheses can be met: four nodes, two threads *)
Example ex_weights_run : exists rg, good_rng rg /\ exists ws, weights_outcome ideal_env rg 4 (5/2) 7 2 (Some ws) /\ length ws = 4.
Proof.
  exists {| G := Z; rseed := fun z => z; u01 := fun g => (IZR (g mod 4) / 4, (g + 1)%Z)%R; uni0 := fun p g => (0%R, g); geo := fun p g => (0%N, g) |}.
  assert (GR : good_rng {| G := Z; rseed := fun z => z; u01 := fun g => (IZR (g mod 4) / 4, (g + 1)%Z)%R; uni0 := fun p g => (0%R, g); geo := fun p g => (0%N, g) |}).
  { constructor; cbn.
    - intros g. pose proof (Z.mod_pos_bound g 4 ltac:(lia)). assert (0 <= IZR (g mod 4) <= 3)%R by (split; apply IZR_le; lia). lra.
    - intros p g H. lra.
    - intros p g H. lia. }
  split; [exact GR|]. destruct (C27_weights _ 4 (5/2)%R 7%Z 2 GR ltac:(lia) ltac:(lra) ltac:(lia) eq_refl) as [(o & Ho) H].
  destruct (H o Ho) as (ws & gens & -> & _ & HL & _). eauto.
Qed.

Print Assumptions C27_weights.
Print Assumptions C27_law.
Print Assumptions C28_positions.
Print Assumptions C29_reproducible.
Print Assumptions C29_thread_count_irrelevant.
Print Assumptions C29_two_threads_two_seeds.
