(** Properties C01-C07, C09-C14, C19: girgs::generateEdges and the spatial tree, in exact real arithmetic.
    Specification vocabulary: [is_torus_dist] (max-norm torus distance), [sumR] (sum of a list), [interleaving] (Sched.v). *)
From Coq Require Import Arith NArith ZArith List Bool Reals Permutation Lia Lra.
From Flocq Require Import Core.
From Verif Require Import Base Sched Bits_Model Bits_Proofs Coord_Model Coord_Proofs Coord_Geo Coord_Torus Prop_Coord IntSort_Model IntSort_Proofs IntSort_Main
  Prop_IntSort Prefix_Model Tree_Model Cover Tree_Proofs Tree_Build Tree_Plan Tree_Run Girg_Model Girg_Proofs Girg_Num.
Import ListNotations.
Local Open Scope nat_scope.

(** Valid inputs: dimension 1..5; weights in the range of double, not too small compared to their sum ([weights_ok]: W/w_min^2 < 2^31);
    one position in [0,1)^D per weight; fewer than 2^31 nodes (indices are int); up to 2^17 OpenMP threads; the seed is negative
    (random seeds) or seed + thread number fits into int. *)
Record girg_input (D : N) (ws : list R) (ps : list (list R)) (seed : Z) (omp_max team : nat) : Prop := {
  gi_dim : (1 <= D <= 5)%N;
  gi_weights : weights_ok ws;
  gi_len : length ws = length ps;
  gi_n : (N.of_nat (length ws) < 2 ^ 31)%N;
  gi_pos : Forall (fun p => length p = N.to_nat D /\ in_torus p) ps;
  gi_omp : (1 <= N.of_nat omp_max <= 2 ^ 17)%N;
  gi_team : 1 <= team <= omp_max;
  gi_seed : (seed < 0 \/ seed + Z.of_nat omp_max <= 2 ^ 31)%Z }.

Lemma omp_nat m : (1 <= N.of_nat m <= 2 ^ 17)%N -> 1 <= m <= 2 ^ 17 + 1 /\ 1 <= m <= N.to_nat (2 ^ 17).
Proof.
  intros [H1 H2]. assert (m <= N.to_nat (2 ^ 17)) by lia. split; [|lia]. split; [lia|].
  rewrite N2Nat.inj_pow in *. change (N.to_nat 2) with 2 in *. change (N.to_nat 17) with 17 in *. lia.
Qed.

Section Use.
  Context {D : N} {ws : list R} {ps : list (list R)} {seed : Z} {omp_max team : nat} (HI : girg_input D ws ps seed omp_max team).
  Lemma use_num : exists P, num_ok ideal_env D ws P /\ ideal_params ws P.
  Proof. apply ideal_num_ok; [apply HI|apply (gi_weights _ _ _ _ _ _ HI)]. Qed.
  Lemma use_vp : Forall (valid_pos ideal_env D) ps.
  Proof.
    eapply Forall_impl; [|apply (gi_pos _ _ _ _ _ _ HI)]. intros p [H1 H2]. split; [exact H1|].
    eapply Forall_impl; [|exact H2]. intros x Hx. split; [exact Hx|reflexivity].
  Qed.
  Lemma use_fpl : fpl_ok D ideal_env omp_max.
  Proof. apply ideal_fpl_ok; [apply HI|apply omp_nat; apply HI]. Qed.
  Lemma use_seed : seeds_defined seed omp_max = true.
  Proof.
    unfold seeds_defined. apply orb_true_iff. destruct (gi_seed _ _ _ _ _ _ HI); [left; now apply Z.ltb_lt|right; apply Z.ltb_lt; lia].
  Qed.
  Lemma use_build cfg P : num_ok ideal_env D ws P -> exists t ord, tree_spec ideal_env cfg D ws ps P t ord /\ tree_outcome ideal_env cfg D ws ps omp_max (Some t) /\
      forall o, tree_outcome ideal_env cfg D ws ps omp_max o -> o = Some t.
  Proof.
    intros NO. apply build_ok; auto; try apply HI; [apply ideal_good|apply use_vp|]. apply omp_nat. apply HI.
  Qed.
  Lemma use_main cfg rg alpha P : num_ok ideal_env D ws P -> good_rng rg ->
    (exists o, girg_outcome ideal_env cfg rg ws ps alpha seed omp_max team o) /\
    exists t ord, tree_spec ideal_env cfg D ws ps P t ord /\
    forall o, girg_outcome ideal_env cfg rg ws ps alpha seed omp_max team o ->
      exists rs edges, edges_outcome ideal_env cfg D t alpha rg seed omp_max team (Some rs) /\ o = Some edges /\
        sampled ideal_env cfg D ws ps P alpha rg omp_max ord rs /\ interleaving (map edges_of rs) edges.
  Proof.
    intros NO GG. apply girg_ok; auto; try apply HI; [apply ideal_good|apply use_vp| |apply use_fpl|apply use_seed]. apply omp_nat. apply HI.
  Qed.
  Lemma edges_In {T} (rs : list (result T)) edges x : interleaving (map edges_of rs) edges -> (In x edges <-> In x (flat_map edges_of rs)).
  Proof. intros H. rewrite (interleaving_In _ _ x H), flat_map_concat_map. reflexivity. Qed.
  Lemma edges_perm {T} (rs : list (result T)) edges : interleaving (map edges_of rs) edges -> Permutation edges (flat_map edges_of rs).
  Proof. intros H. apply interleaving_Permutation in H. now rewrite flat_map_concat_map. Qed.
End Use.

(** ** C01: the threshold graph is exact *)
(** the edge rule: dist(x_u, x_v)^D < w_u w_v / W *)
Definition threshold_edge (D : N) (ws : list R) (ps : list (list R)) (u v : nat) : Prop :=
  exists d, is_torus_dist (nth u ps []) (nth v ps []) d /\ (d ^ N.to_nat D < nth u ws 0 * nth v ws 0 / sumR ws)%R.

Lemma hit_iff cfg D ws ps P u v : ideal_params ws P -> Forall (valid_pos ideal_env D) ps -> u < length ps -> v < length ps ->
  hitw ideal_env cfg D ws ps P u v = true <-> threshold_edge D ws ps u v.
Proof.
  intros IP VP Hu Hv. unfold hitw, d_term, w_term. rewrite Rltb_true, pow_to_the_ideal. cbn [rnd ideal_env weight Tree_Build.mk]. unfold wt.
  rewrite (ip_W _ _ IP). unfold node_distance. cbn [coord Tree_Build.mk]. unfold pos.
  rewrite Forall_forall in VP. destruct (VP _ (nth_In ps [] Hu)) as [L1 F1]. destruct (VP _ (nth_In ps [] Hv)) as [L2 F2].
  assert (T : is_torus_dist (nth u ps []) (nth v ps []) (coord_distance ideal_env 0 (nth u ps []) (nth v ps []))).
  { apply distance_is_torus_dist; [| |congruence]; apply unit_closed; [eapply Forall_impl; [|exact F1]|eapply Forall_impl; [|exact F2]]; cbn; tauto. }
  split.
  - intros H. eexists. split; [exact T|exact H].
  - intros (d & Td & H). now rewrite (torus_dist_unique _ _ _ _ T Td).
Qed.

Theorem C01_threshold_graph_is_exact : forall cfg rg D ws ps seed omp_max team,
  girg_input D ws ps seed omp_max team -> good_rng rg ->
  (exists o, girg_outcome ideal_env cfg rg ws ps AInf seed omp_max team o) /\
  forall o, girg_outcome ideal_env cfg rg ws ps AInf seed omp_max team o ->
    exists edges, o = Some edges /\
    forall u v, u < length ws -> v < length ws -> u <> v ->
      (In (u, v) edges \/ In (v, u) edges <-> threshold_edge D ws ps u v).
Proof.
  intros cfg rg D ws ps seed omp_max team HI GG. destruct (use_num HI) as (P & NO & IP).
  destruct (use_main HI cfg rg AInf P NO GG) as [H1 (t & ord & TS & H2)]. split; [exact H1|].
  intros o Ho. destruct (H2 o Ho) as (rs & edges & _ & -> & SA & IL). exists edges. split; [reflexivity|].
  intros u v Hu Hv Hne. rewrite !(edges_In rs edges _ IL), (sa_inf _ _ _ _ _ _ _ _ _ _ _ SA (ip_far _ _ IP) eq_refl u v Hu Hv Hne).
  apply hit_iff; auto; [apply (use_vp HI)| |]; rewrite <- (gi_len _ _ _ _ _ _ HI); assumption.
Qed.

(** ** C02, C03 *)
Theorem C02_simple_graph : forall cfg rg D ws ps alpha seed omp_max team,
  girg_input D ws ps seed omp_max team -> good_rng rg ->
  forall o, girg_outcome ideal_env cfg rg ws ps alpha seed omp_max team o ->
    exists edges, o = Some edges /\ NoDup edges /\
      (forall u, ~ In (u, u) edges) /\ (forall u v, In (u, v) edges -> ~ In (v, u) edges).
Proof.
  intros cfg rg D ws ps alpha seed omp_max team HI GG. destruct (use_num HI) as (P & NO & IP).
  destruct (use_main HI cfg rg alpha P NO GG) as [_ (t & ord & TS & H2)].
  intros o Ho. destruct (H2 o Ho) as (rs & edges & _ & -> & SA & IL). exists edges. split; [reflexivity|].
  assert (Hin : forall u v, In (u, v) edges -> u < length ws /\ v < length ws /\ u <> v).
  { intros u v H. apply (edges_In rs edges _ IL) in H. apply (le_count_incl _ _ _ (sa_le _ _ _ _ _ _ _ _ _ _ _ SA)) in H.
    now apply (sa_range _ _ _ _ _ _ _ _ _ _ _ SA). }
  assert (Hc : forall u v, u < length ws -> v < length ws -> u <> v -> cnt2 edges u v <= 1).
  { intros u v Hu Hv Hne. rewrite (cnt2_perm _ _ u v (edges_perm rs edges IL)).
    pose proof (sa_once _ _ _ _ _ _ _ _ _ _ _ SA u v Hu Hv Hne) as Ho1. unfold cnt2 in *.
    pose proof (sa_le _ _ _ _ _ _ _ _ _ _ _ SA (u, v)). pose proof (sa_le _ _ _ _ _ _ _ _ _ _ _ SA (v, u)). lia. }
  split; [|split].
  - apply (NoDup_count_occ pair_dec). intros [u v]. destruct (in_dec pair_dec (u, v) edges) as [H|H].
    + destruct (Hin u v H) as (Hu & Hv & Hne). specialize (Hc u v Hu Hv Hne). unfold cnt2 in Hc. lia.
    + apply (count_occ_not_In pair_dec) in H. lia.
  - intros u H. destruct (Hin u u H) as (_ & _ & Hne). congruence.
  - intros u v H H'. destruct (Hin u v H) as (Hu & Hv & Hne). specialize (Hc u v Hu Hv Hne). unfold cnt2 in Hc.
    apply (count_occ_In pair_dec) in H, H'. lia.
Qed.

Theorem C03_endpoints_are_node_indices : forall cfg rg D ws ps alpha seed omp_max team,
  girg_input D ws ps seed omp_max team -> good_rng rg ->
  forall o, girg_outcome ideal_env cfg rg ws ps alpha seed omp_max team o ->
    exists edges, o = Some edges /\ forall u v, In (u, v) edges -> u < length ws /\ v < length ws.
Proof.
  intros cfg rg D ws ps alpha seed omp_max team HI GG. destruct (use_num HI) as (P & NO & IP).
  destruct (use_main HI cfg rg alpha P NO GG) as [_ (t & ord & TS & H2)].
  intros o Ho. destruct (H2 o Ho) as (rs & edges & _ & -> & SA & IL). exists edges. split; [reflexivity|].
  intros u v H. apply (edges_In rs edges _ IL) in H. apply (le_count_incl _ _ _ (sa_le _ _ _ _ _ _ _ _ _ _ _ SA)) in H.
  apply (sa_range _ _ _ _ _ _ _ _ _ _ _ SA) in H. tauto.
Qed.
(** the index reported for a node is its index in the caller's vectors: the tree holds every node of the caller once, with the caller's
    weight and position (edges are reported as pairs [index a, index b] of nodes of the tree, see decideI and skip_loop) *)
Theorem C03_tree_holds_the_callers_nodes : forall cfg D ws ps seed omp_max team,
  girg_input D ws ps seed omp_max team ->
  forall ot, tree_outcome ideal_env cfg D ws ps omp_max ot ->
    exists t, ot = Some t /\ Permutation (map index (tnodes t)) (seq 0 (length ws)) /\
      forall v, In v (tnodes t) -> weight v = nth (index v) ws 0%R /\ coord v = nth (index v) ps [].
Proof.
  intros cfg D ws ps seed omp_max team HI. destruct (use_num HI) as (P & NO & IP).
  destruct (use_build HI cfg P NO) as (t & ord & TS & _ & T2). intros ot Hot. exists t. split; [now apply T2|].
  rewrite (ts_nodes _ _ _ _ _ _ _ _ TS). split.
  - rewrite map_index. apply (ts_perm _ _ _ _ _ _ _ _ TS).
  - intros v Hv. apply in_map_iff in Hv as (u & <- & _). split; reflexivity.
Qed.

(** ** C04: every pair is decided exactly once *)
Theorem C04_every_pair_decided_once : forall cfg rg D ws ps alpha seed omp_max team t,
  girg_input D ws ps seed omp_max team -> good_rng rg ->
  (ndebug cfg = true -> alpha <> AInf) (* release builds do not visit far cell pairs of threshold graphs at all *) ->
  tree_outcome ideal_env cfg D ws ps omp_max (Some t) ->
  (exists ors, edges_outcome ideal_env cfg D t alpha rg seed omp_max team ors) /\
  forall ors, edges_outcome ideal_env cfg D t alpha rg seed omp_max team ors ->
    exists rs, ors = Some rs /\
      (* decided pairs: u <> v, each unordered pair once *)
      (forall u v, In (u, v) (flat_map pairs_of rs) -> u < length ws /\ v < length ws /\ u <> v) /\
      (forall u v, u < length ws -> v < length ws -> u <> v ->
         count_occ pair_dec (flat_map pairs_of rs) (u, v) + count_occ pair_dec (flat_map pairs_of rs) (v, u) = 1) /\
      (* reported edges are decided pairs *)
      (forall e, In e (flat_map edges_of rs) -> In e (flat_map pairs_of rs)) /\
      (* the closing debug assertion, SpatialTree.inl:61,82 *)
      (fold_right Z.add 0 (map (fun r => type1 r + type2 r) rs) = Z.of_nat (length ws) * (Z.of_nat (length ws) - 1))%Z.
Proof.
  intros cfg rg D ws ps alpha seed omp_max team t HI GG Ha Ht. destruct (use_num HI) as (P & NO & IP).
  destruct (use_build HI cfg P NO) as (t' & ord & TS & _ & T2). specialize (T2 _ Ht). injection T2 as ->.
  destruct (edges_ok ideal_env cfg D ws ps P ideal_good (gi_dim _ _ _ _ _ _ HI) NO (gi_len _ _ _ _ _ _ HI) (use_vp HI) (gi_n _ _ _ _ _ _ HI)
    alpha rg seed omp_max team GG (proj1 (omp_nat _ (gi_omp _ _ _ _ _ _ HI))) (use_fpl HI) (gi_team _ _ _ _ _ _ HI) (use_seed HI) t' ord TS) as [H1 H2].
  split; [exact H1|]. intros ors Hors. destruct (H2 ors Hors) as (rs & -> & SA). exists rs. split; [reflexivity|].
  assert (Hk : ndebug cfg && is_inf alpha = false).
  { destruct (ndebug cfg); [|reflexivity]. destruct alpha; [now specialize (Ha eq_refl)|reflexivity]. }
  pose proof (sa_all _ _ _ _ _ _ _ _ _ _ _ SA Hk) as Hall. pose proof (sa_range _ _ _ _ _ _ _ _ _ _ _ SA) as Hr.
  split; [exact Hr|]. split; [exact Hall|]. split.
  - intros e He. eapply le_count_incl; [apply (sa_le _ _ _ _ _ _ _ _ _ _ _ SA)|exact He].
  - rewrite (sa_checks _ _ _ _ _ _ _ _ _ _ _ SA). now apply pairs_length.
Qed.

(** ** C05: the threshold graph does not depend on randomness, thread count or schedule *)
Theorem C05_threshold_graph_is_deterministic : forall cfg D ws ps rg1 seed1 omp1 team1 rg2 seed2 omp2 team2,
  girg_input D ws ps seed1 omp1 team1 -> good_rng rg1 -> girg_input D ws ps seed2 omp2 team2 -> good_rng rg2 ->
  forall o1 o2, girg_outcome ideal_env cfg rg1 ws ps AInf seed1 omp1 team1 o1 ->
    girg_outcome ideal_env cfg rg2 ws ps AInf seed2 omp2 team2 o2 ->
    exists e1 e2, o1 = Some e1 /\ o2 = Some e2 /\ Permutation e1 e2.
Proof.
  intros cfg D ws ps rg1 seed1 omp1 team1 rg2 seed2 omp2 team2 HI1 GG1 HI2 GG2 o1 o2 Ho1 Ho2. destruct (use_num HI1) as (P & NO & IP).
  destruct (use_main HI1 cfg rg1 AInf P NO GG1) as [_ (t1 & ord1 & TS1 & M1)]. destruct (use_main HI2 cfg rg2 AInf P NO GG2) as [_ (t2 & ord2 & TS2 & M2)].
  destruct (M1 o1 Ho1) as (rs1 & e1 & _ & -> & SA1 & IL1). destruct (M2 o2 Ho2) as (rs2 & e2 & _ & -> & SA2 & IL2).
  exists e1, e2. split; [reflexivity|]. split; [reflexivity|].
  rewrite (edges_perm rs1 e1 IL1), (edges_perm rs2 e2 IL2).
  rewrite (sa_inf_edges _ _ _ _ _ _ _ _ _ _ _ SA1 (ip_far _ _ IP) eq_refl), (sa_inf_edges _ _ _ _ _ _ _ _ _ _ _ SA2 (ip_far _ _ IP) eq_refl). apply filter_Permutation.
  rewrite (sa_perm _ _ _ _ _ _ _ _ _ _ _ SA1), (sa_perm _ _ _ _ _ _ _ _ _ _ _ SA2).
  now rewrite (ord_unique _ _ _ _ _ _ _ _ _ _ TS1 TS2).
Qed.

(** ** C06: alpha = 0 *)
Theorem C06_alpha_zero_is_complete : forall cfg rg D ws ps seed omp_max team,
  girg_input D ws ps seed omp_max team -> good_rng rg ->
  forall o, girg_outcome ideal_env cfg rg ws ps (AFin 0) seed omp_max team o ->
    exists edges, o = Some edges /\ NoDup edges /\
      (forall u v, In (u, v) edges -> u < length ws /\ v < length ws) /\
      (forall u v, u < length ws -> v < length ws -> u <> v ->
         (In (u, v) edges /\ ~ In (v, u) edges) \/ (In (v, u) edges /\ ~ In (u, v) edges)) /\
      2 * length edges = length ws * (length ws - 1).
Proof.
  intros cfg rg D ws ps seed omp_max team HI GG o Ho.
  destruct (C02_simple_graph cfg rg D ws ps (AFin 0) seed omp_max team HI GG o Ho) as (edges & -> & ND & _ & Anti).
  destruct (use_num HI) as (P & NO & IP).
  destruct (use_main HI cfg rg (AFin 0) P NO GG) as [_ (t & ord & TS & H2)].
  destruct (H2 _ Ho) as (rs & e' & _ & [= <-] & SA & IL). exists edges. split; [reflexivity|]. split; [exact ND|].
  assert (Hx : forall x, xpow ideal_env x (AFin 0) = XFin 1).
  { intros [|r]; cbn [xpow]; [destruct (Rlt_dec 0 0); [lra|]; destruct (Rlt_dec 0 0); [lra|reflexivity]|]. cbn [fpow ideal_env]. unfold Rpower. now rewrite Rmult_0_l, exp_0. }
  pose proof (edges_perm rs edges IL) as HP. rewrite (sa_zero _ _ _ _ _ _ _ _ _ _ _ SA Hx) in HP.
  assert (Hk : ndebug cfg && is_inf (AFin 0) = false) by (cbn; apply andb_false_r).
  pose proof (sa_all _ _ _ _ _ _ _ _ _ _ _ SA Hk) as Hall. pose proof (sa_range _ _ _ _ _ _ _ _ _ _ _ SA) as Hr.
  split; [intros u v H; apply (Permutation_in _ HP), Hr in H; tauto|]. split.
  - intros u v Hu Hv Hne. specialize (Hall u v Hu Hv Hne). rewrite <- (cnt2_perm _ _ u v HP) in Hall. unfold cnt2 in Hall.
    destruct (in_dec pair_dec (u, v) edges) as [H|H]; [left; auto|]. right. split; auto.
    apply (count_occ_not_In pair_dec) in H. apply (count_occ_In pair_dec). lia.
  - pose proof (pairs_length _ _ Hr Hall) as HLen. rewrite (Permutation_length HP).
    destruct (length ws); lia.
Qed.

(** ** C09: reproducibility *)
Theorem C09_reproducible : forall cfg rg D ws ps alpha seed omp_max team,
  girg_input D ws ps seed omp_max team -> good_rng rg -> (0 <= seed)%Z ->
  forall o1 o2, girg_outcome ideal_env cfg rg ws ps alpha seed omp_max team o1 ->
    girg_outcome ideal_env cfg rg ws ps alpha seed omp_max team o2 ->
    exists e1 e2, o1 = Some e1 /\ o2 = Some e2 /\ Permutation e1 e2 /\ (omp_max = 1 -> e1 = e2) /\
      (* the edges reported by each thread, in order, are the same in both runs; only their interleaving differs *)
      exists per_thread, interleaving per_thread e1 /\ interleaving per_thread e2.
Proof.
  intros cfg rg D ws ps alpha seed omp_max team HI GG Hs o1 o2 Ho1 Ho2. destruct (use_num HI) as (P & NO & IP).
  destruct (use_main HI cfg rg alpha P NO GG) as [_ (t & ord & TS & M)].
  destruct (M o1 Ho1) as (rs1 & e1 & EO1 & -> & SA1 & IL1). destruct (M o2 Ho2) as (rs2 & e2 & EO2 & -> & SA2 & IL2).
  assert (rs1 = rs2).
  { unfold edges_outcome in EO1, EO2. rewrite (use_seed HI) in EO1, EO2. destruct EO1 as (g1 & G1 & E1), EO2 as (g2 & G2 & E2).
    unfold gens_ok in G1, G2. rewrite (proj2 (Z.leb_le _ _) Hs) in G1, G2. subst g1 g2. congruence. }
  subst rs2. exists e1, e2. split; [reflexivity|]. split; [reflexivity|]. split; [|split].
  - rewrite (edges_perm rs1 e1 IL1). symmetry. apply (edges_perm rs1 e2 IL2).
  - intros ->. pose proof (sa_len _ _ _ _ _ _ _ _ _ _ _ SA1) as HLen. destruct rs1 as [|r [|r2 rs1]]; [| |cbn in HLen; lia].
    + apply interleaving_nil in IL1, IL2. congruence.
    + apply interleaving_single in IL1, IL2. congruence.
  - exists (map edges_of rs1). auto.
Qed.

(** ** C10: the parallel split is a partition of the sequential work *)
Theorem C10_work_split : forall cfg D ws ps alpha seed omp_max team P,
  girg_input D ws ps seed omp_max team -> tree_params ideal_env D ws = Some P ->
  exists work, visit cfg D P alpha (N.to_nat (p_levels P)) 0 0 0 = Some work /\
    (* what generateEdges runs *)
    (exists calls, thread_calls ideal_env cfg D P alpha omp_max team = Some calls /\ length calls <= omp_max /\ Permutation (concat calls) work) /\
    (* for any cut level, also below the deepest level, and any number of threads *)
    (forall cut T, (1 <= cut)%N -> (D * cut < 32)%N -> 1 <= T ->
      exists before pushes after, seq_start cfg D P alpha cut (N.to_nat (p_levels P)) 0 0 0 = Some (before, pushes) /\
        par_calls cfg D P alpha cut pushes T = Some after /\ length after = T /\ Permutation (before ++ concat after) work).
Proof.
  intros cfg D ws ps alpha seed omp_max team P HI HP. destruct (use_num HI) as (P' & NO & _).
  assert (P' = P). { pose proof (no_params _ _ _ _ NO) as H. congruence. } subst P'.
  pose proof (gi_dim _ _ _ _ _ _ HI) as HD. pose proof (no_c _ _ _ _ NO) as Hc.
  destruct (use_build HI cfg P NO) as (t & ord & TS & _). pose proof (levels_eq _ cfg _ _ ps _ NO t ord TS) as HLE.
  pose proof (root_level D P HD HLE) as HR.
  exists (full_plan cfg D P alpha). split.
  { unfold full_plan. apply visit_eq; auto; lia. }
  split.
  - destruct (thread_calls_ok cfg D P alpha HD Hc HLE ideal_env omp_max team (use_fpl HI) (gi_team _ _ _ _ _ _ HI)) as (calls & E1 & L1 & P1).
    exists calls. repeat split; auto. lia.
  - intros cut T Hcut Hb HT. rewrite (seq_eq cfg D P alpha HD Hc HLE cut (N.to_nat (p_levels P - 1))) by (auto; lia).
    set (sp := seqplan cfg D P cut (N.to_nat (p_levels P - 1)) 0%N 0%N 0%N).
    destruct (par_eq cfg D P alpha HD Hc HLE cut (snd sp) T ltac:(lia) Hb) as (par & Epar & Lpar & Hpar).
    { apply (pushes_level cfg D P HD Hc HLE); auto; lia. }
    do 3 eexists. split; [reflexivity|]. split; [exact Epar|]. split; [exact Lpar|].
    rewrite Hpar. unfold full_plan. rewrite <- flat_map_filter, <- filter_app. apply filter_Permutation. symmetry.
    unfold sp, seqplan, plan. apply gseq_partition; lia.
Qed.

(** ** C11: the buffered collection *)
Theorem C11_collection : forall (block : N) omp_max (calls : list (list (nat * nat))), length calls <= omp_max ->
  (exists o, collect block omp_max calls o) /\
  forall o, collect block omp_max calls o -> exists out, o = Some out /\
    interleaving calls out /\ Permutation out (concat calls) /\ (forall es, calls = [es] -> out = es).
Proof.
  intros block omp_max calls HL. destruct (collect_interleaving block omp_max calls HL) as [H1 H2]. split; [exact H1|].
  intros o Ho. destruct (H2 o Ho) as (out & -> & IL). exists out. repeat split; auto.
  - now apply interleaving_Permutation.
  - intros es ->. now apply interleaving_single.
Qed.

(** ** C12: unsupported dimensions *)
Theorem C12_unsupported_dimension : forall E cfg rg ws p0 ps alpha seed omp_max team,
  length p0 < 1 \/ 5 < length p0 ->
  forall o, girg_outcome E cfg rg ws (p0 :: ps) alpha seed omp_max team o <-> o = Some [].
Proof.
  intros E cfg rg ws p0 ps alpha seed omp_max team H o. unfold girg_outcome.
  destruct ((1 <=? N.of_nat (length p0)) && (N.of_nat (length p0) <=? 5))%N eqn:Eb; [|tauto].
  apply andb_prop in Eb as [E1%N.leb_le E2%N.leb_le]. lia.
Qed.

(** ** C13: no undefined behaviour *)
Theorem C13_no_undefined_behaviour : forall cfg rg D ws ps alpha seed omp_max team,
  girg_input D ws ps seed omp_max team -> good_rng rg ->
  ~ girg_outcome ideal_env cfg rg ws ps alpha seed omp_max team None /\
  ~ tree_outcome ideal_env cfg D ws ps omp_max None.
Proof.
  intros cfg rg D ws ps alpha seed omp_max team HI GG. split.
  - intros Ho. destruct (C03_endpoints_are_node_indices _ _ _ _ _ _ _ _ _ HI GG _ Ho) as (e & He & _). discriminate.
  - intros Ho. destruct (C03_tree_holds_the_callers_nodes cfg _ _ _ _ _ _ HI _ Ho) as (t & Et & _). discriminate.
Qed.

(** ** C19: cell queries *)
Lemma nth_error_firstn' {T} (l : list T) n k : k < n -> nth_error (firstn n l) k = nth_error l k.
Proof.
  revert l k. induction n as [|n IH]; intros l k H; [lia|]. destruct l as [|a l]; [reflexivity|]. destruct k as [|k]; [reflexivity|]. cbn. apply IH. lia.
Qed.
Lemma nth_error_skipn' {T} (l : list T) n k : nth_error (skipn n l) k = nth_error l (n + k).
Proof. revert l. induction n as [|n IH]; intros l; [reflexivity|]. destruct l as [|a l]; [now destruct k|]. cbn. apply IH. Qed.
Theorem C19_cell_queries : forall cfg D ws ps seed omp_max team,
  girg_input D ws ps seed omp_max team ->
  (exists ot, tree_outcome ideal_env cfg D ws ps omp_max ot) /\
  forall ot, tree_outcome ideal_env cfg D ws ps omp_max ot ->
  exists t wmin, ot = Some t /\ In wmin ws /\ (forall w, In w ws -> wmin <= w)%R /\
    (* every weight belongs to a layer: layer i holds the weights in [2^i wmin, 2^(i+1) wmin) *)
    (forall w, In w ws -> exists i, i < p_layers (tP t) /\ (2 ^ i * wmin <= w < 2 ^ (i + 1) * wmin)%R) /\
    forall i level cell, i < p_layers (tP t) -> (level <= target_level D (p_c (tP t)) i)%N -> cell_in_level D level cell ->
      exists L box, nodes_in D t i cell level = Some L /\ bounds ideal_env cfg D cell level = Some box /\
        NoDup (map index L) /\
        (forall u, In u (map index L) <->
           u < length ws /\ (2 ^ i * wmin <= nth u ws 0 < 2 ^ (i + 1) * wmin)%R /\
           Forall2 (fun iv x => fst iv <= x < snd iv)%R box (nth u ps [])) /\
        pointsInCell D t i cell level = Some (Z.of_nat (length L)) /\
        (forall k, k < length L -> kthPoint D t i cell level k = nth_error L k).
Proof.
  intros cfg D ws ps seed omp_max team HI. destruct (use_num HI) as (P & NO & IP).
  destruct (use_build HI cfg P NO) as (t & ord & TS & T1 & T2). split; [eauto|]. intros ot Hot. exists t, (p_w0 P).
  split; [now apply T2|]. split; [apply IP|]. split; [apply IP|]. rewrite (ts_P _ _ _ _ _ _ _ _ TS).
  assert (Hb2 : forall i, b2 (Z.of_nat i) = (2 ^ i)%R).
  { intros i. rewrite <- IZR_Zpower by lia. rewrite pow_IZR. reflexivity. }
  assert (Hlay : forall w i, In w ws -> layer_index ideal_env (p_w0 P) w = Some i <-> (2 ^ i * p_w0 P <= w < 2 ^ (i + 1) * p_w0 P)%R).
  { intros w i Hw. rewrite (ip_layer _ _ IP w i Hw). rewrite <- !Hb2. replace (Z.of_nat (i + 1)) with (Z.of_nat i + 1)%Z by lia. reflexivity. }
  split.
  { intros w Hw. destruct (no_layer _ _ _ _ NO w Hw) as (i & Hi & L). exists i. split; [exact L|]. now apply Hlay. }
  intros i level cell Hi Hl HA.
  pose proof (gi_dim _ _ _ _ _ _ HI) as HD.
  pose proof (tlb _ _ _ ps _ HD NO (gi_len _ _ _ _ _ _ HI) (gi_n _ _ _ _ _ _ HI) i) as TB.
  pose proof (tl_lt _ _ _ ps _ HD NO (gi_len _ _ _ _ _ _ HI) (gi_n _ _ _ _ _ _ HI) i) as TL. unfold tl in *.
  assert (Hb1 : (D * level <= 31)%N) by nia. assert (Hb3 : (level < 31)%N) by lia.
  apply cell_in_level_iff in HA; [|exact HD|lia].
  destruct (ts_iter _ _ _ _ _ _ _ _ TS i cell level Hi Hl HA) as (b & e & Eit & Esl).
  pose proof (nodes_in_eq _ _ _ _ _ _ _ _ TS i cell level Hi Hl HA) as EN.
  set (VV := V ideal_env cfg D ws ps P ord i cell level) in *.
  exists (map (Tree_Build.mk ideal_env cfg D ws ps P) VV), (map (boxc level) (ccoords cfg D level cell)).
  split; [exact EN|]. split; [now apply bounds_eq; auto using ideal_good|].
  rewrite map_index. split; [eapply V_NoDup; exact TS|]. split; [|split].
  - intros u. unfold VV. rewrite (V_In _ _ _ _ _ _ (gi_len _ _ _ _ _ _ HI) (gi_n _ _ _ _ _ _ HI) _ _ TS).
    split.
    + intros (Hu & Hlu & Hcu). split; [exact Hu|]. destruct (lay_spec _ _ _ _ NO u Hu) as [Eu _]. rewrite Hlu in Eu.
      split; [apply Hlay; [now apply nth_In|exact Eu]|]. rewrite <- Hcu. unfold cel, pos. apply (point_in_own_cell ideal_env); auto.
      apply (pos_valid _ _ _ _ (gi_len _ _ _ _ _ _ HI) (use_vp HI) (gi_n _ _ _ _ _ _ HI) u Hu).
    + intros (Hu & Hw & Hbox). split; [exact Hu|]. apply Hlay in Hw; [|now apply nth_In]. split.
      * unfold lay, wt. now rewrite Hw.
      * unfold cel, pos. symmetry. apply (box_unique cfg D level cell _ ideal_env); auto.
        apply (pos_valid _ _ _ _ (gi_len _ _ _ _ _ _ HI) (use_vp HI) (gi_n _ _ _ _ _ _ HI) u Hu).
  - unfold pointsInCell. rewrite Eit. cbn [obind]. f_equal.
    unfold nodes_in in EN. rewrite Eit in EN. cbn [obind] in EN. unfold slice in EN.
    destruct ((b <=? e) && (e <=? length (tnodes t))) eqn:Eb; [|discriminate]. apply andb_prop in Eb as [B1%Nat.leb_le B2%Nat.leb_le].
    injection EN as EN. rewrite <- EN. rewrite firstn_length, skipn_length. lia.
  - intros k Hk. unfold kthPoint. rewrite Eit. cbn [obind].
    unfold nodes_in in EN. rewrite Eit in EN. cbn [obind] in EN. unfold slice in EN.
    destruct ((b <=? e) && (e <=? length (tnodes t))) eqn:Eb; [|discriminate]. apply andb_prop in Eb as [B1%Nat.leb_le B2%Nat.leb_le].
    injection EN as EN. rewrite <- EN in *. rewrite firstn_length in Hk.
    rewrite nth_error_firstn', nth_error_skipn' by lia. reflexivity.
Qed.

(** ** C07, C14: the envelope and the debug assertions of the sampling step *)
(** the calls executed by generateEdges *)
Definition executed (cfg : config) (D : N) (P : tparams) (alpha : alphaT) (omp_max team : nat) (x : call) : Prop :=
  exists calls, thread_calls ideal_env cfg D P alpha omp_max team = Some calls /\ In x (concat calls).

Section Calls.
  Context {D : N} {ws : list R} {ps : list (list R)} {seed : Z} {omp_max team : nat} (HI : girg_input D ws ps seed omp_max team).
  Variables (cfg : config) (P : tparams) (NO : num_ok ideal_env D ws P) (IP : ideal_params ws P).
  Variables (t : tree) (ord : list nat) (TS : tree_spec ideal_env cfg D ws ps P t ord).
  Notation HD := (gi_dim _ _ _ _ _ _ HI).
  Notation HL := (gi_len _ _ _ _ _ _ HI).
  Notation Hn := (gi_n _ _ _ _ _ _ HI).
  Lemma executed_ok alpha x : executed cfg D P alpha omp_max team x -> call_ok cfg D P x.
  Proof.
    intros (calls & Ec & Hx). pose proof (levels_eq _ cfg _ _ ps _ NO t ord TS) as HLE.
    destruct (thread_calls_ok cfg D P alpha HD (no_c _ _ _ _ NO) HLE ideal_env omp_max team (use_fpl HI) (gi_team _ _ _ _ _ _ HI)) as (calls' & E1 & L1 & P1).
    rewrite Ec in E1. injection E1 as <-. apply (Permutation_in _ P1) in Hx. unfold full_plan in Hx. apply filter_In in Hx as [Hx _].
    revert Hx. apply (plan0_ok _ _ _ _ _ _ HD NO HL Hn t ord TS).
  Qed.
  Lemma b2_pow i : b2 (Z.of_nat i) = (2 ^ i)%R.
  Proof. rewrite <- IZR_Zpower by lia. rewrite pow_IZR. reflexivity. Qed.
  Lemma pow2R_pos' k : (0 < pow2R k)%R. Proof. apply pow2R_pos. Qed.

  Record far_facts (A B l : N) (i j : nat) (wub dlb : R) : Prop := {
    ff_w : w_upper_bound ideal_env P i j = Some wub;
    ff_d : dist_lower_bound ideal_env cfg D A B l = Some dlb;
    ff_wpos : (0 < wub)%R;
    ff_dpos : (0 < dlb)%R;
    ff_le : (wub <= dlb)%R;
    ff_pair : forall u v, In u (V ideal_env cfg D ws ps P ord i A l) -> In v (V ideal_env cfg D ws ps P ord j B l) ->
      let a := Tree_Build.mk ideal_env cfg D ws ps P u in let b := Tree_Build.mk ideal_env cfg D ws ps P v in
      (0 < w_term ideal_env (p_W P) a b < wub /\ dlb <= d_term ideal_env D a b)%R }.
  Lemma far_facts_ok A B l i j : call_ok cfg D P (CallII A B l i j) -> exists wub dlb, far_facts A B l i j wub dlb.
  Proof.
    intros (HA & HB & Hi & Hj & Hl & Ht). pose proof (levels_eq _ cfg _ _ ps _ NO t ord TS) as HLE. pose proof (no_c _ _ _ _ NO) as Hc30.
    assert (Hlev : (l < p_levels P)%N). { rewrite HLE. pose proof (base_le_00 D (p_c P) HD i j). lia. }
    destruct (level_bound D P HD Hc30 HLE l Hlev) as [Hb1 Hb2].
    assert (Hl2 : (2 <= l)%N).
    { destruct (N.le_gt_cases l 1) as [L|L]; [|lia]. rewrite (touching_low cfg D l A B HD L ltac:(lia) HA HB) in Ht. discriminate. }
    pose proof (base_pos D (p_c P) HD i j l ltac:(lia) Hl) as Hc.
    destruct (cell_dist_nontouching ideal_env cfg D l A B HD ideal_good ltac:(lia) ltac:(lia) HA HB Ht) as (d & Ed & Hd).
    pose proof (ip_pos _ _ IP) as Pw. pose proof (ip_Wpos _ _ IP) as PW.
    set (wub := (p_w0 P * 2 ^ (i + 1) * p_w0 P * 2 ^ (j + 1) / p_W P)%R). set (dlb := pow_to_the ideal_env D d).
    assert (Pi : (0 < 2 ^ (i + 1))%R) by (apply pow_lt; lra). assert (Pj : (0 < 2 ^ (j + 1))%R) by (apply pow_lt; lra).
    assert (Hwp : (0 < wub)%R). { unfold wub. apply Rdiv_lt_0_compat; auto. repeat apply Rmult_lt_0_compat; auto. }
    assert (Hdl : (1 / pow2R (D * l) <= dlb)%R) by (apply pow_to_the_ge; auto using ideal_good; try apply HD; lia).
    assert (Hpp : (0 < 1 / pow2R (D * l))%R) by (apply Rdiv_lt_0_compat; [lra|apply pow2R_pos]).
    exists wub, dlb. constructor.
    - unfold w_upper_bound. rewrite !shl1_i32_Some by lia. cbn [obind rnd ideal_env]. f_equal. unfold wub.
      assert (HZ : forall k, IZR (Z.of_N (2 ^ (N.of_nat k + 1))) = (2 ^ (k + 1))%R).
      { intros k. rewrite <- b2_pow, <- IZR_Zpower by lia. f_equal. rewrite N2Z.inj_pow. cbn [radix_val radix2]. f_equal. lia. }
      rewrite !HZ. reflexivity.
    - unfold dist_lower_bound. rewrite Ed. reflexivity.
    - exact Hwp.
    - lra.
    - apply Rle_trans with (1 / pow2R (D * l))%R; [|exact Hdl]. rewrite pow2R_b2.
      pose proof (ip_c _ _ IP ltac:(lia)) as HW. pose proof (bpow_gt_0 radix2 (Z.of_N (D * l))) as Pb.
      apply Rmult_le_reg_r with (p_W P * b2 (Z.of_N (D * l)))%R; [now apply Rmult_lt_0_compat|].
      replace (1 / b2 (Z.of_N (D * l)) * (p_W P * b2 (Z.of_N (D * l))))%R with (p_W P) by (field; lra).
      eapply Rle_trans; [|exact HW]. unfold wub. rewrite <- !b2_pow.
      replace (p_w0 P * b2 (Z.of_nat (i + 1)) * p_w0 P * b2 (Z.of_nat (j + 1)) / p_W P * (p_W P * b2 (Z.of_N (D * l))))%R
        with (b2 (Z.of_nat (i + 1)) * b2 (Z.of_nat (j + 1)) * b2 (Z.of_N (D * l)) * (p_w0 P * p_w0 P))%R by (field; lra).
      rewrite <- !bpow_plus. apply Rmult_le_compat_r; [nra|]. apply bpow_le. lia.
    - intros u v Hu Hv. cbv zeta.
      apply (V_In _ _ _ _ _ _ HL Hn _ _ TS) in Hu as (Hun & Hlu & Hcu). apply (V_In _ _ _ _ _ _ HL Hn _ _ TS) in Hv as (Hvn & Hlv & Hcv).
      destruct (lay_spec _ _ _ _ NO u Hun) as [Eu _]. destruct (lay_spec _ _ _ _ NO v Hvn) as [Ev _]. rewrite Hlu in Eu. rewrite Hlv in Ev.
      assert (Iu : In (wt ws u) ws) by (now apply nth_In). assert (Iv : In (wt ws v) ws) by (now apply nth_In).
      apply (ip_layer _ _ IP _ _ Iu) in Eu as [_ Eu]. apply (ip_layer _ _ IP _ _ Iv) in Ev as [_ Ev].
      pose proof (proj2 (ip_min _ _ IP) _ Iu) as Gu. pose proof (proj2 (ip_min _ _ IP) _ Iv) as Gv.
      unfold w_term, d_term. cbn [weight Tree_Build.mk rnd ideal_env]. split.
      + split; [apply Rdiv_lt_0_compat; [apply Rmult_lt_0_compat; lra|exact PW]|].
        unfold wub, Rdiv. apply Rmult_lt_compat_r; [now apply Rinv_0_lt_compat|].
        rewrite <- !b2_pow. replace (Z.of_nat (i + 1)) with (Z.of_nat i + 1)%Z by lia. replace (Z.of_nat (j + 1)) with (Z.of_nat j + 1)%Z by lia.
        replace (p_w0 P * b2 (Z.of_nat i + 1) * p_w0 P * b2 (Z.of_nat j + 1))%R with ((b2 (Z.of_nat i + 1) * p_w0 P) * (b2 (Z.of_nat j + 1) * p_w0 P))%R by ring.
        apply Rmult_le_0_lt_compat; lra.
      + unfold dlb. apply pow_to_the_mono; [apply ideal_good| |].
        * apply Rle_trans with (1 / pow2R l)%R; [|exact Hd]. left. apply Rdiv_lt_0_compat; [lra|apply pow2R_pos].
        * unfold node_distance. cbn [coord Tree_Build.mk].
          destruct (cell_dist_le_distance ideal_env cfg D l (pos ps u) (pos ps v) HD ideal_good ltac:(lia) ltac:(lia)
            (pos_valid _ _ _ _ HL (use_vp HI) Hn u Hun) (pos_valid _ _ _ _ HL (use_vp HI) Hn v Hvn)) as (d' & Ed' & Hd').
          change (cell_of cfg D l (pos ps u)) with (cel cfg D ps l u) in Ed'. change (cell_of cfg D l (pos ps v)) with (cel cfg D ps l v) in Ed'.
          rewrite Hcu, Hcv, Ed in Ed'. injection Ed' as <-. exact Hd'.
  Qed.
  Lemma far_ranges A B l i j : call_ok cfg D P (CallII A B l i j) ->
    nodes_in D t i A l = Some (map (Tree_Build.mk ideal_env cfg D ws ps P) (V ideal_env cfg D ws ps P ord i A l)) /\
    nodes_in D t j B l = Some (map (Tree_Build.mk ideal_env cfg D ws ps P) (V ideal_env cfg D ws ps P ord j B l)).
  Proof.
    intros (HA & HB & Hi & Hj & Hl & Ht). split; eapply nodes_in_eq; eauto; unfold tl.
    - etransitivity; [exact Hl|]. apply base_le_target, HD.
    - etransitivity; [exact Hl|]. rewrite base_sym. apply base_le_target, HD.
  Qed.
  Lemma near_ranges A B l i j : call_ok cfg D P (CallI A B l i j) ->
    nodes_in D t i A l = Some (map (Tree_Build.mk ideal_env cfg D ws ps P) (V ideal_env cfg D ws ps P ord i A l)) /\
    nodes_in D t j B l = Some (map (Tree_Build.mk ideal_env cfg D ws ps P) (V ideal_env cfg D ws ps P ord j B l)).
  Proof.
    intros (HA & HB & Hi & Hj & Hl). split; eapply nodes_in_eq; eauto; unfold tl; subst l.
    - apply base_le_target, HD.
    - rewrite base_sym. apply base_le_target, HD.
  Qed.
End Calls.

(** C07: within a far cell pair, the probability tested in the accept step is at most the envelope probability *)
Theorem C07_envelope : forall cfg D ws ps alpha seed omp_max team t A B l i j,
  girg_input D ws ps seed omp_max team -> (alpha = AInf \/ exists a, alpha = AFin a /\ (0 <= a)%R) ->
  tree_outcome ideal_env cfg D ws ps omp_max (Some t) -> executed cfg D (tP t) alpha omp_max team (CallII A B l i j) ->
  exists ra rb wub dlb, nodes_in D t i A l = Some ra /\ nodes_in D t j B l = Some rb /\
    w_upper_bound ideal_env (tP t) i j = Some wub /\ dist_lower_bound ideal_env cfg D A B l = Some dlb /\
    forall a b, In a ra -> In b rb -> exists q, conn_prob ideal_env D (p_W (tP t)) alpha a b = XFin q /\
      (0 <= q <= max_connection_prob ideal_env alpha wub dlb /\ max_connection_prob ideal_env alpha wub dlb <= 1)%R.
Proof.
  intros cfg D ws ps alpha seed omp_max team t A B l i j HI Ha Ht Hex. destruct (use_num HI) as (P & NO & IP).
  destruct (use_build HI cfg P NO) as (t' & ord & TS & _ & T2). specialize (T2 _ Ht). injection T2 as ->.
  rewrite (ts_P _ _ _ _ _ _ _ _ TS) in *. pose proof (executed_ok HI cfg P NO t' ord TS alpha _ Hex) as Hok.
  destruct (far_ranges HI cfg P t' ord TS A B l i j Hok) as [E1 E2].
  destruct (far_facts_ok HI cfg P NO IP t' ord TS A B l i j Hok) as (wub & dlb & F).
  do 2 eexists. exists wub, dlb. split; [exact E1|]. split; [exact E2|]. split; [apply F|]. split; [apply F|].
  intros a b Ia Ib. apply in_map_iff in Ia as (u & <- & Hu), Ib as (v & <- & Hv).
  destruct (ff_pair _ _ _ _ _ _ _ _ _ _ F u v Hu Hv) as [[W0 W1] D1].
  pose proof (ff_le _ _ _ _ _ _ _ _ _ _ F) as Fle. pose proof (ff_wpos _ _ _ _ _ _ _ _ _ _ F) as Fw. pose proof (ff_dpos _ _ _ _ _ _ _ _ _ _ F) as Fd.
  set (w := w_term ideal_env (p_W P) _ _) in *. set (d := d_term ideal_env D _ _) in *.
  unfold conn_prob, max_connection_prob. fold w. fold d. unfold xdiv.
  destruct (Req_EM_T d 0) as [|_]; [lra|]. destruct (Req_EM_T dlb 0) as [|_]; [lra|]. cbn [rnd ideal_env].
  assert (Q1 : (0 < w / d)%R) by (apply Rdiv_lt_0_compat; lra).
  assert (Q2 : (w / d < wub / dlb)%R).
  { apply Rlt_le_trans with (wub / d)%R; [apply Rmult_lt_compat_r; [apply Rinv_0_lt_compat; lra|exact W1]|].
    apply Rmult_le_compat_l; [lra|]. apply Rinv_le_contravar; lra. }
  assert (Q3 : (wub / dlb <= 1)%R). { apply Rmult_le_reg_r with dlb; [lra|]. replace (wub / dlb * dlb)%R with wub by (field; lra). lra. }
  destruct Ha as [->|(a & -> & Ha)]; cbn [xpow].
  - destruct (Rlt_dec (w / d) 1); [|lra]. exists 0%R. split; [reflexivity|].
    destruct (Rlt_dec (wub / dlb) 1); [|destruct (Rlt_dec 1 (wub / dlb))]; cbn [xmin1]; unfold Rmin; repeat destruct (Rle_dec _ _); lra.
  - eexists. split; [reflexivity|]. cbn [xmin1 fpow ideal_env].
    assert (P1 : Rpower 1 a = 1%R) by (unfold Rpower; rewrite ln_1, Rmult_0_r; apply exp_0).
    assert (R1 : (Rpower (w / d) a <= Rpower (wub / dlb) a)%R) by (apply Rle_Rpower_l; lra).
    assert (R2 : (Rpower (wub / dlb) a <= 1)%R) by (apply Rle_trans with (Rpower 1 a); [apply Rle_Rpower_l; lra|lra]).
    rewrite Rmin_left by exact R2. split; [split; [left; apply exp_pos|exact R1]|exact R2].
Qed.

(** C14: the other debug assertions of sampleTypeI/sampleTypeII never fire; the strict comparison of line 245 holds non-strictly. *)
(** SpatialTree.inl:195-206 the assertions about a pair (nodeInA, nodeInB) *)
Definition pair_asserts (cfg : config) (D : N) (t : tree) (A B l : N) (i j : nat) (a b : node) : Prop :=
  (exists f ca cb, firstCellOfLevel D l = Some f /\ cellForPoint ideal_env cfg D (coord a) l = Some ca /\ cellForPoint ideal_env cfg D (coord b) l = Some cb /\
     A - f = ca /\ B - f = cb)%N /\
  layer_index ideal_env (p_w0 (tP t)) (weight a) = Some i /\ layer_index ideal_env (p_w0 (tP t)) (weight b) = Some j /\
  index a <> index b.

Lemma pair_asserts_ok D ws ps seed omp_max team (HI : girg_input D ws ps seed omp_max team) cfg P (NO : num_ok ideal_env D ws P)
  t ord (TS : tree_spec ideal_env cfg D ws ps P t ord) A B l i j u v :
  (l < 31)%N -> (D * l < 32)%N -> In u (V ideal_env cfg D ws ps P ord i A l) -> In v (V ideal_env cfg D ws ps P ord j B l) -> u <> v ->
  pair_asserts cfg D t A B l i j (Tree_Build.mk ideal_env cfg D ws ps P u) (Tree_Build.mk ideal_env cfg D ws ps P v).
Proof.
  intros Hl1 Hl2 Hu Hv Hne. pose proof (gi_len _ _ _ _ _ _ HI) as HL. pose proof (gi_n _ _ _ _ _ _ HI) as Hn.
  apply (V_In _ _ _ _ _ _ HL Hn _ _ TS) in Hu as (Hun & Hlu & Hcu). apply (V_In _ _ _ _ _ _ HL Hn _ _ TS) in Hv as (Hvn & Hlv & Hcv).
  destruct (lay_spec _ _ _ _ NO u Hun) as [Eu _]. destruct (lay_spec _ _ _ _ NO v Hvn) as [Ev _].
  pose proof (pos_valid _ _ _ _ HL (use_vp HI) Hn u Hun) as Vu. pose proof (pos_valid _ _ _ _ HL (use_vp HI) Hn v Hvn) as Vv.
  unfold pair_asserts. cbn [coord weight index Tree_Build.mk]. rewrite (ts_P _ _ _ _ _ _ _ _ TS). split; [|split; [congruence|split; [congruence|exact Hne]]].
  exists (fc D l), (cellR cfg D l (pos ps u)), (cellR cfg D l (pos ps v)).
  split; [now apply firstCellOfLevel_Some|]. split; [now apply cellForPoint_eq; auto using ideal_good|]. split; [now apply cellForPoint_eq; auto using ideal_good|].
  unfold cel, cell_of in Hcu, Hcv. lia.
Qed.

Theorem C14_debug_assertions : forall cfg D ws ps alpha seed omp_max team t,
  girg_input D ws ps seed omp_max team -> tree_outcome ideal_env cfg D ws ps omp_max (Some t) ->
  (forall A B l i j, executed cfg D (tP t) alpha omp_max team (CallI A B l i j) ->
     base_level D (p_c (tP t)) i j = l /\
     exists ra rb, nodes_in D t i A l = Some ra /\ nodes_in D t j B l = Some rb /\
       forall a b, In (a, b) (pairsI ((A =? B)%N && (i =? j)) 0 ra rb) -> pair_asserts cfg D t A B l i j a b) /\
  (forall A B l i j, executed cfg D (tP t) alpha omp_max team (CallII A B l i j) ->
     (l <= base_level D (p_c (tP t)) i j)%N /\ touching cfg D A B l = Some false /\ ((A =? B)%N && (i =? j)) = false /\
     exists ra rb wub dlb, nodes_in D t i A l = Some ra /\ nodes_in D t j B l = Some rb /\
       w_upper_bound ideal_env (tP t) i j = Some wub /\ dist_lower_bound ideal_env cfg D A B l = Some dlb /\
       (wub <= dlb)%R /\
       forall a b, In a ra -> In b rb -> pair_asserts cfg D t A B l i j a b /\
         (w_term ideal_env (p_W (tP t)) a b < wub)%R /\ (dlb <= d_term ideal_env D a b)%R).
Proof.
  intros cfg D ws ps alpha seed omp_max team t HI Ht. destruct (use_num HI) as (P & NO & IP).
  destruct (use_build HI cfg P NO) as (t' & ord & TS & _ & T2). specialize (T2 _ Ht). injection T2 as ->.
  rewrite (ts_P _ _ _ _ _ _ _ _ TS) in *. pose proof (levels_eq _ cfg _ _ ps _ NO t' ord TS) as HLE.
  pose proof (gi_dim _ _ _ _ _ _ HI) as HD. pose proof (gi_len _ _ _ _ _ _ HI) as HL. pose proof (gi_n _ _ _ _ _ _ HI) as Hn.
  assert (Hlv : forall i j l, (l <= base_level D (p_c P) i j)%N -> (l < 31)%N /\ (D * l < 32)%N).
  { intros i j l Hl. assert (Hlev : (l < p_levels P)%N). { rewrite HLE. pose proof (base_le_00 D (p_c P) HD i j). lia. }
    destruct (level_bound D P HD (no_c _ _ _ _ NO) HLE l Hlev). lia. }
  split.
  - intros A B l i j Hex. pose proof (executed_ok HI cfg P NO t' ord TS alpha _ Hex) as Hok.
    pose proof Hok as (HA & HB & Hi & Hj & Hl). split; [auto|].
    destruct (near_ranges HI cfg P t' ord TS A B l i j Hok) as [E1 E2]. do 2 eexists. split; [exact E1|]. split; [exact E2|].
    destruct (Hlv i j l ltac:(lia)) as [Hl1 Hl2].
    intros a b Hab. destruct ((A =? B)%N && (i =? j)) eqn:Es.
    + apply andb_prop in Es as [->%N.eqb_eq ->%Nat.eqb_eq]. rewrite pairsI_same, uptri_map in Hab.
      apply in_map_iff in Hab as ([u v] & [= <- <-] & Huv). cbn [fst snd]. pose proof (uptri_In _ _ _ Huv) as [Hu Hv].
      apply (pair_asserts_ok D ws ps seed omp_max team HI cfg P NO t' ord TS); auto. intros <-.
      revert Huv. apply uptri_irrefl. eapply V_NoDup. exact TS.
    + rewrite pairsI_prod, prod_map in Hab. apply in_map_iff in Hab as ([u v] & [= <- <-] & Huv). cbn [fst snd].
      apply in_prod_iff in Huv as [Hu Hv]. apply (pair_asserts_ok D ws ps seed omp_max team HI cfg P NO t' ord TS); auto. intros <-.
      apply (V_In _ _ _ _ _ _ HL Hn _ _ TS) in Hu as (_ & Hu1 & Hu2), Hv as (_ & Hv1 & Hv2).
      apply andb_false_iff in Es as [Es|Es]; [apply N.eqb_neq in Es|apply Nat.eqb_neq in Es]; congruence.
  - intros A B l i j Hex. pose proof (executed_ok HI cfg P NO t' ord TS alpha _ Hex) as Hok.
    pose proof Hok as (HA & HB & Hi & Hj & Hl & Htc). split; [exact Hl|]. split; [exact Htc|].
    assert (Hne : A <> B).
    { eapply (call_II_ne _ _ _ _ _ _ HD NO HL Hn t' ord TS). exact Hok. }
    split; [destruct (N.eqb_spec A B); [contradiction|reflexivity]|].
    destruct (far_ranges HI cfg P t' ord TS A B l i j Hok) as [E1 E2].
    destruct (far_facts_ok HI cfg P NO IP t' ord TS A B l i j Hok) as (wub & dlb & F).
    do 2 eexists. exists wub, dlb. split; [exact E1|]. split; [exact E2|]. split; [apply F|]. split; [apply F|]. split; [apply F|].
    destruct (Hlv i j l Hl) as [Hl1 Hl2].
    intros a b Ia Ib. apply in_map_iff in Ia as (u & <- & Hu), Ib as (v & <- & Hv).
    destruct (ff_pair _ _ _ _ _ _ _ _ _ _ F u v Hu Hv) as [[W0 W1] D1]. split; [|split; assumption].
    apply (pair_asserts_ok D ws ps seed omp_max team HI cfg P NO t' ord TS); auto. intros <-.
    apply (V_In _ _ _ _ _ _ HL Hn _ _ TS) in Hu as (_ & Hu1 & Hu2), Hv as (_ & Hv1 & Hv2). congruence.
Qed.

(** ** Concrete instances: the hypotheses can be met, and the restrictions in them are needed *)
(** 16 nodes of weight 1 at k/16 in one dimension *)
Definition ex_ws : list R := repeat 1%R 16.
Definition ex_ps : list (list R) := map (fun k => [IZR (Z.of_nat k) / 16]%R) (seq 0 16).
Lemma ex_w w : In w ex_ws -> w = 1%R. Proof. apply repeat_spec. Qed.
Lemma ex_sum : sumR ex_ws = 16%R. Proof. unfold sumR, ex_ws. cbn. lra. Qed.
Lemma ex_weights : weights_ok ex_ws.
Proof.
  constructor.
  - discriminate.
  - intros w ->%ex_w. change 1%R with (b2 0). split; apply bpow_le; lia.
  - intros w ->%ex_w. rewrite ex_sum. change (b2 31) with (IZR 2147483648). lra.
Qed.
Example ex_input seed omp team : (1 <= N.of_nat omp <= 2 ^ 17)%N -> 1 <= team <= omp -> (seed < 0 \/ seed + Z.of_nat omp <= 2 ^ 31)%Z ->
  girg_input 1 ex_ws ex_ps seed omp team.
Proof.
  intros H1 H2 H3. constructor; auto; try lia.
  - apply ex_weights.
  - reflexivity.
  - apply Forall_forall. intros p Hp. apply in_map_iff in Hp as (k & <- & Hk). apply in_seq in Hk. split; [reflexivity|].
    constructor; [|constructor]. assert (0 <= IZR (Z.of_nat k) <= 15)%R by (split; apply IZR_le; lia). lra.
Qed.
(** two nodes in two dimensions *)
Example ex_input2 : girg_input 2 [1; 3]%R [[0; 1/2]; [3/4; 7/8]]%R 12 4 4.
Proof.
  constructor; try reflexivity; try lia.
  - constructor; [discriminate| |].
    + assert (b2 (-1100) <= 1)%R by (change 1%R with (b2 0); apply bpow_le; lia).
      assert (4 <= b2 1100)%R by (change 4%R with (b2 2); apply bpow_le; lia).
      intros w [<-|[<-|[]]]; lra.
    + change (b2 31) with (IZR 2147483648). unfold sumR. cbn. intros w [<-|[<-|[]]]; lra.
  - repeat constructor; lra.
Qed.
(** a random engine meeting [good_rng]: a counter whose draws vary with its state *)
Definition ex_rng : rng := {| G := Z; rseed := fun z => z;
  u01 := fun g => (IZR (g mod 4) / 4, (g + 1)%Z)%R; uni0 := fun p g => (p * (IZR (g mod 4) / 4), (g + 1)%Z)%R; geo := fun p g => (Z.to_N (g mod 4), (g + 1)%Z) |}.
Example ex_rng_good : good_rng ex_rng.
Proof.
  assert (H4 : forall g, (0 <= IZR (g mod 4) <= 3)%R).
  { intros g. pose proof (Z.mod_pos_bound g 4 ltac:(lia)). split; apply IZR_le; lia. }
  constructor; cbn [ex_rng u01 uni0 geo fst].
  - intros g. specialize (H4 g). lra.
  - intros p g Hp. specialize (H4 g). split; [nra|]. nra.
  - intros p g _. pose proof (Z.mod_pos_bound g 4 ltac:(lia)). change (2 ^ 63)%N with 9223372036854775808%N. lia.
Qed.

(** The parameters of the 16-node example: c = 4, one layer, three levels. *)
Lemma ex_params : exists wn, tree_params ideal_env 1 ex_ws = Some {| p_w0 := 1; p_wn := wn; p_W := 16; p_c := 4; p_layers := 1; p_levels := 3 |}.
Proof.
  destruct (ideal_num_ok 1 ex_ws ltac:(split; lia) ex_weights) as (P & NO & IP). pose proof (no_params _ _ _ _ NO) as E0.
  unfold tree_params in *. cbv beta in *.
  destruct (min_elem ex_ws) as [w0|] eqn:E1; [|discriminate]. destruct (max_elem ex_ws) as [wn|] eqn:E2; [|discriminate].
  cbn [obind] in *. cbv zeta in *.
  destruct (double_to_int _) as [c|] eqn:E3; [|discriminate]. cbn [obind] in *.
  destruct (double_to_u32 _) as [m|] eqn:E4; [|discriminate]. cbn [obind] in *.
  injection E0 as <-. pose proof (ip_min _ _ IP) as [H0 _]. pose proof (ip_W _ _ IP) as HW. cbn [p_w0 p_W] in *. apply ex_w in H0. subst w0.
  assert (wn = 1%R). { destruct (max_elem_spec ex_ws ltac:(discriminate)) as (wn' & En & In' & _). apply ex_w. congruence. }
  subst wn. rewrite HW, ex_sum in *. exists 1%R. cbn [flog2 rnd ideal_env] in *.
  replace (16 / 1 / 1)%R with (b2 4) in E3 by (change (b2 4) with 16%R; field). rewrite log2R_b2 in E3. unfold double_to_int in E3. rewrite Ztrunc_IZR in E3.
  cbn in E3. injection E3 as <-. replace (1 / 1)%R with (b2 0) in E4 by (change (b2 0) with 1%R; field). rewrite log2R_b2, Zfloor_IZR in E4.
  unfold double_to_u32 in E4. rewrite Ztrunc_IZR in E4. cbn in E4. injection E4 as <-. reflexivity.
Qed.

(** C14 as documented is false: the strict assertion of SpatialTree.inl:245 fails on a valid input (the bounds are equal) *)
Theorem C14_strict_assertion_refuted : forall cfg alpha, ndebug cfg = false ->
  girg_input 1 ex_ws ex_ps 0 1 1 /\
  exists t A B l i j ra rb wub dlb,
    tree_outcome ideal_env cfg 1 ex_ws ex_ps 1 (Some t) /\ executed cfg 1 (tP t) alpha 1 1 (CallII A B l i j) /\
    nodes_in 1 t i A l = Some ra /\ nodes_in 1 t j B l = Some rb /\ ra <> [] /\ rb <> [] /\
    w_upper_bound ideal_env (tP t) i j = Some wub /\ dist_lower_bound ideal_env cfg 1 A B l = Some dlb /\
    ~ (wub < dlb)%R.
Proof.
  intros cfg alpha Hdbg. assert (HI : girg_input 1 ex_ws ex_ps 0 1 1) by (apply ex_input; lia). split; [exact HI|].
  destruct (C19_cell_queries cfg _ _ _ _ _ _ HI) as [(ot & Hot) HQ]. destruct (HQ ot Hot) as (t & wmin & -> & W1 & W2 & _ & HQ2).
  apply ex_w in W1. subst wmin.
  destruct (use_num HI) as (P & NO & IP). destruct (use_build HI cfg P NO) as (t' & ord & TS & _ & T2). specialize (T2 _ Hot). injection T2 as <-.
  destruct ex_params as (wn & EP). assert (HP : tP t = {| p_w0 := 1; p_wn := wn; p_W := 16; p_c := 4; p_layers := 1; p_levels := 3 |}).
  { rewrite (ts_P _ _ _ _ _ _ _ _ TS). pose proof (no_params _ _ _ _ NO) as H. congruence. }
  assert (B3 : bounds ideal_env cfg 1 3 2 = Some [(0, 1 / 4)]%R /\ bounds ideal_env cfg 1 5 2 = Some [(1 / 2, 3 / 4)]%R).
  { unfold bounds. destruct cfg as [[] [] nd]; cbn [use_bmi2 gnuc]; (split; [change (extract _ _ _) with [0%N]|change (extract _ _ _) with [2%N]]);
      cbn [shl1_i32 obind]; cbn; do 3 f_equal; lra. }
  destruct B3 as [B3 B5]. rewrite HP in HQ2. cbn [p_layers p_c] in HQ2.
  destruct (HQ2 0 2%N 3%N ltac:(lia) ltac:(cbn; lia)) as (La & ba & NA & BA & _ & IA & _). { exists 3%N, 4%N. repeat split; lia. }
  destruct (HQ2 0 2%N 5%N ltac:(lia) ltac:(cbn; lia)) as (Lb & bb & NB & BB & _ & IB & _). { exists 3%N, 4%N. repeat split; lia. }
  rewrite B3 in BA. injection BA as <-. rewrite B5 in BB. injection BB as <-.
  assert (D5 : dist_lower_bound ideal_env cfg 1 3 5 2 = Some (1 / 4)%R).
  { unfold dist_lower_bound, cell_dist. destruct cfg as [[] [] nd]; cbn [use_bmi2 gnuc];
      change (extract _ 1 (cellOfLevel _ 1 3)) with [0%N]; change (extract _ 1 (cellOfLevel _ 1 5)) with [2%N]; cbn; f_equal; unfold Rmax; destruct (Rle_dec _ _); change (Pos.to_nat 1) with 1; cbn match; lra. }
  exists t, 3%N, 5%N, 2%N, 0, 0, La, Lb, (1 / 4)%R, (1 / 4)%R.
  split; [exact Hot|]. split.
  { rewrite HP. unfold executed, thread_calls. cbn [Nat.eqb].
    assert (EV : exists cs, visit cfg 1 {| p_w0 := 1; p_wn := wn; p_W := 16; p_c := 4; p_layers := 1; p_levels := 3 |} alpha 3 0 0 0 = Some cs /\ In (CallII 3 5 2 0 0) cs).
    { destruct cfg as [b1 b2 nd]. cbn [ndebug] in Hdbg. subst nd.
      destruct b1, b2; (eexists; split; [lazy; reflexivity|]); repeat (try (left; reflexivity); right). }
    destruct EV as (cs & EV & Hin). cbn [p_levels]. change (N.to_nat 3) with 3. rewrite EV. cbn [obind]. exists [cs]. split; [reflexivity|]. cbn. now rewrite app_nil_r. }
  split; [exact NA|]. split; [exact NB|].
  split. { intros ->. destruct (IA 0) as [_ H]. cbn in H. apply H. repeat split; try lia; try lra. constructor; [cbn; lra|constructor]. }
  split. { intros ->. destruct (IB 8) as [_ H]. cbn in H. apply H. repeat split; try lia; try lra. constructor; [cbn; lra|constructor]. }
  split; [|split; [exact D5|lra]].
  rewrite HP. unfold w_upper_bound. cbn. f_equal. lra.
Qed.

(** C13: the restrictions are needed *)
(** two nodes of weight 2^-32: W/w_min^2 = 2^33, and 1u << 32 is evaluated *)
Theorem C13_small_weights_refuted : forall cfg rg alpha seed omp_max team p1 p2,
  girg_outcome ideal_env cfg rg [b2 (-32); b2 (-32)] [[p1]; [p2]] alpha seed omp_max team None.
Proof.
  intros. unfold girg_outcome. cbn [length N.of_nat]. change (N.of_nat 1) with 1%N. cbn [N.leb N.compare Pos.compare Pos.compare_cont andb].
  exists None. split; [|reflexivity]. unfold tree_outcome, tree_params, min_elem, max_elem, sum_elems. cbn [fold_left obind rnd flog2 ideal_env].
  rewrite Rmin_left, Rmax_left by lra. rewrite Rplus_0_l.
  replace (b2 (-32) + b2 (-32))%R with (b2 (-31)).
  2:{ replace (b2 (-31)) with (b2 (-32) * b2 1)%R by (rewrite <- bpow_plus; reflexivity). change (b2 1) with 2%R. lra. }
  replace (b2 (-31) / b2 (-32) / b2 (-32))%R with (b2 33).
  2:{ unfold Rdiv. rewrite <- !bpow_opp, <- !bpow_plus. reflexivity. }
  rewrite log2R_b2. replace (b2 (-32) / b2 (-32))%R with (b2 0) by (unfold Rdiv; rewrite <- bpow_opp, <- bpow_plus; reflexivity). rewrite log2R_b2.
  unfold double_to_int, double_to_u32. rewrite Zfloor_IZR, !Ztrunc_IZR. cbn. reflexivity.
Qed.
(** seed 2^31-1 with two threads: seed + 1 overflows int *)
Theorem C13_seed_overflow_refuted : forall cfg rg alpha team, 1 <= team <= 2 ->
  girg_outcome ideal_env cfg rg ex_ws ex_ps alpha (2 ^ 31 - 1) 2 team None.
Proof.
  intros cfg rg alpha team Ht. assert (HI : girg_input 1 ex_ws ex_ps 0 2 team) by (apply ex_input; lia).
  destruct (use_num HI) as (P & NO & IP). destruct (use_build HI cfg P NO) as (t & ord & TS & T1 & _).
  change (exists ot, tree_outcome ideal_env cfg 1 ex_ws ex_ps 2 ot /\ match ot with None => (None : option (list (nat * nat))) = None | Some t =>
    exists ors, edges_outcome ideal_env cfg 1 t alpha rg (2 ^ 31 - 1) 2 team ors /\
      match ors with None => (None : option (list (nat * nat))) = None | Some rs => collect (2 ^ 20) 2 (map edges_of rs) None end end).
  exists (Some t). split; [exact T1|]. exists None. split; [|reflexivity]. unfold edges_outcome. change (seeds_defined (2 ^ 31 - 1) 2) with false. reflexivity.
Qed.
(** no nodes: positions.front() of an empty vector *)
Theorem C13_empty_input_refuted : forall E cfg rg ws alpha seed omp_max team o,
  girg_outcome E cfg rg ws [] alpha seed omp_max team o <-> o = None.
Proof. intros. unfold girg_outcome. tauto. Qed.

(** an edge of the threshold graph of the example exists and a non-edge exists (the statements are not vacuous) *)
Example ex_edges : threshold_edge 1 [1; 1]%R [[0]; [1/4]]%R 0 1 /\ ~ threshold_edge 1 [1/4; 1/4]%R [[0]; [1/2]]%R 0 1.
Proof.
  assert (T : forall x y, (0 <= x <= 1)%R -> (0 <= y <= 1)%R -> is_torus_dist [x] [y] (coord_distance ideal_env 0 [x] [y])).
  { intros x y Hx Hy. apply distance_is_torus_dist; [| |reflexivity]; constructor; auto. }
  assert (C : forall x, (0 <= x <= 1/2)%R -> coord_distance ideal_env 0 [0%R] [x] = x).
  { intros x Hx. cbn. unfold axis_distance. cbn. unfold Rabs, Rmin, Rmax. destruct (Rcase_abs _); repeat destruct (Rle_dec _ _); lra. }
  unfold threshold_edge, sumR. change (N.to_nat 1) with 1. cbn. split.
  - exists (1/4)%R. split; [rewrite <- (C (1/4)%R) at 2 by lra; apply T; lra|lra].
  - intros (d & Td & H). rewrite (torus_dist_unique _ _ _ _ Td (T 0%R (1/2)%R ltac:(lra) ltac:(lra))), C in H by lra. lra.
Qed.

Print Assumptions C01_threshold_graph_is_exact.
Print Assumptions C02_simple_graph.
Print Assumptions C03_endpoints_are_node_indices.
Print Assumptions C03_tree_holds_the_callers_nodes.
Print Assumptions C04_every_pair_decided_once.
Print Assumptions C05_threshold_graph_is_deterministic.
Print Assumptions C06_alpha_zero_is_complete.
Print Assumptions C07_envelope.
Print Assumptions C09_reproducible.
Print Assumptions C10_work_split.
Print Assumptions C11_collection.
Print Assumptions C12_unsupported_dimension.
Print Assumptions C13_no_undefined_behaviour.
Print Assumptions C13_small_weights_refuted.
Print Assumptions C13_seed_overflow_refuted.
Print Assumptions C14_debug_assertions.
Print Assumptions C14_strict_assertion_refuted.
Print Assumptions C19_cell_queries.
