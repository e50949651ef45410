(** Property C71: the threshold graph is contained in the graphs with finite alpha. *)
From Coq Require Import Arith NArith ZArith List Bool Reals Permutation Lia Lra.
From Flocq Require Import Core.
From Verif Require Import Base Sched Bits_Proofs Coord_Model Coord_Proofs Coord_Geo Coord_Torus Tree_Model Tree_Proofs Tree_Build Tree_Plan Tree_Run Girg_Model Girg_Proofs
  Girg_Num Prop_Girg Ieee Prop_Ieee.
Import ListNotations.
Local Open Scope R_scope.

(** ** Specification *)
(** pow of a number >= 1 with a non-negative exponent is at least 1 *)
Definition pow_at_least_one (pw : R -> R -> R) : Prop := forall x a, 1 <= x -> 0 <= a -> 1 <= pw x a.

(** ** Proofs *)
Lemma coord_distance_ge E : forall xs ys r, r <= coord_distance E r xs ys.
Proof. induction xs as [|x xs IH]; intros [|y ys] r; cbn [coord_distance]; try lra. eapply Rle_trans; [apply Rmax_l|apply IH]. Qed.
Lemma rnd_nonneg E x : good_rnd E -> 0 <= x -> 0 <= rnd E x.
Proof. intros GR H. rewrite <- (rnd_0 E GR). now apply (gr_mono E GR). Qed.
Lemma pow_helper_nonneg E x : good_rnd E -> 0 <= x -> forall f n, 0 <= pow_helper f E n x.
Proof.
  intros GR Hx. induction f as [|f IH]; intros n; cbn [pow_helper]; [lra|]. repeat match goal with |- context [if ?b then _ else _] => destruct b | |- context [match ?k with _ => _ end] => destruct k end;
    try lra; try assumption; try apply rnd_nonneg; auto; repeat apply Rmult_le_pos; auto using rnd_nonneg, Rmult_le_pos.
Qed.
Lemma rnd_ge_1 E x : good_rnd E -> 1 <= x -> 1 <= rnd E x.
Proof.
  intros GR H. pose proof (gr_dyadic E GR 1 0 ltac:(lia) ltac:(lia)) as O. unfold pow2R in O. cbn in O. replace (1 / 1) with 1 in O by field. rewrite <- O. now apply (gr_mono E GR).
Qed.
Section Sure.
  Variables (E : fenv) (cfg : config) (D : N) (ws : list R) (ps : list (list R)) (P : tparams).
  Hypotheses (GR : good_rnd E) (HD : dim_ok D) (NO : num_ok E D ws P) (HL : length ws = length ps)
             (VP : List.Forall (valid_pos E D) ps) (Hn : (N.of_nat (length ws) < 2 ^ 31)%N) (FO : far_ok E ws P).
  Variables (t : tree) (ord : list nat) (TS : tree_spec E cfg D ws ps P t ord).
  Variables (a : R) (rg : rng) (GG : good_rng rg) (PW : pow_at_least_one (fpow E)) (Ha : 0 <= a).
  Notation hit := (hitw E cfg D ws ps P).
  Notation cpairs := (call_pairs E cfg D ws ps P ord).

  Lemma sure_prob x y r : d_term E D x y < w_term E (p_W P) x y -> 0 <= r < 1 -> xlt r (conn_prob E D (p_W P) (AFin a) x y) = true.
  Proof.
    intros H Hr. assert (D0 : 0 <= d_term E D x y). { unfold d_term, pow_to_the. apply pow_helper_nonneg; [exact GR|]. unfold node_distance. apply coord_distance_ge. }
    unfold conn_prob, xdiv. destruct (Req_EM_T (d_term E D x y) 0) as [Z|Z]; cbn [xpow].
    - destruct (Rlt_dec 0 a); [reflexivity|]. destruct (Rlt_dec a 0); [lra|]. cbn [xlt]. apply Rltb_true. lra.
    - cbn [xlt]. apply Rltb_true. apply Rlt_le_trans with 1; [lra|]. apply PW; [|exact Ha]. apply rnd_ge_1; [exact GR|].
      apply Rmult_le_reg_r with (d_term E D x y); [lra|]. unfold Rdiv. rewrite Rmult_assoc, Rinv_l by exact Z. lra.
  Qed.
  Lemma decide_sure : forall l g x y, In (x, y) l -> d_term E D x y < w_term E (p_W P) x y ->
    In (index x, index y) (flat_map event_edges (fst (decideI E D (p_W P) (AFin a) rg l g))).
  Proof.
    induction l as [|[x' y'] l IH]; intros g x y Hin H; [destruct Hin|]. cbn [decideI]. destruct (u01 rg g) as [r g'] eqn:Eu.
    destruct (decideI E D (p_W P) (AFin a) rg l g') as [es g2] eqn:Ed. cbn [fst flat_map event_edges]. apply in_or_app.
    destruct Hin as [Q|Hin].
    - injection Q as -> ->. left. pose proof (gu01 rg GG g) as Hr. rewrite Eu in Hr. cbn [fst] in Hr. rewrite (sure_prob _ _ _ H Hr). now left.
    - right. specialize (IH g' x y Hin H). now rewrite Ed in IH.
  Qed.
  Lemma call_sure x g r u v : call_ok cfg D P x -> run_call E cfg D t (AFin a) rg x g = Some r -> In (u, v) (cpairs x) -> hit u v = true -> In (u, v) (edges_of r).
  Proof.
    intros Hok Hr Huv Hh. destruct x as [A B l i j|A B l i j].
    - destruct Hok as (HA & HB & Hi & Hj & ->). cbn [run_call] in Hr. unfold sampleTypeI in Hr.
      rewrite (nodes_in_eq E cfg D ws ps P t ord TS) in Hr; auto; [|apply base_le_target; exact HD]. cbn [obind] in Hr.
      rewrite (nodes_in_eq E cfg D ws ps P t ord TS) in Hr; auto; [|rewrite base_sym; apply base_le_target; exact HD]. cbn [obind] in Hr.
      set (l := base_level D (p_c P) i j) in *. set (va := V E cfg D ws ps P ord i A l) in *. set (vb := V E cfg D ws ps P ord j B l) in *.
      set (same := ((A =? B)%N && (i =? j)%nat)%bool) in *. set (mk := mk E cfg D ws ps P) in *.
      assert (Hs : same = true -> va = vb). { unfold same. intros H. apply andb_prop in H as [H1%N.eqb_eq H2%Nat.eqb_eq]. unfold va, vb. now subst. }
      assert (Hp : In (mk u, mk v) (pairsI same 0 (map mk va) (map mk vb))).
      { assert (Q : In (u, v) (if same then uptri va else list_prod va vb)) by exact Huv. apply (in_map (fun ab => (mk (fst ab), mk (snd ab)))) in Q. cbn [fst snd] in Q. destruct same.
        - rewrite <- (Hs eq_refl), pairsI_same, uptri_map. exact Q.
        - rewrite pairsI_prod, prod_map. exact Q. }
      assert (Hne : exists a0 ra b0 rb, map mk va = a0 :: ra /\ map mk vb = b0 :: rb).
      { destruct (map mk va) as [|a0 ra] eqn:E1; [destruct same; destruct Hp|]. destruct (map mk vb) as [|b0 rb] eqn:E2; [|repeat eexists].
        exfalso. destruct same; [rewrite (Hs eq_refl), E2 in E1; discriminate|]. rewrite pairsI_prod, prod_nil_r in Hp. destruct Hp. }
      destruct Hne as (a0 & ra & b0 & rb & Ea & Eb). rewrite Ea, Eb in Hr. rewrite <- Ea, <- Eb in Hr. rewrite (ts_P _ _ _ _ _ _ _ _ TS) in Hr.
      pose proof (decide_sure _ g _ _ Hp (proj1 (Rltb_true _ _) Hh)) as Q. destruct (decideI _ _ _ _ _ _ _) as [es g'] in Hr, Q. injection Hr as <-. exact Q.
    - exfalso. cbn [call_pairs] in Huv. apply in_prod_iff in Huv as [H1 H2].
      rewrite (far_bound E cfg D ws ps P GR HD NO HL VP Hn t ord TS FO A B l i j u v Hok H1 H2) in Hh. discriminate.
  Qed.
  Lemma calls_sure : forall xs g r u v, (forall x, In x xs -> call_ok cfg D P x) -> run_calls E cfg D t (AFin a) rg xs g = Some r -> In (u, v) (flat_map cpairs xs) -> hit u v = true -> In (u, v) (edges_of r).
  Proof.
    induction xs as [|x xs IH]; intros g r u v Hok Hr Huv Hh; [destruct Huv|]. cbn [run_calls] in Hr. destruct (run_call E cfg D t (AFin a) rg x g) as [r1|] eqn:E1; [|discriminate]. cbn [obind] in Hr.
    destruct (run_calls E cfg D t (AFin a) rg xs (gen r1)) as [r2|] eqn:E2; [|discriminate]. cbn [obind] in Hr. injection Hr as <-. unfold edges_of. cbn [evs]. rewrite flat_map_app. apply in_or_app.
    cbn [flat_map] in Huv. apply in_app_or in Huv as [H|H]; [left|right].
    - exact (call_sure x g r1 u v (Hok x (or_introl eq_refl)) E1 H Hh).
    - exact (IH _ r2 u v (fun y Hy => Hok y (or_intror Hy)) E2 H Hh).
  Qed.
  Lemma threads_sure : forall calls gens rs u v, (forall x, In x (concat calls) -> call_ok cfg D P x) -> run_threads E cfg D t (AFin a) rg calls gens = Some rs ->
    In (u, v) (flat_map cpairs (concat calls)) -> hit u v = true -> In (u, v) (flat_map edges_of rs).
  Proof.
    intros calls gens rs u v Hok Hr Huv Hh. unfold run_threads in Hr. destruct (Nat.ltb_spec (length gens) (length calls)) as [L|L]; [discriminate|].
    revert gens rs Hr Hok Huv L. induction calls as [|xs calls IH]; intros gens rs Hr Hok Huv L; [destruct Huv|]. destruct gens as [|g gens]; [cbn in L; lia|]. cbn [combine omap fst snd] in Hr.
    destruct (run_calls E cfg D t (AFin a) rg xs g) as [r|] eqn:E1; [|discriminate]. cbn [obind] in Hr. destruct (omap _ (combine calls gens)) as [rs'|] eqn:E2; [|discriminate]. cbn [obind] in Hr. injection Hr as <-.
    cbn [concat] in Huv, Hok. rewrite flat_map_app in Huv. cbn [flat_map]. apply in_or_app. apply in_app_or in Huv as [H|H]; [left|right].
    - refine (calls_sure xs g r u v _ E1 H Hh). intros x Hx. apply Hok, in_or_app. now left.
    - refine (IH gens rs' E2 _ H _); [intros x Hx; apply Hok, in_or_app; now right|cbn in L; lia].
  Qed.
  Lemma edges_sure seed omp_max team rs : fpl_ok D E omp_max -> (1 <= team <= omp_max)%nat -> edges_outcome E cfg D t (AFin a) rg seed omp_max team (Some rs) ->
    forall u v, (u < length ws)%nat -> (v < length ws)%nat -> u <> v -> hit u v = true -> In (u, v) (flat_map edges_of rs) \/ In (v, u) (flat_map edges_of rs).
  Proof.
    intros Hfpl Ht HE u v Hu Hv Hne Hh. unfold edges_outcome in HE. destruct (seeds_defined seed omp_max); [|discriminate]. destruct HE as (gens & _ & HE).
    rewrite (ts_P _ _ _ _ _ _ _ _ TS) in HE. pose proof (levels_eq E cfg D ws ps P NO t ord TS) as HLE.
    destruct (thread_calls_ok cfg D P (AFin a) HD (no_c _ _ _ _ NO) HLE E omp_max team Hfpl Ht) as (calls & Ec & Lc & HP). rewrite Ec in HE. cbn [obind] in HE. symmetry in HE.
    assert (FP : full_plan cfg D P (AFin a) = plan cfg D P (N.to_nat (p_levels P - 1)) 0%N 0%N 0%N). { unfold full_plan. apply filter_true. intros x _. unfold keep. cbn [is_inf]. rewrite andb_false_r. apply orb_true_r. }
    rewrite FP in HP.
    assert (Hok : forall x, In x (concat calls) -> call_ok cfg D P x). { intros x Hx. apply (Permutation_in _ HP) in Hx. revert Hx. apply (plan0_ok E cfg D ws ps P HD NO HL Hn t ord TS). }
    pose proof (plan0_pairs E cfg D ws ps P HD NO HL VP Hn t ord TS u v Hu Hv Hne) as C. unfold cnt2 in C.
    assert (Hin : forall p, In p (flat_map cpairs (plan cfg D P (N.to_nat (p_levels P - 1)) 0%N 0%N 0%N)) -> In p (flat_map cpairs (concat calls))).
    { intros p Hp. apply in_flat_map in Hp as (x & Hx & Hp). apply in_flat_map. exists x. split; [|exact Hp]. exact (Permutation_in _ (Permutation_sym HP) Hx). }
    destruct (in_dec pair_dec (u, v) (flat_map cpairs (plan cfg D P (N.to_nat (p_levels P - 1)) 0%N 0%N 0%N))) as [H|H].
    - left. exact (threads_sure calls gens rs u v Hok HE (Hin _ H) Hh).
    - apply (count_occ_not_In pair_dec) in H. assert (H2 : In (v, u) (flat_map cpairs (plan cfg D P (N.to_nat (p_levels P - 1)) 0%N 0%N 0%N))) by (apply (count_occ_In pair_dec); lia).
      right. apply (threads_sure calls gens rs v u Hok HE (Hin _ H2)). now rewrite (hitw_sym E cfg D ws ps P GR).
  Qed.
End Sure.

Lemma Rpower_at_least_one : pow_at_least_one Rpower.
Proof.
  intros x a Hx Ha. unfold Rpower. rewrite <- exp_0. assert (L : 0 <= ln x). { destruct Hx as [Hx|<-]; [|rewrite ln_1; lra]. left. rewrite <- ln_1. apply ln_increasing; lra. }
  assert (0 <= a * ln x) by (now apply Rmult_le_pos). destruct H as [H|<-]; [left; now apply exp_increasing|right; reflexivity].
Qed.
(** Exact arithmetic: whatever the random numbers, for every finite alpha >= 0 the graph contains all pairs that satisfy the threshold rule. *)
Theorem C71_threshold_edges_are_certain : forall cfg rg D ws ps a seed omp_max team,
  girg_input D ws ps seed omp_max team -> good_rng rg -> 0 <= a ->
  forall o, girg_outcome ideal_env cfg rg ws ps (AFin a) seed omp_max team o ->
    exists edges, o = Some edges /\
    forall u v, (u < length ws)%nat -> (v < length ws)%nat -> u <> v -> threshold_edge D ws ps u v -> In (u, v) edges \/ In (v, u) edges.
Proof.
  intros cfg rg D ws ps a seed omp_max team HI GG Ha. destruct (use_num HI) as (P & NO & IP).
  destruct (use_main HI cfg rg (AFin a) P NO GG) as [_ (t & ord & TS & H2)].
  intros o Ho. destruct (H2 o Ho) as (rs & edges & HE & -> & SA & IL). exists edges. split; [reflexivity|]. intros u v Hu Hv Hne T.
  rewrite !(edges_In rs edges _ IL).
  apply (edges_sure ideal_env cfg D ws ps P ideal_good (gi_dim _ _ _ _ _ _ HI) NO (gi_len _ _ _ _ _ _ HI) (use_vp HI) (gi_n _ _ _ _ _ _ HI) (ip_far _ _ IP) t ord TS a rg GG Rpower_at_least_one Ha seed omp_max team rs (use_fpl HI) (gi_team _ _ _ _ _ _ HI) HE u v Hu Hv Hne).
  apply (hit_iff cfg D ws ps P u v IP (use_vp HI)); try (rewrite <- (gi_len _ _ _ _ _ _ HI); assumption). exact T.
Qed.
(** so the graph with alpha = infinity is a subgraph of every graph with a finite alpha on the same weights and positions, whatever the seeds, threads and schedules *)
Theorem C71_threshold_graph_is_subgraph : forall cfg cfg' rg rg' D ws ps a seed omp_max team seed' omp_max' team',
  girg_input D ws ps seed omp_max team -> girg_input D ws ps seed' omp_max' team' -> good_rng rg -> good_rng rg' -> 0 <= a ->
  forall o o', girg_outcome ideal_env cfg rg ws ps AInf seed omp_max team o -> girg_outcome ideal_env cfg' rg' ws ps (AFin a) seed' omp_max' team' o' ->
    exists edges edges', o = Some edges /\ o' = Some edges' /\ forall u v, In (u, v) edges -> In (u, v) edges' \/ In (v, u) edges'.
Proof.
  intros cfg cfg' rg rg' D ws ps a seed omp_max team seed' omp_max' team' HI HI' GG GG' Ha o o' Ho Ho'.
  destruct (C01_threshold_graph_is_exact cfg rg D ws ps seed omp_max team HI GG) as [_ T1]. destruct (T1 o Ho) as (edges & -> & X1).
  destruct (C71_threshold_edges_are_certain cfg' rg' D ws ps a seed' omp_max' team' HI' GG' Ha o' Ho') as (edges' & -> & X2).
  exists edges, edges'. repeat split. intros u v H.
  destruct (C03_endpoints_are_node_indices cfg rg D ws ps AInf seed omp_max team HI GG _ Ho) as (e1 & Q1 & R1). injection Q1 as <-. destruct (R1 u v H) as [Hu Hv].
  destruct (C02_simple_graph cfg rg D ws ps AInf seed omp_max team HI GG _ Ho) as (e2 & Q2 & _ & NL & _). injection Q2 as <-.
  assert (Hne : u <> v) by (intros <-; exact (NL u H)). apply X2; auto. apply X1; auto.
Qed.
(** the same in IEEE doubles, with the rounded rule of C57 *)
Theorem C71_threshold_edges_are_certain_in_doubles : forall f pw cfg rg D ws ps a seed omp_max team,
  good_log2 f -> pow_at_least_one pw -> good_rng rg -> ieee_input f D ws ps seed omp_max team -> 0 <= a ->
  forall o, girg_outcome (double_env f pw) cfg rg ws ps (AFin a) seed omp_max team o ->
    exists edges, o = Some edges /\
    forall u v, (u < length ws)%nat -> (v < length ws)%nat -> u <> v -> float_edge D ws ps u v -> In (u, v) edges \/ In (v, u) edges.
Proof.
  intros f pw cfg rg D ws ps a seed omp_max team GL HP GG HI Ha.
  destruct (double_num_ok f pw D ws GL (ii_dim _ _ _ _ _ _ _ HI) (ii_weights f pw _ _ _ _ _ _ HI)) as (P & NO & FO & EW).
  assert (SD : seeds_defined seed omp_max = true).
  { unfold seeds_defined. apply orb_true_iff. destruct (ii_seed _ _ _ _ _ _ _ HI); [left; now apply Z.ltb_lt|right; apply Z.ltb_lt; lia]. }
  pose proof (omp_nat _ (ii_omp _ _ _ _ _ _ _ HI)) as [O1 O2]. pose proof (double_fpl_ok f pw D omp_max GL (ii_dim _ _ _ _ _ _ _ HI) O2) as FP.
  destruct (girg_ok (double_env f pw) cfg D ws ps P (double_good f pw) (ii_dim _ _ _ _ _ _ _ HI) NO (ii_len _ _ _ _ _ _ _ HI) (ii_vp f pw _ _ _ _ _ _ HI) (ii_n _ _ _ _ _ _ _ HI)
    (AFin a) rg seed omp_max team GG O1 FP (ii_team _ _ _ _ _ _ _ HI) SD) as [H1 (t & ord & TS & H2)].
  intros o Ho. destruct (H2 o Ho) as (rs & edges & HE & -> & SA & IL). exists edges. split; [reflexivity|]. intros u v Hu Hv Hne T.
  rewrite !(edges_In rs edges _ IL).
  apply (edges_sure (double_env f pw) cfg D ws ps P (double_good f pw) (ii_dim _ _ _ _ _ _ _ HI) NO (ii_len _ _ _ _ _ _ _ HI) (ii_vp f pw _ _ _ _ _ _ HI) (ii_n _ _ _ _ _ _ _ HI) FO t ord TS a rg GG HP Ha seed omp_max team rs FP (ii_team _ _ _ _ _ _ _ HI) HE u v Hu Hv Hne).
  now apply (float_hit HI pw cfg P u v EW Hu Hv).
Qed.

(** ** The hypotheses can be met *)
(** two nodes whose pair satisfies the threshold rule: the edge is in every graph *)
Example C71_example : forall cfg seed omp team a, girg_input 1 [1; 1]%R [[0]; [1/4]]%R seed omp team -> 0 <= a ->
  forall o, girg_outcome ideal_env cfg ex_rng [1; 1]%R [[0]; [1/4]]%R (AFin a) seed omp team o -> exists edges, o = Some edges /\ (In (0, 1)%nat edges \/ In (1, 0)%nat edges).
Proof.
  intros cfg seed omp team a HI Ha o Ho. destruct (C71_threshold_edges_are_certain cfg ex_rng 1 _ _ a seed omp team HI ex_rng_good Ha o Ho) as (edges & E & H). exists edges. split; [exact E|].
  apply H; cbn; try lia. apply ex_edges.
Qed.
Example C71_example_input : girg_input 1 [1; 1]%R [[0]; [1/4]]%R 12 4 4.
Proof.
  constructor; try reflexivity; try lia.
  - constructor; [discriminate| |].
    + assert (b2 (-1100) <= 1)%R by (change 1%R with (b2 0); apply bpow_le; lia).
      assert (4 <= b2 1100)%R by (change 4%R with (b2 2); apply bpow_le; lia).
      intros w [<-|[<-|[]]]; lra.
    + change (b2 31) with (IZR 2147483648). unfold sumR. cbn. intros w [<-|[<-|[]]]; lra.
  - repeat constructor; lra.
Qed.
(** a correctly rounded pow meets the hypothesis of the theorem in doubles *)
Example rounded_pow_at_least_one : pow_at_least_one (fun x a => RN (Rpower x a)).
Proof. intros x a Hx Ha. apply (rnd_ge_1 (double_env (fun x => x) (fun x _ => x)) (Rpower x a) (double_good _ _)). now apply Rpower_at_least_one. Qed.

Print Assumptions C71_threshold_edges_are_certain.
Print Assumptions C71_threshold_graph_is_subgraph.
Print Assumptions C71_threshold_edges_are_certain_in_doubles.
