(** Property C72: the way the library is built (bit manipulation instructions, compiler, assertions on or off) does not influence the result. *)
From Coq Require Import Arith NArith ZArith List Bool Reals Permutation Lia Lra.
From Flocq Require Import Core.
From Verif Require Import Base Sched Bits_Model Bits_Proofs Coord_Model Coord_Proofs Coord_Geo Coord_Torus Tree_Model Tree_Proofs Tree_Build Tree_Plan Tree_Run Girg_Model Girg_Proofs
  Girg_Num Prop_Girg Ieee Prop_Ieee.
Import ListNotations.
Local Open Scope N_scope.

Lemma omap_ext_in {A B} (f g : A -> option B) L : (forall x, In x L -> f x = g x) -> omap f L = omap g L.
Proof. induction L as [|a L IH]; intros H; [reflexivity|]. cbn [omap]. rewrite (H a (or_introl eq_refl)), (IH (fun x Hx => H x (or_intror Hx))). reflexivity. Qed.
Lemma omap_post {A B C} (h : B -> C) (f : A -> option C) (g : A -> option B) L : (forall x, In x L -> f x = (do y <- g x; Some (h y))) ->
  omap f L = (do ys <- omap g L; Some (map h ys)).
Proof.
  induction L as [|a L IH]; intros H; [reflexivity|]. cbn [omap]. rewrite (H a (or_introl eq_refl)), (IH (fun x Hx => H x (or_intror Hx))).
  destruct (g a); cbn [obind]; [|reflexivity]. destruct (omap g L); reflexivity.
Qed.

(** ** Bit manipulation: equal values on valid arguments *)
Section Bits.
  Variables (E : fenv) (cfg cfg' : config) (D : N).
  Hypotheses (GR : good_rnd E) (HD : dim_ok D).
  Lemma cellR_cfg l p : valid_pos E D p -> D * l <= 31 -> cellR cfg D l p = cellR cfg' D l p.
  Proof.
    intros V H. pose proof (fits_coordsR E D l p HD V ltac:(lia)) as F. pose proof (cellR_bound cfg E D l p HD V ltac:(lia)) as B. unfold cellR in *.
    assert (F' : deposit (use_bmi2 cfg) D (coordsR l p) < 2 ^ (D * (32 / D))).
    { eapply N.lt_le_trans; [exact B|]. apply N.pow_le_mono_r; [lia|]. apply N.mul_le_mono_l. apply N.div_le_lower_bound; [unfold dim_ok in HD; lia|lia]. }
    rewrite <- (deposit_extract (use_bmi2 cfg') (use_bmi2 cfg') D _ HD F'). now rewrite extract_deposit.
  Qed.
  Lemma ccoords_cfg l X : l < 31 -> D * l <= 31 -> in_level D l X -> ccoords cfg D l X = ccoords cfg' D l X.
  Proof. intros Hl H HX. unfold ccoords. assert (X - fc D l < 2 ^ 32) by (eapply local_bound32; eauto). now rewrite !extract_eq_spec. Qed.
  Lemma touching_cfg A B l : l < 31 -> D * l <= 31 -> in_level D l A -> in_level D l B -> touching cfg D A B l = touching cfg' D A B l.
  Proof. intros Hl H HA HB. rewrite !touching_eq by assumption. now rewrite !(ccoords_cfg l) by assumption. Qed.
  Lemma cell_dist_cfg A B l : l < 31 -> D * l <= 31 -> in_level D l A -> in_level D l B -> cell_dist E cfg D A B l = cell_dist E cfg' D A B l.
  Proof. intros Hl H HA HB. rewrite !cell_dist_eq by assumption. now rewrite !(ccoords_cfg l) by assumption. Qed.
End Bits.

Section Flavour.
  Variables (E : fenv) (D : N) (ws : list R) (ps : list (list R)) (P : tparams).
  Hypotheses (GR : good_rnd E) (HD : dim_ok D) (NO : num_ok E D ws P) (HL : length ws = length ps)
             (VP : List.Forall (valid_pos E D) ps) (Hn : N.of_nat (length ws) < 2 ^ 31) (FO : far_ok E ws P).
  Notation c := (p_c P).
  Lemma lev : p_levels P = base_level D c 0 0 + 1.
  Proof.
    pose proof (no_params _ _ _ _ NO) as H. unfold tree_params in H.
    destruct (min_elem ws); [|discriminate]. cbn [obind] in H. destruct (max_elem ws); [|discriminate]. cbn [obind] in H.
    destruct (double_to_int _); [|discriminate]. cbn [obind] in H. destruct (double_to_u32 _); [|discriminate]. cbn [obind] in H.
    injection H as <-. reflexivity.
  Qed.
  Lemma lev_bound l : l < p_levels P -> D * l <= 28 /\ l <= 28.
  Proof. apply (level_bound D P HD (no_c _ _ _ _ NO) lev). Qed.

  (** *** The tree *)
  Lemma classify_cfg cfg cfg' fcl : classify_all E cfg D P fcl ws ps = classify_all E cfg' D P fcl ws ps.
  Proof.
    unfold classify_all. destruct (length ps <? length ws)%nat; [reflexivity|]. apply omap_ext_in. intros (i & w & p) Hin. unfold classify.
    destruct (layer_index _ _ _) as [layer|]; [|reflexivity]. cbn [obind]. destruct (nth_error fcl layer) as [first|]; [|reflexivity]. cbn [obind].
    destruct (length p <? N.to_nat D)%nat eqn:Lp; [reflexivity|]. apply in_combine_r in Hin. apply in_combine_r in Hin. rewrite List.Forall_forall in VP. pose proof (VP p Hin) as V.
    rewrite firstn_all2 by (destruct V; lia). assert (T1 : D * tl D c layer <= 29) by (eapply tlb; eauto). assert (T2 : tl D c layer < 30) by (eapply tl_lt; eauto). unfold tl in T1, T2.
    rewrite !(cellForPoint_eq E _ D p _ GR V) by lia. now rewrite (cellR_cfg E cfg cfg' D HD) by (auto; lia).
  Qed.
  Lemma tree_cfg cfg cfg' omp_max o : tree_outcome E cfg D ws ps omp_max o <-> tree_outcome E cfg' D ws ps omp_max o.
  Proof.
    unfold tree_outcome. rewrite (no_params _ _ _ _ NO). cbn [obind]. destruct (first_cells _ _ _ _ _) as [fcl|]; [|reflexivity]. cbn [obind].
    destruct (nth_error fcl _) as [M|]; [|reflexivity]. cbn [obind]. rewrite (classify_cfg cfg cfg'). reflexivity.
  Qed.

  (** *** Same assertions, other instructions: the same calls with the same results *)
  Section Same.
    Variables (cfg cfg' : config) (alpha : alphaT) (ND : ndebug cfg = ndebug cfg').
    Lemma visit_cfg : forall fuel A B l, l < p_levels P -> in_level D l A -> in_level D l B -> visit cfg D P alpha fuel A B l = visit cfg' D P alpha fuel A B l.
    Proof.
      induction fuel as [|f IH]; intros A B l Hl HA HB; cbn [visit]; destruct (lev_bound l Hl) as [L1 L2]; rewrite (touching_cfg cfg cfg' D HD), ND by (auto; lia); [reflexivity|].
      destruct (touching cfg' D A B l) as [t|]; [|reflexivity]. cbn [obind]. destruct (negb t); [reflexivity|]. destruct (N.eqb_spec l (p_levels P - 1)); [reflexivity|].
      rewrite (omap_ext_in _ (fun ab => visit cfg' D P alpha f (fst ab) (snd ab) (l + 1))); [reflexivity|]. intros ab Hab.
      destruct (child_pairs_In D P HD (no_c _ _ _ _ NO) lev A B l ab ltac:(lia) HA HB Hab). apply IH; auto; lia.
    Qed.
    Lemma seq_cfg fpl : forall fuel A B l, l < p_levels P -> in_level D l A -> in_level D l B ->
      seq_start cfg D P alpha fpl fuel A B l = seq_start cfg' D P alpha fpl fuel A B l.
    Proof.
      induction fuel as [|f IH]; intros A B l Hl HA HB; cbn [seq_start]; destruct (lev_bound l Hl) as [L1 L2]; rewrite (touching_cfg cfg cfg' D HD), ND by (auto; lia); [reflexivity|].
      destruct (touching cfg' D A B l) as [t|]; [|reflexivity]. cbn [obind]. destruct (negb t); [reflexivity|]. destruct (N.eqb_spec l (p_levels P - 1)); [reflexivity|].
      rewrite (omap_ext_in _ (fun ab => if l + 1 =? fpl then Some ([], [ab]) else seq_start cfg' D P alpha fpl f (fst ab) (snd ab) (l + 1))); [reflexivity|]. intros ab Hab.
      destruct (child_pairs_In D P HD (no_c _ _ _ _ NO) lev A B l ab ltac:(lia) HA HB Hab). destruct (l + 1 =? fpl); [reflexivity|]. apply IH; auto; lia.
    Qed.
    Lemma par_cfg fpl pushes team : (forall ab, In ab pushes -> in_level D fpl (fst ab) /\ in_level D fpl (snd ab) /\ fpl < p_levels P) ->
      par_calls cfg D P alpha fpl pushes team = par_calls cfg' D P alpha fpl pushes team.
    Proof.
      intros Hp. unfold par_calls. destruct (numCellsInLevel D fpl); [|reflexivity]. cbn [obind]. destruct (firstCellOfLevel D fpl) as [first|]; [|reflexivity]. cbn [obind].
      destruct (negb _); [reflexivity|]. apply omap_ext_in. intros blk _. f_equal. apply omap_ext_in. intros i _. cbv zeta. apply omap_ext_in. intros ab Hab.
      apply filter_In in Hab as [Hab Eq%N.eqb_eq]. destruct (Hp ab Hab) as (H1 & H2 & H3). rewrite <- Eq. now apply visit_cfg.
    Qed.
    Lemma thread_calls_cfg omp_max team : fpl_ok D E omp_max -> thread_calls E cfg D P alpha omp_max team = thread_calls E cfg' D P alpha omp_max team.
    Proof.
      intros Hf. pose proof (root_level D P HD lev) as HR. assert (H0 : 0 < p_levels P) by (rewrite lev; lia). unfold thread_calls.
      destruct (Nat.eqb_spec omp_max 1) as [E1|E1]; [now rewrite visit_cfg|]. destruct Hf as [Hf|(fpl & Ef & Hp & Hb)]; [contradiction|]. rewrite Ef. cbn [obind].
      rewrite <- seq_cfg by assumption. rewrite (seq_eq cfg D P alpha HD (no_c _ _ _ _ NO) lev fpl (N.to_nat (p_levels P - 1))) by (auto; lia). cbn [obind].
      rewrite par_cfg; [reflexivity|]. apply (pushes_level cfg D P HD (no_c _ _ _ _ NO) lev); auto; lia.
    Qed.
    Lemma run_call_cfg t rg x g : call_ok cfg D P x -> run_call E cfg D t alpha rg x g = run_call E cfg' D t alpha rg x g.
    Proof.
      destruct x as [A B l i j|A B l i j]; [reflexivity|]. intros (HA & HB & Hi & Hj & Hl & _). cbn [run_call]. unfold sampleTypeII, dist_lower_bound.
      assert (Hlev : l < p_levels P). { rewrite lev. pose proof (base_le_00 D c HD i j). lia. } destruct (lev_bound l Hlev) as [L1 L2].
      rewrite (cell_dist_cfg E cfg cfg' D GR HD A B l) by (auto; lia). reflexivity.
    Qed.
    Lemma run_calls_cfg t rg : forall xs g, (forall x, In x xs -> call_ok cfg D P x) -> run_calls E cfg D t alpha rg xs g = run_calls E cfg' D t alpha rg xs g.
    Proof.
      induction xs as [|x xs IH]; intros g H; [reflexivity|]. cbn [run_calls]. rewrite run_call_cfg by (apply H; now left).
      destruct (run_call E cfg' D t alpha rg x g) as [r1|]; [|reflexivity]. cbn [obind]. rewrite IH by (intros y Hy; apply H; now right). reflexivity.
    Qed.
  End Same.

  (** *** Same instructions, with and without assertions: a release build skips the far pairs of a threshold graph *)
  Section Assertions.
    Variables (b gn : bool).
    Let rel := {| use_bmi2 := b; gnuc := gn; ndebug := true |}.
    Let dbg := {| use_bmi2 := b; gnuc := gn; ndebug := false |}.
    Lemma near_isI A B l : filter isI (near_calls D P A B l) = near_calls D P A B l.
    Proof.
      apply filter_true. intros x Hx. unfold near_calls in Hx. apply in_flat_map in Hx as (ij & _ & Hx).
      destruct (negb (A =? B) || (fst ij <=? snd ij)%nat); [|destruct Hx]. destruct Hx as [<-|[]]. reflexivity.
    Qed.
    Lemma far_isI A B l : filter isI (far_calls D P A B l) = [].
    Proof. apply filter_none. intros x Hx. unfold far_calls in Hx. apply in_flat_map in Hx as (l' & _ & Hx). apply in_map_iff in Hx as (ij & <- & _). reflexivity. Qed.
    Lemma concat_filter {X} (p : X -> bool) L : concat (map (filter p) L) = filter p (concat L).
    Proof. induction L as [|a L IH]; [reflexivity|]. cbn [map concat]. now rewrite filter_app, IH. Qed.
    Lemma visit_dbg : forall fuel A B l, visit rel D P AInf fuel A B l = (do cs <- visit dbg D P AInf fuel A B l; Some (filter isI cs)).
    Proof.
      induction fuel as [|f IH]; intros A B l; cbn [visit]; change (touching rel) with (touching dbg); destruct (touching dbg D A B l) as [t|]; cbn [obind]; try reflexivity;
        destruct (negb t); cbn [ndebug rel dbg is_inf andb obind]; try (now rewrite far_isI); destruct (l =? p_levels P - 1); cbn [obind]; try (now rewrite near_isI); try reflexivity.
      rewrite (omap_post (filter isI) _ (fun ab => visit dbg D P AInf f (fst ab) (snd ab) (l + 1))) by (intros ab _; apply IH).
      destruct (omap _ _) as [rs|]; cbn [obind]; [|reflexivity]. now rewrite filter_app, near_isI, concat_filter.
    Qed.
    Lemma seq_dbg fpl : forall fuel A B l, seq_start rel D P AInf fpl fuel A B l = (do cp <- seq_start dbg D P AInf fpl fuel A B l; Some (filter isI (fst cp), snd cp)).
    Proof.
      induction fuel as [|f IH]; intros A B l; cbn [seq_start]; change (touching rel) with (touching dbg); destruct (touching dbg D A B l) as [t|]; cbn [obind]; try reflexivity;
        destruct (negb t); cbn [ndebug rel dbg is_inf andb obind fst snd]; try (now rewrite far_isI); destruct (l =? p_levels P - 1); cbn [obind fst snd]; try (now rewrite near_isI); try reflexivity.
      rewrite (omap_post (fun cp => (filter isI (fst cp), snd cp)) _ (fun ab => if l + 1 =? fpl then Some ([], [ab]) else seq_start dbg D P AInf fpl f (fst ab) (snd ab) (l + 1))).
      - destruct (omap _ _) as [rs|]; cbn [obind fst snd]; [|reflexivity]. rewrite filter_app, near_isI, !map_map. cbn [fst snd]. rewrite <- concat_filter, map_map. reflexivity.
      - intros ab _. destruct (l + 1 =? fpl); [reflexivity|]. apply IH.
    Qed.
    Lemma par_dbg fpl pushes team : par_calls rel D P AInf fpl pushes team = (do par <- par_calls dbg D P AInf fpl pushes team; Some (map (filter isI) par)).
    Proof.
      unfold par_calls. destruct (numCellsInLevel D fpl); [|reflexivity]. cbn [obind]. destruct (firstCellOfLevel D fpl) as [first|]; [|reflexivity]. cbn [obind].
      destruct (negb _); [reflexivity|]. apply omap_post. intros blk _.
      rewrite (omap_post (map (filter isI)) _ (fun i => let a := first + N.of_nat i in omap (fun ab => visit dbg D P AInf (N.to_nat (p_levels P)) a (snd ab) fpl) (filter (fun ab => fst ab =? a) pushes))).
      - destruct (omap _ _) as [rs|]; cbn [obind]; [|reflexivity]. f_equal. rewrite <- concat_filter, concat_map. reflexivity.
      - intros i _. cbv zeta. apply omap_post. intros ab _. apply visit_dbg.
    Qed.
    Lemma thread_calls_dbg omp_max team : thread_calls E rel D P AInf omp_max team = (do calls <- thread_calls E dbg D P AInf omp_max team; Some (map (filter isI) calls)).
    Proof.
      unfold thread_calls. destruct (omp_max =? 1)%nat.
      - rewrite visit_dbg. destruct (visit dbg _ _ _ _ _ _ _); reflexivity.
      - destruct (first_parallel_level E D omp_max) as [fpl|]; [|reflexivity]. cbn [obind]. rewrite seq_dbg. destruct (seq_start dbg _ _ _ _ _ _ _ _) as [[cs pushes]|]; [|reflexivity]. cbn [obind fst snd].
        rewrite par_dbg. destruct (par_calls dbg _ _ _ _ _ _) as [par|]; [|reflexivity]. cbn [obind]. f_equal. destruct par as [|p0 r]; [reflexivity|]. cbn [map]. now rewrite filter_app.
    Qed.
    Lemma cpairs_dbg t ord : tree_spec E dbg D ws ps P t ord -> forall xs, (forall x, In x xs -> call_ok dbg D P x) ->
      filter (fun uv => hitw E dbg D ws ps P (fst uv) (snd uv)) (flat_map (call_pairs E dbg D ws ps P ord) xs) =
      filter (fun uv => hitw E rel D ws ps P (fst uv) (snd uv)) (flat_map (call_pairs E rel D ws ps P ord) (filter isI xs)).
    Proof.
      intros TS. induction xs as [|x xs IH]; intros H; [reflexivity|]. cbn [flat_map]. rewrite filter_app, IH by (intros y Hy; apply H; now right).
      destruct x as [A B l i j|A B l i j]; cbn [filter isI].
      - cbn [flat_map]. rewrite filter_app. reflexivity.
      - rewrite filter_none; [reflexivity|]. intros [u v] Huv. cbn [call_pairs] in Huv. apply in_prod_iff in Huv as [Hu Hv]. cbn [fst snd].
        apply (far_bound E dbg D ws ps P GR HD NO HL VP Hn t ord TS FO A B l i j u v); auto. apply H. now left.
    Qed.
  End Assertions.

  (** *** The whole function *)
  Variables (rg : rng) (seed : Z) (omp_max team : nat).
  Hypotheses (GG : good_rng rg) (Homp : (1 <= omp_max <= 2 ^ 17 + 1)%nat) (Hfpl : fpl_ok D E omp_max) (Hteam : (1 <= team <= omp_max)%nat).
  Definition sampling (cfg : config) (alpha : alphaT) (t : tree) (o : option (list (nat * nat))) : Prop :=
    exists ors, edges_outcome E cfg D t alpha rg seed omp_max team ors /\
      match ors with None => o = None | Some rs => collect (2 ^ 20) omp_max (map edges_of rs) o end.
  Lemma calls_ok cfg alpha t ord : tree_spec E cfg D ws ps P t ord ->
    exists calls, thread_calls E cfg D P alpha omp_max team = Some calls /\ (length calls <= omp_max)%nat /\ forall x, In x (concat calls) -> call_ok cfg D P x.
  Proof.
    intros TS. destruct (thread_calls_ok cfg D P alpha HD (no_c _ _ _ _ NO) lev E omp_max team Hfpl Hteam) as (calls & Ec & Lc & HP). exists calls. split; [exact Ec|]. split; [lia|].
    intros x Hx. apply (Permutation_in _ HP) in Hx. unfold full_plan in Hx. apply filter_In in Hx as [Hx _]. revert Hx. apply (plan0_ok E cfg D ws ps P HD NO HL Hn t ord TS).
  Qed.
  Lemma gens_len gens : gens_ok rg seed omp_max gens -> length gens = omp_max.
  Proof. unfold gens_ok. destruct (0 <=? seed)%Z; [intros ->; now rewrite map_length, seq_length|]. intros (ss & Ls & ->). now rewrite map_length. Qed.
  Lemma same_edges cfg cfg' alpha t ord : ndebug cfg = ndebug cfg' -> tree_spec E cfg D ws ps P t ord ->
    forall ors, edges_outcome E cfg D t alpha rg seed omp_max team ors <-> edges_outcome E cfg' D t alpha rg seed omp_max team ors.
  Proof.
    intros ND TS ors. unfold edges_outcome. destruct (seeds_defined seed omp_max); [|reflexivity]. rewrite (ts_P _ _ _ _ _ _ _ _ TS).
    rewrite <- (thread_calls_cfg cfg cfg' alpha ND omp_max team Hfpl). destruct (calls_ok cfg alpha t ord TS) as (calls & -> & _ & Hok). cbn [obind].
    assert (Eq : forall gens, run_threads E cfg D t alpha rg calls gens = run_threads E cfg' D t alpha rg calls gens).
    { intros gens. unfold run_threads. destruct (length gens <? length calls)%nat; [reflexivity|]. apply omap_ext_in. intros [xs g] Hin. cbn [fst snd]. apply run_calls_cfg.
      intros x Hx. apply Hok. apply in_concat. exists xs. split; [exact (in_combine_l _ _ _ _ Hin)|exact Hx]. }
    split; intros (gens & Hg & ->); exists gens; (split; [exact Hg|]); now rewrite Eq.
  Qed.
  Lemma dbg_threads b gn t ord ord' :
    let rel := {| use_bmi2 := b; gnuc := gn; ndebug := true |} in let dbg := {| use_bmi2 := b; gnuc := gn; ndebug := false |} in
    tree_spec E rel D ws ps P t ord -> tree_spec E dbg D ws ps P t ord' ->
    forall gens, gens_ok rg seed omp_max gens -> exists rs rs',
      (do calls <- thread_calls E rel D P AInf omp_max team; run_threads E rel D t AInf rg calls gens) = Some rs /\
      (do calls <- thread_calls E dbg D P AInf omp_max team; run_threads E dbg D t AInf rg calls gens) = Some rs' /\ map edges_of rs = map edges_of rs'.
  Proof.
    intros rel dbg TS TS' gens Hg. pose proof (gens_len gens Hg) as Lg.
    assert (Eo : ord = ord').
    { pose proof (ts_nodes _ _ _ _ _ _ _ _ TS) as H1. pose proof (ts_nodes _ _ _ _ _ _ _ _ TS') as H2. rewrite H1 in H2. apply (f_equal (map index)) in H2. now rewrite !map_index in H2. }
    subst ord'.
    destruct (calls_ok dbg AInf t ord TS') as (calls & Ec & Lc & Hok). destruct (calls_ok rel AInf t ord TS) as (calls' & Ec' & Lc' & Hok').
    pose proof (thread_calls_dbg b gn omp_max team) as Q. fold rel dbg in Q. rewrite Ec in Q. cbn [obind] in Q. rewrite Ec' in Q. injection Q as ->. rewrite Ec, Ec'. cbn [obind].
    destruct (threads_decided E dbg D ws ps P GR HD NO HL VP Hn t ord TS' AInf rg GG calls gens ltac:(lia) Hok) as (rs' & E1 & F1).
    destruct (threads_decided E rel D ws ps P GR HD NO HL VP Hn t ord TS AInf rg GG (map (filter isI) calls) gens ltac:(lia) Hok') as (rs & E2 & F2).
    exists rs, rs'. split; [exact E2|]. split; [exact E1|]. clear -F1 F2 Hok TS' GR HD NO HL VP Hn FO. revert rs F2. induction F1 as [|xs r calls rs' Hd F1 IH]; intros rs F2; inversion F2 as [|xs2 r2 c2 rs2 Hd2 F3]; subst; [reflexivity|].
    cbn [map]. f_equal; [|apply IH; [intros x Hx; apply Hok; cbn [concat]; apply in_or_app; now right|exact F3]].
    rewrite (de_inf _ _ _ _ _ _ _ _ _ _ Hd FO eq_refl), (de_inf _ _ _ _ _ _ _ _ _ _ Hd2 FO eq_refl), (de_pairs _ _ _ _ _ _ _ _ _ _ Hd), (de_pairs _ _ _ _ _ _ _ _ _ _ Hd2). symmetry.
    apply (cpairs_dbg b gn t ord TS'). intros x Hx. apply Hok. cbn [concat]. apply in_or_app. now left.
  Qed.
  Lemma spec_of cfg t : tree_outcome E cfg D ws ps omp_max (Some t) -> exists ord, tree_spec E cfg D ws ps P t ord.
  Proof. intros H. destruct (build_ok E cfg D ws ps P GR HD NO HL VP Hn omp_max Homp) as (t0 & ord & TS & _ & T2). specialize (T2 _ H). injection T2 as <-. eauto. Qed.
  Lemma dbg_edges b gn t :
    let rel := {| use_bmi2 := b; gnuc := gn; ndebug := true |} in let dbg := {| use_bmi2 := b; gnuc := gn; ndebug := false |} in
    tree_outcome E rel D ws ps omp_max (Some t) -> forall alpha o, sampling rel alpha t o <-> sampling dbg alpha t o.
  Proof.
    intros rel dbg T alpha o. destruct (spec_of rel t T) as (ord & TS). destruct (spec_of dbg t (proj1 (tree_cfg rel dbg omp_max _) T)) as (ord' & TS').
    unfold sampling, edges_outcome. destruct (seeds_defined seed omp_max); [|reflexivity]. rewrite (ts_P _ _ _ _ _ _ _ _ TS). destruct alpha as [|a].
    - split; intros (ors & (gens & Hg & ->) & Ho); destruct (dbg_threads b gn t ord ord' TS TS' gens Hg) as (rs & rs' & E1 & E2 & Eq); fold rel dbg in E1, E2.
      + rewrite E1 in Ho. eexists. split; [exists gens; split; [exact Hg|reflexivity]|]. rewrite E2, <- Eq. exact Ho.
      + rewrite E2 in Ho. eexists. split; [exists gens; split; [exact Hg|reflexivity]|]. rewrite E1, Eq. exact Ho.
    - assert (V : forall fuel A B l, visit rel D P (AFin a) fuel A B l = visit dbg D P (AFin a) fuel A B l).
      { induction fuel as [|f IH]; intros A B l; [reflexivity|]. cbn [visit]. change (touching rel) with (touching dbg). cbn [ndebug rel dbg is_inf andb]. now rewrite (omap_ext_in _ (fun ab => visit dbg D P (AFin a) f (fst ab) (snd ab) (l + 1))) by (intros; apply IH). }
      assert (S : forall fpl fuel A B l, seq_start rel D P (AFin a) fpl fuel A B l = seq_start dbg D P (AFin a) fpl fuel A B l).
      { induction fuel as [|f IH]; intros A B l; [reflexivity|]. cbn [seq_start]. change (touching rel) with (touching dbg). cbn [ndebug rel dbg is_inf andb].
        now rewrite (omap_ext_in _ (fun ab => if l + 1 =? fpl then Some ([], [ab]) else seq_start dbg D P (AFin a) fpl f (fst ab) (snd ab) (l + 1))) by (intros ab _; destruct (l + 1 =? fpl); [reflexivity|apply IH]). }
      assert (C : thread_calls E rel D P (AFin a) omp_max team = thread_calls E dbg D P (AFin a) omp_max team).
      { unfold thread_calls. destruct (omp_max =? 1)%nat; [now rewrite V|]. destruct (first_parallel_level E D omp_max) as [fpl|]; [|reflexivity]. cbn [obind]. rewrite S.
        destruct (seq_start dbg _ _ _ _ _ _ _ _) as [[cs pushes]|]; [|reflexivity]. cbn [obind]. f_equal. unfold par_calls. destruct (numCellsInLevel D fpl); [|reflexivity]. cbn [obind].
        destruct (firstCellOfLevel D fpl) as [first|]; [|reflexivity]. cbn [obind]. destruct (negb _); [reflexivity|]. apply omap_ext_in. intros blk _. f_equal. apply omap_ext_in. intros i _. cbv zeta. apply omap_ext_in. intros ab _. apply V. }
      assert (RC : forall xs g, run_calls E rel D t (AFin a) rg xs g = run_calls E dbg D t (AFin a) rg xs g).
      { induction xs as [|x xs IH]; intros g; [reflexivity|]. cbn [run_calls]. change (run_call E rel D t (AFin a) rg x g) with (run_call E dbg D t (AFin a) rg x g).
        destruct (run_call E dbg D t (AFin a) rg x g); [|reflexivity]. cbn [obind]. now rewrite IH. }
      assert (RT : forall calls gens, run_threads E rel D t (AFin a) rg calls gens = run_threads E dbg D t (AFin a) rg calls gens).
      { intros calls gens. unfold run_threads. destruct (length gens <? length calls)%nat; [reflexivity|]. apply omap_ext_in. intros [xs g] _. apply RC. }
      assert (Eq : forall gens, (do calls <- thread_calls E rel D P (AFin a) omp_max team; run_threads E rel D t (AFin a) rg calls gens) =
        (do calls <- thread_calls E dbg D P (AFin a) omp_max team; run_threads E dbg D t (AFin a) rg calls gens)).
      { intros gens. rewrite C. destruct (thread_calls E dbg D P (AFin a) omp_max team); [|reflexivity]. cbn [obind]. apply RT. }
      split; intros (ors & (gens & Hg & ->) & Ho); (eexists; split; [exists gens; split; [exact Hg|reflexivity]|]); [rewrite <- Eq|rewrite Eq]; exact Ho.
  Qed.
  Lemma girg_sampling cfg alpha o : girg_outcome E cfg rg ws ps alpha seed omp_max team o <-> exists t, tree_outcome E cfg D ws ps omp_max (Some t) /\ sampling cfg alpha t o.
  Proof.
    assert (Eps : exists p0 ps', ps = p0 :: ps').
    { pose proof (n_pos E D ws ps P NO HL Hn) as H. rewrite HL in H. destruct ps; [cbn in H; lia|eauto]. }
    destruct Eps as (p0 & ps' & Eps). assert (ED : N.of_nat (length p0) = D).
    { pose proof VP as VP'. rewrite Eps in VP'. inversion_clear VP' as [|? ? [V1 _] _]. rewrite V1. apply N2Nat.id. }
    assert (EDb : ((1 <=? D) && (D <=? 5)) = true).
    { unfold dim_ok in HD. apply andb_true_intro. split; apply N.leb_le; lia. }
    destruct (build_ok E cfg D ws ps P GR HD NO HL VP Hn omp_max Homp) as (t & ord & TS & T1 & T2).
    unfold girg_outcome. rewrite Eps at 1. cbv zeta. rewrite ED, EDb. split.
    - intros (ot & Hot & Ho). rewrite (T2 ot Hot) in Ho. exists t. split; [exact T1|exact Ho].
    - intros (t' & Ht & Ho). exists (Some t'). split; [exact Ht|exact Ho].
  Qed.
  Theorem flavours cfg cfg' alpha o : girg_outcome E cfg rg ws ps alpha seed omp_max team o <-> girg_outcome E cfg' rg ws ps alpha seed omp_max team o.
  Proof.
    assert (K : forall t, tree_outcome E cfg D ws ps omp_max (Some t) -> sampling cfg alpha t o <-> sampling cfg' alpha t o).
    { intros t T. transitivity (sampling {| use_bmi2 := use_bmi2 cfg'; gnuc := gnuc cfg'; ndebug := ndebug cfg |} alpha t o).
      - destruct (spec_of cfg t T) as (ord & TS). unfold sampling. split; intros (ors & H1 & H2); exists ors; (split; [|exact H2]); revert H1; now apply (same_edges cfg {| use_bmi2 := use_bmi2 cfg'; gnuc := gnuc cfg'; ndebug := ndebug cfg |} alpha t ord eq_refl TS).
      - destruct cfg' as [b gn nd']. cbn [use_bmi2 gnuc]. pose proof (dbg_edges b gn t (proj1 (tree_cfg cfg {| use_bmi2 := b; gnuc := gn; ndebug := true |} omp_max _) T) alpha o) as Q. cbv zeta in Q.
        destruct (ndebug cfg), nd'; [reflexivity|exact Q|symmetry; exact Q|reflexivity]. }
    rewrite !girg_sampling. split; intros (t & T & H); exists t.
    - split; [now apply (tree_cfg cfg cfg')|now apply (K t T)].
    - pose proof (proj2 (tree_cfg cfg cfg' omp_max _) T) as T'. split; [exact T'|now apply (K t T')].
  Qed.
End Flavour.

(** ** Theorems *)
(** Exact arithmetic: two builds of the library return the same edge lists, in the same order, for the same arguments (the same set of lists, if the schedule or a negative
    seed leaves a choice). *)
Theorem C72_builds_agree : forall cfg cfg' rg D ws ps alpha seed omp_max team,
  girg_input D ws ps seed omp_max team -> good_rng rg ->
  forall o, girg_outcome ideal_env cfg rg ws ps alpha seed omp_max team o <-> girg_outcome ideal_env cfg' rg ws ps alpha seed omp_max team o.
Proof.
  intros cfg cfg' rg D ws ps alpha seed omp_max team HI GG o. destruct (use_num HI) as (P & NO & IP).
  apply (flavours ideal_env D ws ps P ideal_good (gi_dim _ _ _ _ _ _ HI) NO (gi_len _ _ _ _ _ _ HI) (use_vp HI) (gi_n _ _ _ _ _ _ HI) (ip_far _ _ IP) rg seed omp_max team GG
    (proj1 (omp_nat _ (gi_omp _ _ _ _ _ _ HI))) (use_fpl HI) (gi_team _ _ _ _ _ _ HI)).
Qed.
(** The same in IEEE doubles, with the same log2 and pow in both builds. *)
Theorem C72_builds_agree_in_doubles : forall f pw cfg cfg' rg D ws ps alpha seed omp_max team,
  good_log2 f -> good_rng rg -> ieee_input f D ws ps seed omp_max team ->
  forall o, girg_outcome (double_env f pw) cfg rg ws ps alpha seed omp_max team o <-> girg_outcome (double_env f pw) cfg' rg ws ps alpha seed omp_max team o.
Proof.
  intros f pw cfg cfg' rg D ws ps alpha seed omp_max team GL GG HI o.
  destruct (double_num_ok f pw D ws GL (ii_dim _ _ _ _ _ _ _ HI) (ii_weights f pw _ _ _ _ _ _ HI)) as (P & NO & FO & EW).
  pose proof (omp_nat _ (ii_omp _ _ _ _ _ _ _ HI)) as [O1 O2].
  apply (flavours (double_env f pw) D ws ps P (double_good f pw) (ii_dim _ _ _ _ _ _ _ HI) NO (ii_len _ _ _ _ _ _ _ HI) (ii_vp f pw _ _ _ _ _ _ HI) (ii_n _ _ _ _ _ _ _ HI) FO rg seed omp_max team GG
    O1 (double_fpl_ok f pw D omp_max GL (ii_dim _ _ _ _ _ _ _ HI) O2) (ii_team _ _ _ _ _ _ _ HI)).
Qed.

(** ** The hypotheses can be met *)
(** a BMI2 release build and a portable debug build return the same random graph on the 16 nodes of [ex_input] *)
Example C72_example : forall a o,
  girg_outcome ideal_env {| use_bmi2 := true; gnuc := true; ndebug := true |} ex_rng ex_ws ex_ps (AFin a) 12 4 4 o <->
  girg_outcome ideal_env {| use_bmi2 := false; gnuc := false; ndebug := false |} ex_rng ex_ws ex_ps (AFin a) 12 4 4 o.
Proof. intros a o. apply (C72_builds_agree _ _ _ 1); [apply ex_input; lia|apply ex_rng_good]. Qed.

Print Assumptions C72_builds_agree.
Print Assumptions C72_builds_agree_in_doubles.
