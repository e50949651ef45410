(** The assertions of a debug build of the hyperbolic generator hold: the whole run. *)
From Coq Require Import Arith NArith ZArith List Bool Reals Lia Lra Permutation Sorted.
From Flocq Require Import Core.
From Verif Require Import Base Sched Coord_Model Coord_Proofs Coord_Geo Coord_Torus IntSort_Model IntSort_Proofs Prefix_Model Prop_IntSort Prop_Prefix Tree_Model Cover Tree_Proofs Tree_Build Tree_Plan Tree_Run Girg_Model Girg_Proofs.
From Verif Require Import Hyp_Model Hyp_Math Hyp_Angle Hyp_Levels Hyp_Build Hyp_Run Hyp_Filter Hyp_Sched Hyp_Threads Hyp_Gen Dbg_Base HypDbg_Model HypDbg_Proofs.
Import ListNotations.
Local Open Scope N_scope.

Lemma omap_ext_in {A B} (f g : A -> option B) L : (forall x, In x L -> f x = g x) -> omap f L = omap g L.
Proof.
  induction L as [|a L IH]; intros H; cbn [omap]; [reflexivity|]. rewrite (H a (or_introl eq_refl)), IH by (intros; apply H; now right). reflexivity.
Qed.

Section DGen.
  Variables (radii angles : list R) (T Rd : R).
  Hypotheses (DI : disc_input radii angles Rd).
  Hypotheses (Hin : Forall (fun r => r < Rd)%R radii) (HR1 : (1 <= Rd)%R) (HT : (0 <= T)%R) (HTR : (2 * T * ln 99 <= Rd)%R).
  Variables (t : htree) (ord : list nat) (TS : htree_spec radii angles T Rd t ord).
  Variables (hg : hrng) (GG : good_rng (hb hg)).
  Variables (part : list (N * N) -> list (N * N)) (HP : is_partition task_eq part).
  Notation n := (length radii).
  Notation levels := (h_levels t).
  Notation plan := (hplan Rd t).
  Notation plan0 := (hplan Rd t (N.to_nat (levels - 1)) 0 0 0).

  Lemma run_plan xs : (forall x, In x xs -> In x plan0) -> forall g, drun_calls radii angles t (hb hg) xs g = hrun_calls t (hb hg) xs g.
  Proof.
    intros H. apply (drun_calls_eq radii angles T Rd DI Hin HR1 HT HTR t ord TS (hb hg) GG). intros x Hx. specialize (H x Hx).
    split; [now apply (hplan0_ok radii angles T Rd DI t ord TS)|now apply (plan0_near radii angles T Rd DI t ord TS)].
  Qed.
  Lemma keep_false_all L : filter (hkeep T false) L = L.
  Proof. apply filter_true. intros x _. unfold hkeep. cbn [andb negb]. apply orb_true_r. Qed.
  (** when there is no parallel level the calling threads share the whole plan *)
  Lemma hsample_full fpl nt : levels <= fpl -> forall k f A B l s, l < levels -> k = N.to_nat (levels - 1 - l) -> (k <= f)%nat -> in_lv l A -> in_lv l B ->
    hsample t fpl nt f A B l s = Some (my_calls nt s (plan k A B l)).
  Proof.
    intros Hfp. induction k as [|k IH]; intros f A B l s Hl Hk Hf HA HB; destruct f as [|f]; try lia;
      cbn [hsample]; rewrite (htouching_Some radii angles T Rd DI t ord TS A B l Hl HA HB); cbn [obind];
      unfold hplan; cbn [gplan]; rewrite (far_eq radii angles T Rd DI t ord TS), (near_eq radii angles T Rd DI t ord TS);
      destruct (htouchb A B l); cbn [negb]; try reflexivity.
    - destruct (my_calls nt s (gnear (h_layers t) (base Rd) A B l)) as [cs s1] eqn:Ecs. destruct (N.eqb_spec l (levels - 1)); [|lia]. now rewrite app_nil_r, Ecs.
    - destruct (my_calls nt s (gnear (h_layers t) (base Rd) A B l)) as [cs s1] eqn:Ecs. destruct (N.eqb_spec l (levels - 1)); [|lia]. now rewrite app_nil_r, Ecs.
    - destruct (my_calls nt s (gnear (h_layers t) (base Rd) A B l)) as [cs s1] eqn:Ecs. destruct (N.eqb_spec l (levels - 1)); [lia|].
      destruct (N.eqb_spec (l + 1) fpl); [lia|].
      assert (G : forall L s, (forall ab, In ab L -> In ab (hchild_pairs A B)) ->
        (fix children (abs : list (N * N)) (s : nat) : option (list call * nat) :=
           match abs with
           | [] => Some ([], s)
           | ab :: r => do (c1, s') <- hsample t fpl nt f (fst ab) (snd ab) (l + 1) s;
                        do (c2, s'') <- children r s';
                        Some (c1 ++ c2, s'')
           end) L s = Some (my_calls nt s (flat_map (fun ab => plan k (fst ab) (snd ab) (l + 1)) L))).
      { induction L as [|ab L IHL]; intros s' HL; [reflexivity|].
        destruct (hchild_lv radii angles T Rd DI t ord TS A B l ab ltac:(lia) HA HB (HL _ (or_introl eq_refl))) as [Ha Hb].
        rewrite (IH f (fst ab) (snd ab) (l + 1) s') by (auto; lia). cbn [obind flat_map]. rewrite my_calls_app.
        destruct (my_calls nt s' (plan k (fst ab) (snd ab) (l + 1))) as [c1 s2]. cbn [fst snd obind].
        rewrite IHL by (intros x Hx; apply HL; now right). destruct (my_calls nt s2 _) as [c2 s3]. reflexivity. }
      rewrite G by auto. rewrite my_calls_app, Ecs. cbn [fst snd]. unfold hplan. destruct (my_calls nt s1 _) as [c2 s2]. reflexivity.
  Qed.

  (** every unit of work of every thread *)
  Lemma dunit_eq nt fpl ntask gens u : (2 <= nt)%nat -> 2 <= fpl -> num_tasks fpl = Some ntask ->
    length gens = (nt - 1 + N.to_nat ntask)%nat -> forall created, hcreate fpl (N.to_nat fpl) 0 0 0 = Some created ->
    match u with USample tid => (tid < nt - 1)%nat | UTask i => fpl < levels /\ (i < length created)%nat end ->
    exists r, dunit_result radii angles t hg fpl nt (part created) gens u = Some r /\ unit_result false t hg fpl nt (part created) gens u = Some r.
  Proof.
    intros Hnt Hf Hnum Hg created Hc Hu.
    assert (Q : dunit_result radii angles t hg fpl nt (part created) gens u = unit_result false t hg fpl nt (part created) gens u /\ exists r, unit_result false t hg fpl nt (part created) gens u = Some r);
      [|destruct Q as (Q & r & E); exists r; rewrite Q; auto].
    destruct (N.lt_ge_cases fpl levels) as [HL|HL].
    - pose proof (created_eq radii angles T Rd DI t ord TS fpl Hf HL) as Ec. rewrite Hc in Ec. injection Ec as ->.
      pose proof (created_len radii angles T Rd DI t ord TS hg nt fpl ntask Hnt Hf HL Hnum gens Hg) as CL.
      split.
      + destruct u as [tid|i]; cbn [dunit_result unit_result].
        * rewrite (hsample_eq radii angles T Rd DI t ord TS fpl (nt - 1) HL (N.to_nat (levels - 1)) (N.to_nat fpl) 0 0 0 tid); try exact root_lv; try lia.
          destruct (my_calls (nt - 1) tid _) as [cs s'] eqn:Ecs. cbn [obind]. destruct (nth_error gens tid) as [g|]; [|reflexivity]. cbn [obind].
          apply run_plan. intros x Hx. apply (Permutation_in _ (Permutation_sym (hphases Rd t fpl HL ltac:(lia)))). apply in_or_app. left.
          apply (my_calls_In (nt - 1) tid). rewrite Ecs. exact Hx.
        * destruct (nth_error _ i) as [ab|] eqn:Ea; [|reflexivity]. cbn [obind].
          pose proof (nth_error_In _ _ Ea) as Hab. pose proof (Permutation_in _ (proj1 (HP _)) Hab) as Hab'.
          destruct (tasks_lv radii angles T Rd DI t ord TS fpl HL (N.to_nat (levels - 1)) 0 0 0 ltac:(lia) root_lv root_lv ab Hab') as [HA HB].
          rewrite (hvisit_eq radii angles T Rd DI t ord TS false (N.to_nat (levels - 1 - fpl))); auto; try lia. cbn [obind].
          destruct (nth_error gens _) as [g|]; [|reflexivity]. cbn [obind]. rewrite keep_false_all. apply run_plan.
          intros x Hx. apply (Permutation_in _ (Permutation_sym (hphases Rd t fpl HL ltac:(lia)))). apply in_or_app. right. apply in_flat_map. exists ab. auto.
      + destruct (unit_run radii angles T Rd DI t ord TS hg GG false part HP nt fpl ntask Hnt Hf HL Hnum gens Hg u) as (r & E & _); [|eauto].
        destruct u as [tid|i]; cbn [unit_ok]; [exact Hu|]. rewrite CL in Hu. apply Hu.
    - destruct u as [tid|i]; [|lia]. cbn [dunit_result unit_result]. pose proof (levels_pos radii angles T Rd t ord TS) as LP.
      rewrite (hsample_full fpl (nt - 1) HL (N.to_nat (levels - 1)) (N.to_nat fpl) 0 0 0 tid); try exact root_lv; try lia.
      destruct (my_calls (nt - 1) tid _) as [cs s'] eqn:Ecs. cbn [obind].
      destruct (nth_error gens tid) as [g|] eqn:Eg; [|apply nth_error_None in Eg; lia]. cbn [obind].
      assert (HI : forall x, In x cs -> In x plan0) by (intros x Hx; apply (my_calls_In (nt - 1) tid); rewrite Ecs; exact Hx).
      split; [now apply run_plan|].
      destruct (hcalls_decided radii angles T Rd DI t ord TS (hb hg) GG cs) with (g := g) as (r & E & _); [|eauto].
      intros x Hx. apply (hplan0_ok radii angles T Rd DI t ord TS). now apply HI.
  Qed.

  Lemma total_ok rss : hsampled radii angles T Rd t ord hg false (concat rss) -> total_assert radii rss = Some tt.
  Proof.
    intros SA. unfold total_assert. apply dassert_true, Z.eqb_eq. rewrite (hsa_checks _ _ _ _ _ _ _ _ _ SA).
    rewrite (pairs_length _ n); [lia|exact (hsa_range _ _ _ _ _ _ _ _ _ SA)|exact (hsa_all _ _ _ _ _ _ _ _ _ SA eq_refl)].
  Qed.

  Lemma seq_eq s :
    (do cs <- hvisit false t (N.to_nat levels) 0 0 0; do r <- drun_calls radii angles t (hb hg) cs (rseed (hb hg) s); do _ <- total_assert radii [[r]]; Some [[r]]) =
    (do cs <- hvisit false t (N.to_nat levels) 0 0 0; do r <- hrun_calls t (hb hg) cs (rseed (hb hg) s); Some [[r]]).
  Proof.
    destruct (seq_run radii angles T Rd DI t ord TS hg GG false (rseed (hb hg) s)) as (r & E & _).
    assert (E2 : generate_outcome false part t hg s 1 1 (Some [[r]])) by (exists s; split; [auto|]; symmetry; exact E).
    assert (L17 : (1 <= N.to_nat (2 ^ 17))%nat) by lia.
    destruct (generate_ok radii angles T Rd DI t ord TS hg GG false part HP s 1 1 ltac:(lia) ltac:(lia)) as (_ & _ & G3').
    destruct (G3' _ E2) as (rss & [= <-] & _ & SA). pose proof (levels_pos radii angles T Rd t ord TS) as LP.
    rewrite (hvisit_eq radii angles T Rd DI t ord TS false (N.to_nat (levels - 1)) (N.to_nat levels) 0 0 0) in *; try exact root_lv; try lia.
    cbn [obind] in *. rewrite keep_false_all in *. rewrite run_plan by auto.
    destruct (hrun_calls t (hb hg) plan0 (rseed (hb hg) s)) as [r'|]; [|discriminate]. cbn [obind] in *. injection E as ->.
    rewrite (total_ok [[r]]) by exact SA. reflexivity.
  Qed.
  Theorem generate_debug_iff seed nt team : (1 <= nt <= N.to_nat (2 ^ 17))%nat -> (1 <= team <= nt)%nat ->
    forall o, generate_debug radii angles part t hg seed nt team o <-> generate_outcome false part t hg seed nt team o.
  Proof.
    intros Hnt Hteam o. unfold generate_debug, generate_outcome. destruct (Nat.eqb_spec nt 1) as [->|HN].
    - split; intros (s & Hs & ->); exists s; (split; [exact Hs|]); [apply seq_eq|symmetry; apply seq_eq].
    - destruct (fpl_defined nt ltac:(lia)) as (fpl & Ef & Hf & _). destruct (num_tasks_defined fpl Hf) as (k & Ek). rewrite Ef. cbn [obind].
      rewrite (dassert_true _ (proj2 (N.leb_le 2 fpl) ltac:(lia))). cbn [obind].
      rewrite Ek. cbn [obind]. destruct (task_count fpl k ltac:(lia) Ek) as (created & Ec & Lc). rewrite Ec.
      assert (K : forall s k' m fin, psteps nt (fpl <? levels) (length (part created)) k' m (pinit team) fin -> pfinished fin ->
        (do _ <- dassert (negb (fpl <? levels) || (k =? N.of_nat (length (part created))));
         do rss <- omap (dthread_results radii angles t hg fpl nt (part created) (initialize_prngs hg (nt - 1 + N.to_nat k) s)) (ps_threads fin);
         do _ <- total_assert radii rss; Some rss) =
        omap (thread_results false t hg fpl nt (part created) (initialize_prngs hg (nt - 1 + N.to_nat k) s)) (ps_threads fin)).
      { intros s k' m fin HS HF. assert (H2 : (2 <= nt)%nat) by lia.
        destruct (N.ltb_spec fpl levels) as [HL|HL];
          [|exfalso; revert HF; exact (never_finishes nt _ team false (or_introl eq_refl) H2 (proj1 Hteam) k' m fin HS)].
        destruct (Nat.eq_dec team nt) as [->|Hne];
          [|exfalso; revert HF; assert (H1 : true = false \/ (team < nt)%nat) by (right; lia); exact (never_finishes nt _ team true H1 H2 (proj1 Hteam) k' m fin HS)].
        pose proof (Permutation_length (proj1 (HP created))) as PL. cbn [negb orb]. rewrite (proj2 (N.eqb_eq k _)) by lia. cbn [dassert obind].
        set (gens := initialize_prngs hg (nt - 1 + N.to_nat k) s). assert (HG : length gens = (nt - 1 + N.to_nat k)%nat) by apply prngs_len.
        pose proof (final_units nt (length (part created)) true eq_refl ltac:(lia) k' m fin HS HF) as HU.
        rewrite (omap_ext_in (dthread_results radii angles t hg fpl nt (part created) gens) (thread_results false t hg fpl nt (part created) gens)).
        - pose proof (created_eq radii angles T Rd DI t ord TS fpl ltac:(lia) HL) as Ec'. rewrite Ec in Ec'. injection Ec' as ->.
          destruct (par_run radii angles T Rd DI t ord TS hg GG false part HP nt fpl k ltac:(lia) ltac:(lia) HL Ek gens HG _ _ fin HS HF) as (rss & E & _ & SA & _).
          rewrite E. cbn [obind]. rewrite (total_ok rss SA). reflexivity.
        - intros h Hh. unfold dthread_results, thread_results. apply omap_ext_in. intros u Hu.
          destruct (dunit_eq nt fpl k gens u ltac:(lia) ltac:(lia) Ek HG created Ec) as (r & -> & ->); [|reflexivity].
          assert (Hin' : In u (flat_map t_units (ps_threads fin))) by (apply in_flat_map; eauto).
          apply (Permutation_in _ HU), in_app_or in Hin'. destruct Hin' as [I|I]; apply in_map_iff in I as (i & <- & Hi); apply in_seq in Hi; lia. }
      split; intros (s & Hs & k' & m & fin & HS & HF & ->); exists s; (split; [exact Hs|]); exists k', m, fin; (split; [exact HS|]); (split; [exact HF|]);
        [apply (K s k' m fin HS HF)|symmetry; apply (K s k' m fin HS HF)].
  Qed.

  (** *** the assertions of the construction *)
  Lemma lev_step l : (S l < hm Rd)%nat -> lev Rd (S l) <= lev Rd l.
  Proof.
    intros Hl. destruct (lev_ok radii angles Rd DI (S l) Hl) as (E1 & _ & _). destruct (lev_ok radii angles Rd DI l ltac:(lia)) as (E2 & _ & B2).
    pose proof (lt_hm radii angles Rd DI (S l) Hl) as L1. pose proof (pos_INR l) as L0.
    assert (R1 : layer_rad_min Rd (S l) = (Rd - INR (S l) - 1)%R) by (unfold layer_rad_min; ring).
    assert (R2 : layer_rad_min Rd l = (Rd - INR l - 1)%R) by (unfold layer_rad_min; ring). rewrite S_INR in L1, R1.
    destruct (Rle_lt_dec 0 (layer_rad_min Rd (S l))) as [P|P].
    - destruct (pbl_mono (layer_rad_min Rd (S l)) (Rd - 1) (layer_rad_min Rd l) (Rd - 1) Rd (lev Rd l)) as (k & Ek & Hk); try lra; try lia; [exact E2|].
      rewrite E1 in Ek. injection Ek as ->. exact Hk.
    - rewrite (pbl_0 (layer_rad_min Rd (S l)) (Rd - 1) Rd) in E1; [injection E1 as <-; lia|lra|]. apply Rabs_le. lra.
  Qed.
  Lemma lev_mono a b : (a <= b)%nat -> (b < hm Rd)%nat -> lev Rd b <= lev Rd a.
  Proof.
    induction 1 as [|b H IH]; intros Hb; [lia|]. pose proof (lev_step b Hb). specialize (IH ltac:(lia)). lia.
  Qed.
  Lemma levels_sorted : is_sorted (rev (map (lev Rd) (seq 0 (hm Rd)))) = true.
  Proof.
    apply is_sorted_iff. enough (H : forall m, (m <= hm Rd)%nat -> StronglySorted N.le (rev (map (lev Rd) (seq 0 m)))) by (apply H; lia).
    induction m as [|m IH]; intros Hm; [constructor|]. rewrite seq_S, map_app, rev_app_distr. cbn [map rev app Nat.add].
    constructor; [apply IH; lia|]. apply Forall_forall. intros x Hx. apply in_rev, in_map_iff in Hx as (l & <- & Hl). apply in_seq in Hl. apply lev_mono; lia.
  Qed.
  Lemma ord_In u : In u ord -> (u < n)%nat.
  Proof. intros H. apply (Permutation_in _ (hs_perm _ _ _ _ _ _ TS)), in_seq in H. lia. Qed.
  Lemma ord_length : length ord = n.
  Proof. rewrite (Permutation_length (hs_perm _ _ _ _ _ _ TS)). apply seq_length. Qed.
  Lemma input_ok : input_asserts radii angles Rd = true.
  Proof.
    unfold input_asserts. rewrite (di_len _ _ _ DI), Nat.eqb_refl, (proj2 (Rleb_true _ _) HR1). cbn [andb]. apply andb_true_intro. split; apply forallb_forall; intros x Hx; apply andb_true_intro.
    - pose proof (di_r _ _ _ DI) as F. rewrite Forall_forall in F, Hin. specialize (F x Hx). specialize (Hin x Hx). split; [apply Rleb_true|apply Rltb_true]; lra.
    - pose proof (di_phi _ _ _ DI) as F. rewrite Forall_forall in F. specialize (F x Hx). split; [apply Rleb_true|apply Rltb_true]; apply F.
  Qed.
  Lemma rad_min_lt l : Rltb (layer_rad_min Rd l) Rd = true.
  Proof. apply Rltb_true. unfold layer_rad_min. pose proof (pos_INR l). lra. Qed.
  Lemma level_ok : level_asserts t = true.
  Proof.
    unfold level_asserts. rewrite (hs_R _ _ _ _ _ _ TS), (hs_level _ _ _ _ _ _ TS), levels_sorted, andb_true_r.
    apply forallb_forall. intros l _. rewrite rad_min_lt. cbn [andb]. apply Rltb_true. lra.
  Qed.
  Lemma pair_level_ok : pair_level_asserts t = true.
  Proof. unfold pair_level_asserts. rewrite (hs_R _ _ _ _ _ _ TS). apply forallb_forall. intros l _. apply rad_min_lt. Qed.
  Lemma points_sorted : StronglySorted (fun a b => pcell a <= pcell b) (h_points t).
  Proof. rewrite (hs_nodes _ _ _ _ _ _ TS). apply (hs_stable _ _ _ _ _ _ TS). Qed.
  Lemma idx_at x : (x <= N.to_nat (HM Rd))%nat -> nth_error (h_index t) x = Some (N.of_nat (length (filter (fun p => pcell p <? N.of_nat x) (h_points t)))).
  Proof.
    intros Hx. destruct (hs_index _ _ _ _ _ _ TS) as [_ H]. rewrite (H x Hx). f_equal. f_equal. rewrite filter_length_map. f_equal. apply filter_ext. intros p.
    destruct (Nat.ltb_spec (N.to_nat (pcell p)) x), (N.ltb_spec (pcell p) (N.of_nat x)); auto; lia.
  Qed.
  Lemma points_cell p : In p (h_points t) -> exists u, (u < n)%nat /\ p = hmk radii angles Rd u /\ pcell p < HM Rd.
  Proof.
    rewrite (hs_nodes _ _ _ _ _ _ TS). intros H. apply in_map_iff in H as (u & <- & Hu). apply ord_In in Hu. exists u. split; [exact Hu|]. split; [reflexivity|].
    now apply (hmk_cell_lt radii angles Rd DI).
  Qed.
  Lemma filter_len_mono {A} (p q : A -> bool) L : (forall x, In x L -> p x = true -> q x = true) -> (length (filter p L) <= length (filter q L))%nat.
  Proof.
    induction L as [|a L IH]; intros H; [apply Nat.le_refl|]. specialize (IH (fun x Hx => H x (or_intror Hx))). specialize (H a (or_introl eq_refl)). cbn [filter].
    destruct (p a); [rewrite H by reflexivity; cbn [length]; lia|]. destruct (q a); cbn [length]; lia.
  Qed.
  Lemma sorted_of_nth (L : list N) (f : nat -> N) : (forall x, (x < length L)%nat -> nth_error L x = Some (f x)) -> (forall a b, (a <= b)%nat -> (b < length L)%nat -> f a <= f b) -> is_sorted L = true.
  Proof.
    revert f. induction L as [|a L IH]; intros f Hn Hm; [reflexivity|]. destruct L as [|b L]; [reflexivity|].
    change (is_sorted (a :: b :: L)) with ((a <=? b) && is_sorted (b :: L)). apply andb_true_intro. split.
    - pose proof (Hn 0%nat ltac:(cbn; lia)) as E0. pose proof (Hn 1%nat ltac:(cbn; lia)) as E1. cbn in E0, E1. injection E0 as ->. injection E1 as ->. apply N.leb_le, Hm; cbn; lia.
    - apply (IH (fun x => f (S x))).
      + intros x Hx. exact (Hn (S x) ltac:(cbn [length] in *; lia)).
      + intros x y H1 H2. apply Hm; cbn [length] in *; lia.
  Qed.
  Lemma index_ok : index_asserts radii t = true.
  Proof.
    destruct (hs_index _ _ _ _ _ _ TS) as [HLen _]. unfold index_asserts. cbv zeta. replace (length (h_index t) - 1)%nat with (N.to_nat (HM Rd)) by lia.
    assert (Hn : length (h_points t) = n) by (rewrite (hs_nodes _ _ _ _ _ _ TS), map_length; exact ord_length).
    pose proof (di_n _ _ _ DI) as Hn1.
    rewrite !andb_true_iff. repeat match goal with |- _ /\ _ => split end.
    - apply ilog2_asserts_hold.
    - apply is_sorted_iff. pose proof points_sorted as S. clear -S. induction S as [|a L S IH F]; [constructor|]. cbn [map]. constructor; [exact IH|].
      rewrite Forall_forall in *. intros x Hx. apply in_map_iff in Hx as (p & <- & Hp). now apply F.
    - destruct (nth_error (h_points t) (length (h_points t) - 1)) as [p|] eqn:E; [|apply nth_error_None in E; lia].
      apply nth_error_In, points_cell in E as (u & _ & _ & H). apply N.ltb_lt. lia.
    - rewrite idx_at by lia. change (N.of_nat 0) with 0. rewrite filter_none; [reflexivity|]. intros p _. apply N.ltb_ge. lia.
    - rewrite idx_at by lia. rewrite filter_true; [rewrite Hn; apply N.eqb_refl|]. intros p Hp. apply points_cell in Hp as (u & _ & _ & H). apply N.ltb_lt. lia.
    - apply (sorted_of_nth _ (fun x => N.of_nat (length (filter (fun p => pcell p <? N.of_nat x) (h_points t))))).
      + intros x Hx. apply idx_at. lia.
      + intros a b H _. assert (L : Nat.le (length (filter (fun p => pcell p <? N.of_nat a) (h_points t))) (length (filter (fun p => pcell p <? N.of_nat b) (h_points t)))).
        { apply filter_len_mono. intros p _ Hp. apply N.ltb_lt in Hp. apply N.ltb_lt. lia. } lia.
    - apply forallb_forall. intros cid Hc. apply in_seq in Hc. rewrite !idx_at by lia. rewrite !Nat2N.id. rewrite (slice_sorted pcell _ _ _ points_sorted) by lia.
      apply forallb_forall. intros p Hp. apply filter_In in Hp as [_ Hp]. apply andb_prop in Hp as [H1%N.leb_le H2%N.ltb_lt]. apply N.eqb_eq. lia.
  Qed.
  Lemma layer_ok l : (l < h_layers t)%nat -> layer_asserts radii t l = true.
  Proof.
    intros Hl. pose proof (hs_layers _ _ _ _ _ _ TS) as HL. destruct (lev_ok radii angles Rd DI l ltac:(lia)) as (_ & _ & B30).
    destruct (hs_iter _ _ _ _ _ _ TS l 0 0 Hl ltac:(lia) root_lv) as (b & e & E1 & E2). unfold layer_asserts.
    unfold hcellIterators in E1. rewrite (proj2 (Nat.leb_gt _ _) Hl) in E1. rewrite (hs_first _ _ _ _ _ _ TS), (hs_level _ _ _ _ _ _ TS) in *.
    rewrite (map_nth_error _ l (seq 0 (hm Rd)) (nth_error_seq 0 (hm Rd) l ltac:(lia))) in *. cbn [obind Nat.add] in *.
    rewrite (map_nth_error _ l (seq 0 (hm Rd)) (nth_error_seq 0 (hm Rd) l ltac:(lia))) in *. cbn [obind Nat.add] in *.
    rewrite numCells_Some by lia. cbn [obind].
    unfold hlevelledCell in E1. rewrite (proj2 (N.ltb_ge (lev Rd l) 0)) in E1 by lia. rewrite N.sub_0_r, numCells_Some in E1 by lia. cbn [obind] in E1.
    rewrite firstCell_Some in E1 by lia. cbn [obind] in E1. rewrite hfc_0 in E1. cbn [N.ltb N.compare N.sub] in E1. change (0 <? 0) with false in E1. cbv iota in E1.
    rewrite N.mul_0_l in E1. change (w32 0) with 0 in E1. rewrite N.add_0_l in E1. cbn [obind] in E1. rewrite N.add_0_r in E1. pose proof (pow2_pos (lev Rd l)) as P. pose proof (pow2_lt (lev Rd l) 30 B30) as P2.
    change (2 ^ 30) with 1073741824 in P2. rewrite w32_small in E1 by (change (2 ^ 32) with 4294967296; lia). cbn [obind] in E1. replace (2 ^ lev Rd l - 1 + 1) with (2 ^ lev Rd l) in E1 by lia.
    destruct (nth_error (h_index t) (N.to_nat (hfirst Rd l))) as [pb|]; [|discriminate]. cbn [obind] in *.
    destruct (nth_error (h_index t) (N.to_nat (hfirst Rd l + 2 ^ lev Rd l))) as [pe|]; [|discriminate]. cbn [obind] in *. injection E1 as <- <-. rewrite E2.
    apply forallb_forall. intros p Hp. apply in_map_iff in Hp as (u & <- & Hu). apply filter_In in Hu as [Hu1 Hu2]. apply ord_In in Hu1.
    apply andb_prop in Hu2 as [Hlu%Nat.eqb_eq _]. rewrite (p_radius_eq radii angles Rd u Hu1).
    destruct (hlay_spec radii angles Rd DI u Hu1) as (_ & _ & R1 & R2). rewrite Hlu in R1, R2. rewrite (hs_R _ _ _ _ _ _ TS).
    apply andb_true_intro. split; apply Rleb_true; [left; exact R1|exact R2].
  Qed.
  Lemma build_asserts : dassert (input_asserts radii angles Rd) = Some tt /\
    dassert (level_asserts t && index_asserts radii t && forallb (layer_asserts radii t) (seq 0 (h_layers t)) && pair_level_asserts t) = Some tt.
  Proof.
    split; [apply dassert_true, input_ok|]. apply dassert_true. rewrite level_ok, index_ok, pair_level_ok, andb_true_r. cbn [andb]. apply forallb_forall.
    intros l Hl. apply in_seq in Hl. apply layer_ok. lia.
  Qed.
End DGen.

Theorem hrg_debug_iff radii angles T Rd hg part seed omp_max team : disc_input radii angles Rd -> Forall (fun r => r < Rd)%R radii -> (1 <= Rd)%R -> (0 <= T)%R -> (2 * T * ln 99 <= Rd)%R ->
  good_rng (hb hg) -> is_partition task_eq part -> (1 <= omp_max <= 2 ^ 17 + 1)%nat -> (1 <= omp_max <= N.to_nat (2 ^ 17))%nat -> (1 <= team <= omp_max)%nat ->
  forall o, hrg_debug radii angles part hg T Rd seed omp_max team o <-> hrg_outcome false part hg radii angles T Rd seed omp_max team o.
Proof.
  intros DI Hin HR1 HT HTR GG HP Ho1 Ho2 Hteam o. destruct (hbuild_ok radii angles T Rd DI omp_max Ho1) as (t & ord & TS & HO & HU).
  destruct (build_asserts radii angles T Rd DI Hin HR1 t ord TS) as [A1 A2].
  pose proof (generate_debug_iff radii angles T Rd DI Hin HR1 HT HTR t ord TS hg GG part HP seed omp_max team Ho2 Hteam) as GI.
  assert (K : forall ot, htree_debug radii angles T Rd omp_max ot <-> htree_outcome radii angles T Rd omp_max ot).
  { intros ot. unfold htree_debug. split.
    - intros (ot' & H1 & ->). rewrite (HU _ H1), A1. cbn [obind]. rewrite A2. cbn [obind]. exact HO.
    - intros H. exists ot. split; [exact H|]. rewrite (HU _ H), A1. cbn [obind]. rewrite A2. reflexivity. }
  clear Ho1 Ho2. unfold hrg_debug, hrg_outcome. split; intros (ot & H & R).
  - apply K in H. exists ot. split; [exact H|]. rewrite (HU _ H) in *. destruct R as (ors & G & R). exists ors. split; [apply GI; exact G|exact R].
  - exists ot. split; [apply K; exact H|]. rewrite (HU _ H) in *. destruct R as (ors & G & R). exists ors. split; [apply GI; exact G|exact R].
Qed.
