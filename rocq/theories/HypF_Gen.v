(** generate and generateEdges of hypergirgs over an arbitrary arithmetic. *)
From Coq Require Import Arith NArith ZArith List Bool Reals Permutation Lia Lra.
From Flocq Require Import Core.
From Verif Require Import Base Sched Bits_Model Bits_Proofs Coord_Model Coord_Proofs Coord_Geo IntSort_Model IntSort_Proofs Prop_IntSort Prefix_Model
  Tree_Model Cover Tree_Proofs Tree_Build Tree_Plan Tree_Run Girg_Model Girg_Proofs Girg_Num Hyp_Model Hyp_Math Hyp_Angle Hyp_Levels Hyp_Build Hyp_Run Hyp_Sched
  Hyp_Threads Hyp_Gen HypF_Model HypF_Build HypF_Run.
Import ListNotations.
Local Open Scope nat_scope.

(** the points u, v (in the disc (radii', angles')) are in cells so far apart that even the innermost points of their layers are not adjacent *)
Definition clearly_far (radii' angles' : list R) (Rd : R) (u v : nat) : Prop :=
  exists k, (k <= 64)%N /\ (cos (phi angles' u - phi angles' v) <= cos (half k))%R /\
    (0 <= rmin Rd (hlay radii' Rd u))%R /\ (0 <= rmin Rd (hlay radii' Rd v))%R /\
    (cosh Rd < hc (rmin Rd (hlay radii' Rd u)) (rmin Rd (hlay radii' Rd v)) (half k))%R.
Lemma clearly_far_sym radii' angles' Rd u v : clearly_far radii' angles' Rd u v -> clearly_far radii' angles' Rd v u.
Proof.
  intros (th & H1 & H2 & H3 & H4 & H5). exists th. split; [exact H1|]. split; [|split; [exact H4|split; [exact H3|now rewrite hc_sym]]].
  rewrite <- (cos_neg (phi angles' v - phi angles' u)). replace (- (phi angles' v - phi angles' u))%R with (phi angles' u - phi angles' v)%R by ring. exact H2.
Qed.
Lemma far_core radii angles T Rd (DI : disc_input radii angles Rd) t ord (TS : htree_spec radii angles T Rd t ord) A B l i j u v :
  hcall_ok Rd t (CallII A B l i j) -> In u (hV radii angles Rd ord i A l) -> In v (hV radii angles Rd ord j B l) -> clearly_far radii angles Rd u v.
Proof.
  intros Hok Hu Hv. destruct (nontouch_ring radii angles T Rd DI t ord TS A B l i j Hok) as (Hr & Hl2 & HAB). pose proof Hok as (HA & HB & Hi & Hj & Hl & Ht).
  destruct (half_range (l - 1)) as [Hh0 Hh1].
  assert (RW : (half (l - 1) <= IZR (Z.of_N (ring l A B) - 1) * wid l)%R) by (apply (ring_wid A B l); lia).
  apply (hV_In radii angles T Rd t ord TS) in Hu as (Hun & Hlu & Hcu). apply (hV_In radii angles T Rd t ord TS) in Hv as (Hvn & Hlv & Hcv).
  pose proof (HR radii angles Rd DI) as HR. pose proof (hs_disc _ _ _ _ _ _ TS) as HD. pose proof (hs_layers _ _ _ _ _ _ TS) as HL.
  assert (HK : (INR (h_layers t - 1) < Rd)%R) by (apply (lt_hm radii angles Rd DI); lia).
  destruct (base_pos Rd (h_layers t) i j HR HD HK Hi Hj ltac:(lia)) as [Ri Rj].
  destruct (base_spec Rd (h_layers t) i j HR HD HK Hi Hj) as (B1 & _).
  apply pbl_spec in B1 as [_ B1]; [|lra]. specialize (B1 (l - 1)%N ltac:(lia)). unfold far_at in B1.
  pose proof (phi_ok radii angles Rd DI u Hun) as Au. pose proof (phi_ok radii angles Rd DI v Hvn) as Av.
  exists (l - 1)%N. rewrite Hlu, Hlv. split; [lia|]. split; [|split; [lra|split; [lra|exact B1]]].
  apply cos_le_circ; [exact Au|exact Av|]. split; [lra|].
  eapply Rle_trans; [exact RW|]. rewrite <- Hcu, <- Hcv. now apply circ_lower.
Qed.

Section GenF.
  Variables (M : hmath) (radii angles radii' angles' : list R) (T Rd : R).
  Hypothesis FT : fits M radii angles radii' angles' Rd.
  Variables (t : htree) (ord : list nat) (TSF : htree_specF M radii angles radii' angles' T Rd t ord).
  Variables (hg : hrng) (GG : good_rng (hb hg)) (SO : hsound M (hb hg)) (nd : bool).
  Variables (part : list (N * N) -> list (N * N)) (HP : is_partition task_eq part).
  Notation n := (length radii).
  Notation DI := (ft_disc _ _ _ _ _ _ FT).
  Notation TS := (hf_spec _ _ _ _ _ _ _ _ _ TSF).
  Notation t' := (exact_tree radii' angles' Rd t ord).
  Notation levels := (h_levels t).
  Notation seqplan := (hseqplan Rd t').
  Notation plan := (hplan Rd t').
  Notation plan0 := (hplan Rd t' (N.to_nat (levels - 1)) 0%N 0%N 0%N).
  Notation keep := (hkeep T nd).
  Notation cpairs := (hcall_pairs radii' angles' Rd ord).
  Notation hits := (call_hits M radii angles radii' angles' Rd ord).
  Notation decided := (hdecidedF T (hb hg)).
  Notation hit := (hitF M radii angles radii' angles' Rd).
  Notation far := (clearly_far radii' angles' Rd).
  Lemma len_n : length radii' = n. Proof. apply FT. Qed.

  Record coversF (cs : list call) (rs : list (result (G (hb hg)))) : Prop := {
    cf_pairs : Permutation (flat_map pairs_of rs) (flat_map cpairs cs);
    cf_le : le_count (flat_map edges_of rs) (flat_map pairs_of rs);
    cf_checks : (fold_right Z.add 0 (map (fun r => type1 r + type2 r) rs) = 2 * Z.of_nat (length (flat_map pairs_of rs)))%Z;
    cf_zero : T = 0%R -> flat_map edges_of rs = flat_map hits cs }.
  Lemma coversF_all (calls : hunit -> list call) us rs :
    Forall2 (fun u r => decided r (flat_map cpairs (calls u)) (flat_map hits (calls u))) us rs -> coversF (flat_map calls us) rs.
  Proof.
    induction 1 as [|u r us rs [D1 D2 D3 D4] _ [C1 C2 C3 C4]]; cbn [flat_map map fold_right].
    - constructor; cbn; auto. intros x. apply Nat.le_refl.
    - constructor; cbn [flat_map map fold_right].
      + rewrite flat_map_app, D1. now apply Permutation_app_head.
      + now apply le_count_app.
      + rewrite app_length. lia.
      + intros H0. rewrite flat_map_app, <- (D4 H0), <- (C4 H0). reflexivity.
  Qed.
  Record hsampledF (rs : list (result (G (hb hg)))) : Prop := {
    sf_range : forall u v, In (u, v) (flat_map pairs_of rs) -> u < n /\ v < n /\ u <> v;
    sf_once : forall u v, u < n -> v < n -> u <> v -> cnt2 (flat_map pairs_of rs) u v <= 1;
    sf_all : nd && is_zero T = false -> forall u v, u < n -> v < n -> u <> v -> cnt2 (flat_map pairs_of rs) u v = 1;
    sf_le : le_count (flat_map edges_of rs) (flat_map pairs_of rs);
    sf_checks : (fold_right Z.add 0 (map (fun r => type1 r + type2 r) rs) = 2 * Z.of_nat (length (flat_map pairs_of rs)))%Z;
    sf_sound : T = 0%R -> forall u v, In (u, v) (flat_map edges_of rs) -> hit u v = true;
    sf_det : T = 0%R -> Permutation (flat_map edges_of rs) (flat_map hits plan0);
    sf_complete : T = 0%R -> forall u v, u < n -> v < n -> u <> v -> hit u v = true -> hit v u = true -> ~ far u v ->
      In (u, v) (flat_map edges_of rs) \/ In (v, u) (flat_map edges_of rs) }.
  Lemma sampledF_of cs rs : almost_plan T Rd t' nd cs -> coversF cs rs -> hsampledF rs.
  Proof.
    intros (dr & P & HD & HK) [C1 C2 C3 C4]. change (h_levels t') with levels in P.
    assert (Hin : forall x, In x (cs ++ dr) -> hcall_ok Rd t' x).
    { intros x Hx. apply (hplan0_ok radii' angles' T Rd DI t' ord TS). now apply (Permutation_in _ (Permutation_sym P)). }
    assert (PP : Permutation (flat_map cpairs plan0) (flat_map cpairs cs ++ flat_map cpairs dr)) by (rewrite <- flat_map_app; now apply Permutation_flat_map).
    assert (HPL : forall u v, u < n -> v < n -> u <> v -> cnt2 (flat_map cpairs plan0) u v = 1).
    { intros u v Hu Hv Hne. rewrite <- len_n in Hu, Hv. exact (hplan0_pairs radii' angles' T Rd DI t' ord TS u v Hu Hv Hne). }
    assert (Hc : forall u v, u < n -> v < n -> u <> v -> cnt2 (flat_map pairs_of rs) u v + cnt2 (flat_map cpairs dr) u v = 1).
    { intros u v Hu Hv Hne. rewrite <- (HPL u v Hu Hv Hne). rewrite (cnt2_perm _ _ u v C1).
      assert (E : cnt2 (flat_map cpairs plan0) u v = cnt2 (flat_map cpairs cs ++ flat_map cpairs dr) u v) by (apply cnt2_perm; exact PP).
      rewrite E. unfold cnt2. rewrite !count_occ_app. lia. }
    constructor; auto.
    - intros u v H. apply (Permutation_in _ C1) in H. apply in_flat_map in H as (x & Hx & H).
      destruct (hcall_pairs_In radii' angles' T Rd t' ord TS x u v H) as [Hu Hv]. rewrite len_n in Hu, Hv. split; [exact Hu|]. split; [exact Hv|].
      intros <-. revert H. apply (hcall_pairs_irrefl radii' angles' T Rd DI t' ord TS). apply Hin. apply in_or_app. now left.
    - intros u v Hu Hv Hne. specialize (Hc u v Hu Hv Hne). lia.
    - intros H u v Hu Hv Hne. specialize (Hc u v Hu Hv Hne). rewrite (HK H) in Hc. cbn [flat_map] in Hc. change (cnt2 [] u v) with 0 in Hc. lia.
    - intros H0 u v H. rewrite (C4 H0) in H. apply in_flat_map in H as (x & _ & H). destruct x as [A B l i j|A B l i j]; cbn [call_hits] in H; [|destruct H].
      apply filter_In in H as [_ H]. exact H.
    - intros H0. rewrite (C4 H0), (Permutation_flat_map hits P), flat_map_app.
      assert (E : flat_map hits dr = []).
      { apply incl_l_nil. intros x Hx. apply in_flat_map in Hx as (c & Hcin & Hx). pose proof (HD c Hcin) as HI. destruct c; [discriminate|destruct Hx]. }
      rewrite E, app_nil_r. reflexivity.
    - intros H0 u v Hu Hv Hne G1 G2 G3.
      assert (EI : forall x y, In (x, y) (flat_map cpairs plan0) -> hit x y = true -> ~ far x y -> In (x, y) (flat_map edges_of rs)).
      { intros x y H G G'. rewrite (C4 H0). apply (Permutation_in _ PP), in_app_or in H.
        assert (NII : forall c, In c (cs ++ dr) -> In (x, y) (cpairs c) -> isI c = true).
        { intros c Hcin Hp. destruct c as [A B l i j|A B l i j]; [reflexivity|]. exfalso. cbn [hcall_pairs] in Hp. apply in_prod_iff in Hp as [Hp1 Hp2].
          apply G'. exact (far_core radii' angles' T Rd DI t' ord TS A B l i j x y (Hin _ Hcin) Hp1 Hp2). }
        destruct H as [H|H]; apply in_flat_map in H as (c & Hcin & H).
        - apply in_flat_map. exists c. split; [exact Hcin|]. pose proof (NII c ltac:(apply in_or_app; now left) H) as HI.
          destruct c as [A B l i j|A B l i j]; [|discriminate]. cbn [call_hits]. apply filter_In. split; [exact H|exact G].
        - pose proof (NII c ltac:(apply in_or_app; now right) H) as HI. rewrite (HD c Hcin) in HI. discriminate. }
      pose proof (HPL u v Hu Hv Hne) as H1. unfold cnt2 in H1.
      destruct (in_dec pair_dec (u, v) (flat_map cpairs plan0)) as [Hin0|n0]; [left; now apply EI|right].
      apply EI; [|exact G2|intros F; apply G3; now apply clearly_far_sym].
      apply (count_occ_not_In pair_dec) in n0. apply (count_occ_In pair_dec). lia.
  Qed.

  Lemma seq_runF g : exists r, (do cs <- hvisitF M nd t (N.to_nat levels) 0 0 0; do r <- hrun_callsF M t (hb hg) cs g; Some [[r]]) = Some [[r]] /\
    decided r (flat_map cpairs (filter keep plan0)) (flat_map hits (filter keep plan0)).
  Proof.
    rewrite (visitF_eq M radii angles radii' angles' T Rd FT t ord TSF).
    rewrite (hvisit_eq radii' angles' T Rd DI t' ord TS nd (N.to_nat (levels - 1))).
    - cbn [obind]. destruct (hcalls_decidedF M radii angles radii' angles' T Rd FT t ord TSF (hb hg) GG SO (filter keep plan0)) with (g := g) as (r & E & D).
      + intros x Hx. apply filter_In in Hx as [Hx _]. now apply (hplan0_ok radii' angles' T Rd DI t' ord TS).
      + rewrite E. cbn [obind]. eauto.
    - pose proof (levels_pos radii' angles' T Rd t' ord TS). lia.
    - f_equal. change (h_levels t') with levels. lia.
    - lia.
    - exact root_lv.
    - exact root_lv.
  Qed.

  Section Par.
    Variables (nt : nat) (fpl : N) (ntask : N).
    Hypotheses (Hnt : 2 <= nt) (Hfpl : (2 <= fpl)%N) (Hlv : (fpl < levels)%N) (Hnum : num_tasks fpl = Some ntask).
    Notation sp := (seqplan fpl (N.to_nat (levels - 1)) 0%N 0%N 0%N).
    Notation created := (snd sp).
    Notation tasks := (part created).
    Variables (gens : list (G (hb hg))) (Hgens : length gens = nt - 1 + N.to_nat ntask).
    Notation ucalls := (unit_calls T Rd t' nd part nt fpl).
    Notation t_len := (tasks_len radii' angles' T Rd DI t' ord TS hg part HP nt fpl ntask Hnt Hfpl Hlv Hnum gens Hgens).
    Lemma unit_runF u : unit_ok nt ntask u -> exists r, unit_resultF M nd t hg fpl nt tasks gens u = Some r /\
      decided r (flat_map cpairs (ucalls u)) (flat_map hits (ucalls u)).
    Proof.
      destruct u as [tid|i]; cbn [unit_ok unit_resultF unit_calls]; intros Hu.
      - rewrite (sampleF_eq M radii angles radii' angles' T Rd FT t ord TSF).
        rewrite (hsample_eq radii' angles' T Rd DI t' ord TS fpl (nt - 1) Hlv (N.to_nat (levels - 1)) (N.to_nat fpl) 0%N 0%N 0%N tid); try exact root_lv; try lia;
          [|change (h_levels t') with levels; f_equal; lia].
        change (h_levels t') with levels.
        destruct (my_calls (nt - 1) tid (fst sp)) as [cs s'] eqn:Ec. cbn [obind].
        destruct (nth_error gens tid) as [g|] eqn:Eg; [|apply nth_error_None in Eg; lia]. cbn [obind fst].
        apply (hcalls_decidedF M radii angles radii' angles' T Rd FT t ord TSF (hb hg) GG SO). intros x Hx.
        apply (sp_ok radii' angles' T Rd DI t' ord TS hg nt fpl ntask Hnt Hfpl Hlv gens Hgens). apply (my_calls_In (nt - 1) tid). change (h_levels t') with levels. rewrite Ec. exact Hx.
      - change (h_levels t') with levels. destruct (nth_error tasks i) as [ab|] eqn:Ea; [|apply nth_error_None in Ea; pose proof t_len as TL; change (h_levels t') with levels in TL; lia]. cbn [obind].
        pose proof (nth_error_In _ _ Ea) as Hab. pose proof (Permutation_in _ (tasks_perm Rd t' part HP fpl) Hab) as Hab'.
        destruct (tasks_lv radii' angles' T Rd DI t' ord TS fpl Hlv (N.to_nat (levels - 1)) 0%N 0%N 0%N ltac:(lia) root_lv root_lv ab Hab') as [HA HB].
        rewrite (visitF_eq M radii angles radii' angles' T Rd FT t ord TSF).
        rewrite (hvisit_eq radii' angles' T Rd DI t' ord TS nd (N.to_nat (levels - 1 - fpl))); auto; try lia. cbn [obind].
        destruct (nth_error gens (nt - 1 + i)) as [g|] eqn:Eg; [|apply nth_error_None in Eg; lia]. cbn [obind].
        apply (hcalls_decidedF M radii angles radii' angles' T Rd FT t ord TSF (hb hg) GG SO). intros x Hx. apply filter_In in Hx as [Hx _].
        exact (task_ok radii' angles' T Rd DI t' ord TS hg part HP nt fpl ntask Hnt Hfpl Hlv gens Hgens ab x Hab Hx).
    Qed.
    Lemma par_runF k m fin : psteps nt true (length tasks) k m (pinit nt) fin -> pfinished fin ->
      exists rss, omap (thread_resultsF M nd t hg fpl nt tasks gens) (ps_threads fin) = Some rss /\ length rss = nt /\ hsampledF (concat rss) /\
        exists us, Permutation us (map USample (seq 0 (nt - 1)) ++ map UTask (seq 0 (length tasks))) /\
          omap (unit_resultF M nd t hg fpl nt tasks gens) us = Some (concat rss).
    Proof.
      intros HS HF. pose proof (final_units nt (length tasks) true eq_refl Hnt k m fin HS HF) as HU.
      set (us := flat_map t_units (ps_threads fin)) in *.
      assert (OK : forall u, In u us -> unit_ok nt ntask u).
      { pose proof t_len as TL. change (h_levels t') with levels in TL.
        intros u Hin. apply (Permutation_in _ HU), in_app_or in Hin. destruct Hin as [Hin|Hin]; apply in_map_iff in Hin as (i & <- & Hi); apply in_seq in Hi;
          cbn [unit_ok]; [|rewrite TL in Hi]; lia. }
      destruct (omap_exists (thread_resultsF M nd t hg fpl nt tasks gens) (fun _ _ => True) (ps_threads fin)) as (rss & E & _).
      { intros h Hh. unfold thread_resultsF.
        destruct (omap_exists (unit_resultF M nd t hg fpl nt tasks gens) (fun _ _ => True) (t_units h)) as (ys & E & _); [|eauto].
        intros u Hu. destruct (unit_runF u) as (r & Er & _); [|eauto]. apply OK. apply in_flat_map. eauto. }
      exists rss. split; [exact E|]. split.
      { rewrite (omap_length _ _ _ E). destruct (inv_steps nt (length tasks) true eq_refl Hnt k m fin HS) as (gpc & I). apply (pi_len _ _ _ _ I). }
      assert (EC : omap (unit_resultF M nd t hg fpl nt tasks gens) us = Some (concat rss)).
      { exact (omap_concat (unit_resultF M nd t hg fpl nt tasks gens) t_units (ps_threads fin) rss E). }
      split; [|exists us; auto].
      apply (sampledF_of (flat_map ucalls us)); [now apply (almost_par T Rd t' hg nd part HP nt fpl ntask Hnt Hfpl Hlv gens Hgens)|]. apply coversF_all.
      destruct (omap_exists (unit_resultF M nd t hg fpl nt tasks gens) (fun u r => decided r (flat_map cpairs (ucalls u)) (flat_map hits (ucalls u))) us) as (ys & E' & F).
      { intros u Hu. apply unit_runF. now apply OK. }
      rewrite EC in E'. injection E' as ->. exact F.
    Qed.
  End Par.

  Theorem generateF_ok seed nt team : 1 <= nt <= N.to_nat (2 ^ 17) -> 1 <= team <= nt ->
    (finishing t nt team -> exists rss, generate_outcomeF M nd part t hg seed nt team (Some rss)) /\
    (~ finishing t nt team -> forall o, ~ generate_outcomeF M nd part t hg seed nt team o) /\
    forall o, generate_outcomeF M nd part t hg seed nt team o -> exists rss, o = Some rss /\ length rss <= nt /\ hsampledF (concat rss).
  Proof.
    intros Hnt Hteam. unfold generate_outcomeF. destruct (Nat.eqb_spec nt 1) as [->|HN].
    - assert (S1 : forall r, decided r (flat_map cpairs (filter keep plan0)) (flat_map hits (filter keep plan0)) -> hsampledF [r]).
      { intros r D. apply (sampledF_of (filter keep plan0)); [apply (almost_seq T Rd t' nd)|].
        pose proof (coversF_all (fun _ => filter keep plan0) [USample 0] [r]) as C. cbn [flat_map] in C. rewrite app_nil_r in C. apply C. constructor; auto. }
      split; [|split].
      + intros _. destruct (seq_runF (rseed (hb hg) seed)) as (r & E & D). exists [[r]]. exists seed. split; [auto|]. now symmetry.
      + intros HF. exfalso. apply HF. left. lia.
      + intros o (s & _ & E). destruct (seq_runF (rseed (hb hg) s)) as (r & E' & D). rewrite E' in E. subst o. exists [[r]]. split; [reflexivity|].
        split; [cbn; lia|]. cbn [concat app]. now apply S1.
    - destruct (fpl_defined nt ltac:(lia)) as (fpl & Ef & Hf & _). destruct (num_tasks_defined fpl Hf) as (k & Ek). rewrite Ef. cbn [obind]. rewrite Ek. cbn [obind].
      destruct (task_count fpl k ltac:(lia) Ek) as (created & Ec & Lc). rewrite Ec.
      destruct (N.ltb_spec fpl levels) as [HL|HL].
      + pose proof (created_eq radii' angles' T Rd DI t' ord TS fpl ltac:(lia) HL) as Ec'. rewrite Ec in Ec'. injection Ec' as ->. change (h_levels t') with levels.
        destruct (Nat.eq_dec team nt) as [->|Hne].
        * split; [|split].
          -- intros _.
             destruct (can_finish nt (length (part (snd (seqplan fpl (N.to_nat (levels - 1)) 0%N 0%N 0%N)))) true 0 0 (pinit nt) eq_refl ltac:(lia) (psteps_refl _ _ _ _)) as (k' & fin & HS & HF).
             destruct (par_runF nt fpl k ltac:(lia) ltac:(lia) HL Ek (initialize_prngs hg (nt - 1 + N.to_nat k) seed) (prngs_len _ _ _) _ _ fin HS HF) as (rss & E & _).
             exists rss, seed. split; [auto|]. exists (k' + 0), 0, fin. rewrite E. auto.
          -- intros HF. exfalso. apply HF. right. split; [lia|]. split; [reflexivity|]. eauto.
          -- intros o (s & _ & k' & m & fin & HS & HF & ->).
             destruct (par_runF nt fpl k ltac:(lia) ltac:(lia) HL Ek (initialize_prngs hg (nt - 1 + N.to_nat k) s) (prngs_len _ _ _) _ _ fin HS HF) as (rss & E & L & S & _).
             exists rss. rewrite E. split; [reflexivity|]. split; [lia|exact S].
        * assert (NO : forall o : option (list (list (result (G (hb hg))))), ~ exists s, (0 <= seed -> s = seed)%Z /\ exists k' m fin, psteps nt true (length (part (snd (seqplan fpl (N.to_nat (levels - 1)) 0%N 0%N 0%N)))) k' m (pinit team) fin /\ pfinished fin /\
             o = omap (thread_resultsF M nd t hg fpl nt (part (snd (seqplan fpl (N.to_nat (levels - 1)) 0%N 0%N 0%N))) (initialize_prngs hg (nt - 1 + N.to_nat k) s)) (ps_threads fin)).
          { intros o (s & _ & k' & m & fin & HS & HF & _). revert HF.
            assert (H1 : true = false \/ team < nt) by (right; lia). assert (H2 : 2 <= nt) by lia. exact (never_finishes nt _ team true H1 H2 (proj1 Hteam) k' m fin HS). }
          split; [|split].
          -- intros [H|(_ & H & _)]; [lia|contradiction].
          -- intros _. exact NO.
          -- intros o H. exfalso. exact (NO o H).
      + assert (NO : forall o : option (list (list (result (G (hb hg))))), ~ exists s, (0 <= seed -> s = seed)%Z /\ exists k' m fin, psteps nt false (length (part created)) k' m (pinit team) fin /\ pfinished fin /\
             o = omap (thread_resultsF M nd t hg fpl nt (part created) (initialize_prngs hg (nt - 1 + N.to_nat k) s)) (ps_threads fin)).
          { intros o (s & _ & k' & m & fin & HS & HF & _). revert HF.
            assert (H1 : false = false \/ team < nt) by (left; reflexivity). assert (H2 : 2 <= nt) by lia. exact (never_finishes nt _ team false H1 H2 (proj1 Hteam) k' m fin HS). }
          split; [|split].
          -- intros [H|(_ & _ & fpl' & H1 & H2)]; [lia|]. rewrite Ef in H1. injection H1 as <-. lia.
          -- intros _. exact NO.
          -- intros o H. exfalso. exact (NO o H).
  Qed.

  Theorem generateF_repro seed nt team rss1 rss2 : 1 <= nt <= N.to_nat (2 ^ 17) -> 1 <= team <= nt -> (0 <= seed)%Z ->
    generate_outcomeF M nd part t hg seed nt team (Some rss1) -> generate_outcomeF M nd part t hg seed nt team (Some rss2) ->
    Permutation (concat rss1) (concat rss2) /\ (nt = 1 -> rss1 = rss2).
  Proof.
    intros Hnt Hteam Hs G1 G2. destruct (generateF_ok seed nt team Hnt Hteam) as (_ & NF & _).
    unfold generate_outcomeF in *. destruct (Nat.eqb_spec nt 1) as [->|HN].
    - destruct G1 as (s1 & E1 & G1), G2 as (s2 & E2 & G2). rewrite (E1 Hs) in G1. rewrite (E2 Hs) in G2. rewrite <- G1 in G2. injection G2 as ->. split; [reflexivity|auto].
    - split; [|intros; contradiction].
      destruct (fpl_defined nt ltac:(lia)) as (fpl & Ef & Hf & _). destruct (num_tasks_defined fpl Hf) as (k & Ek). rewrite Ef in *. cbn [obind] in *. rewrite Ek in *. cbn [obind] in *.
      destruct (task_count fpl k ltac:(lia) Ek) as (created & Ec & Lc). rewrite Ec in *.
      destruct (N.ltb_spec fpl levels) as [HL|HL].
      + destruct (Nat.eq_dec team nt) as [->|Hne].
        * pose proof (created_eq radii' angles' T Rd DI t' ord TS fpl ltac:(lia) HL) as Ec'. rewrite Ec in Ec'. injection Ec' as ->. change (h_levels t') with levels in *.
          destruct G1 as (s1 & E1 & k1 & m1 & f1 & HS1 & HF1 & G1), G2 as (s2 & E2 & k2 & m2 & f2 & HS2 & HF2 & G2). rewrite (E1 Hs) in G1. rewrite (E2 Hs) in G2.
          set (gens := initialize_prngs hg (nt - 1 + N.to_nat k) seed) in *. assert (HG : length gens = nt - 1 + N.to_nat k) by apply prngs_len.
          destruct (par_runF nt fpl k ltac:(lia) ltac:(lia) HL Ek gens HG _ _ f1 HS1 HF1) as (r1 & Q1 & _ & _ & us1 & U1 & V1).
          destruct (par_runF nt fpl k ltac:(lia) ltac:(lia) HL Ek gens HG _ _ f2 HS2 HF2) as (r2 & Q2 & _ & _ & us2 & U2 & V2).
          rewrite <- G1 in Q1. rewrite <- G2 in Q2. injection Q1 as <-. injection Q2 as <-.
          exact (omap_perm _ us1 us2 _ _ (Permutation_trans U1 (Permutation_sym U2)) V1 V2).
        * exfalso. apply (NF ltac:(intros [H|(_ & H & _)]; [lia|contradiction]) (Some rss1)). exact G1.
      + exfalso. apply (NF) with (o := Some rss1); [|exact G1]. intros [H|(_ & _ & fpl' & H1 & H2)]; [lia|]. rewrite Ef in H1. injection H1 as <-. lia.
  Qed.
End GenF.

(** ** hypergirgs::generateEdges *)
(** every run works on the same tree *)
Theorem hrgF_ok M radii angles radii' angles' T Rd : fits M radii angles radii' angles' Rd ->
  exists t ord, htree_specF M radii angles radii' angles' T Rd t ord /\
  forall hg nd part seed omp_max team, good_rng (hb hg) -> hsound M (hb hg) -> is_partition task_eq part ->
  1 <= omp_max <= 2 ^ 17 + 1 -> 1 <= omp_max <= N.to_nat (2 ^ 17) -> 1 <= team <= omp_max ->
    (finishing t omp_max team -> exists o, hrg_outcomeF M nd part hg radii angles T Rd seed omp_max team o) /\
    (~ finishing t omp_max team -> forall o, ~ hrg_outcomeF M nd part hg radii angles T Rd seed omp_max team o) /\
    forall o, hrg_outcomeF M nd part hg radii angles T Rd seed omp_max team o ->
      exists rss edges, generate_outcomeF M nd part t hg seed omp_max team (Some rss) /\ o = Some edges /\
        hsampledF M radii angles radii' angles' T Rd t ord hg nd (concat rss) /\ interleaving (map (fun rs => flat_map edges_of rs) rss) edges.
Proof.
  intros FT. destruct (hbuildF_det M radii angles radii' angles' T Rd FT) as (t & ord & TS & HB). exists t, ord. split; [exact TS|].
  intros hg nd part seed omp_max team GG SO HP Ho1 Ho2 Hteam. destruct (HB omp_max Ho1) as [HO HU].
  destruct (generateF_ok M radii angles radii' angles' T Rd FT t ord TS hg GG SO nd part HP seed omp_max team Ho2 Hteam) as (G1 & G2 & G3). split; [|split].
  - intros HF. destruct (G1 HF) as (rss & Hr). destruct (G3 _ Hr) as (rss' & [= <-] & L & _).
    destruct (collect_interleaving (2 ^ 20) omp_max (map (fun rs => flat_map edges_of rs) rss)) as [[o Hc] _]; [rewrite map_length; exact L|].
    exists o. exists (Some t). split; [exact HO|]. exists (Some rss). auto.
  - intros HF o (ot & Hot & H). rewrite (HU _ Hot) in H. destruct H as (ors & Hors & _). exact (G2 HF ors Hors).
  - intros o (ot & Hot & H). rewrite (HU _ Hot) in H. destruct H as (ors & Hors & H). destruct (G3 _ Hors) as (rss & -> & L & S).
    destruct (collect_interleaving (2 ^ 20) omp_max (map (fun rs => flat_map edges_of rs) rss)) as [_ HC]; [rewrite map_length; exact L|].
    destruct (HC o H) as (out & -> & IL). exists rss, out. auto.
Qed.
