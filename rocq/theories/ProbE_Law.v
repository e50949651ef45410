(** The law of the edges under an arbitrary rounding: all threads, all pairs (the argument of Prob_Law.v). *)
From Coq Require Import Arith NArith ZArith List Bool Reals Lra Lia Permutation.
From Coquelicot Require Import Coquelicot.
From Verif Require Import Base Sched Bits_Model Coord_Model Coord_Proofs Coord_Geo Coord_Torus IntSort_Model IntSort_Proofs Bits_Proofs Cover Tree_Model Tree_Proofs Tree_Build Tree_Plan Tree_Run Girg_Model Girg_Proofs Girg_Num
  Prop_Girg Prob_Spec Prob Prob_Events Prob_Girg Prob_Law ProbE_Girg.
Import ListNotations.
Local Open Scope R_scope.

Section Law2.
  Variables (E : fenv) (D : N) (ws : list R) (ps : list (list R)) (cfg : config) (P : tparams).
  Hypotheses (GR : good_rnd E) (HD : dim_ok D) (NO : num_ok E D ws P) (HL : length ws = length ps)
             (VP : List.Forall (valid_pos E D) ps) (Hn : (N.of_nat (length ws) < 2 ^ 31)%N).
  (** the envelope weight bounds the weight terms of its layers *)
  Hypothesis WB : forall i j, (i < p_layers P)%nat -> (j < p_layers P)%nat -> (Z.of_nat i + Z.of_nat j + 2 <= p_c P)%Z ->
    exists wub, w_upper_bound E P i j = Some wub /\ forall w w', In w ws -> In w' ws -> layer_index E (p_w0 P) w = Some i -> layer_index E (p_w0 P) w' = Some j -> rnd E (rnd E (w * w') / p_W P) <= wub.
  Hypothesis WP : forall w w', In w ws -> In w' ws -> 0 < rnd E (rnd E (w * w') / p_W P).
  Variables (t : tree) (ord : list nat) (TS : tree_spec E cfg D ws ps P t ord).
  Variables (a : R) (PM : pow_mono_at E a).
  Notation alpha := (AFin a).
  Notation n := (length ws).
  Notation mk := (Tree_Build.mk E cfg D ws ps P).
  Notation call_pairs := (call_pairs E cfg D ws ps P ord).
  Notation pe := (ProbE_Girg.pe E D ws ps cfg P a).
  Notation dropped := (ProbE_Girg.dropped E D ws ps cfg P ord a).
  Notation call_q := (ProbE_Girg.call_q E D ws ps cfg P ord a).
  Notation call_mean phi := (ProbE_Girg.call_mean E D ws ps cfg P ord a phi).
  Notation plan0 := (plan cfg D P (N.to_nat (p_levels P - 1)) 0%N 0%N 0%N).

  Lemma calls_ev_ok s xs : (forall x, In x xs -> call_ok cfg D P x) -> forall g r, run_calls E cfg D t alpha (tape_rng s) xs g = Some r -> List.Forall ev_ok (evs r).
  Proof.
    induction xs as [|x xs IH]; intros Hok g r; cbn [run_calls]; [intros [= <-]; constructor|].
    destruct (call_decided E cfg D ws ps P GR HD NO HL VP Hn t ord TS alpha (tape_rng s) (tape_good s) x g (Hok x (or_introl eq_refl))) as (r1 & E1 & D1).
    rewrite E1. cbn [obind]. destruct (run_calls E cfg D t alpha (tape_rng s) xs (gen r1)) as [r2|] eqn:E2; [|discriminate]. cbn [obind]. intros [= <-]. cbn [evs].
    apply List.Forall_app. split; [exact (call_ev_ok E cfg D t alpha (tape_rng s) x g r1 E1 (de_edges _ _ _ _ _ _ _ _ _ _ D1))|]. eapply IH; [|exact E2]. intros; apply Hok; now right.
  Qed.

  Definition threads (s : Z -> tape) (calls : list (list call)) (tapes : list tape) : option (list (result tape)) :=
    omap (fun cg => run_calls E cfg D t alpha (tape_rng s) (fst cg) (snd cg)) (combine calls tapes).
  Lemma threads_irr s1 s2 calls : forall tapes, threads s1 calls tapes = threads s2 calls tapes.
  Proof.
    unfold threads. induction calls as [|xs calls IH]; intros tapes; [reflexivity|]. destruct tapes as [|tp tapes]; [reflexivity|]. cbn [combine omap fst snd].
    specialize (IH tapes). pose proof (calls_irr E cfg D t alpha s1 s2 xs tp) as C. cbn [tape_rng G] in *.
    match goal with |- obind ?x ?f = obind ?y ?g => replace x with y by (symmetry; exact C); destruct y as [r|]; [|reflexivity] end. cbn [obind].
    match goal with |- obind ?x ?f = obind ?y ?g => replace x with y by (symmetry; exact IH) end. reflexivity.
  Qed.
  Definition thr_wt phi (o : option (list (result tape))) : R := match o with Some rs => ev_wt phi (flat_map evs rs) | None => 0 end.
  Lemma threads_law phi s calls : (forall x, In x (concat calls) -> call_ok cfg D P x) -> forall m, (length calls <= m)%nat ->
    expects_n m (fun tapes => thr_wt phi (threads s calls tapes)) (prodR (concat calls) (call_mean phi)).
  Proof.
    induction calls as [|xs calls IH]; intros Hok m Hm.
    - cbn [concat]. apply expects_n_ext with (f1 := fun _ => 1); [|apply expects_n_const]. intros ts _. reflexivity.
    - destruct m as [|m]; [cbn in Hm; lia|]. cbn [concat]. rewrite prodR_app. cbn [expects_n].
      specialize (IH ltac:(intros x Hx; apply Hok; cbn [concat]; apply in_or_app; now right) m ltac:(cbn in Hm; lia)).
      set (C := prodR (concat calls) (call_mean phi)) in *.
      exists (fun tp => KR (fun es _ => C * ev_wt phi es) (run_calls E cfg D t alpha (tape_rng s) xs tp)). split.
      + intros tp. destruct (run_calls E cfg D t alpha (tape_rng s) xs tp) as [r|] eqn:Er; cbn [KR].
        * apply expects_n_ext with (f1 := fun ts => ev_wt phi (evs r) * thr_wt phi (threads s calls ts)).
          { intros ts _. unfold threads. cbn [combine omap fst snd]. match goal with |- context [run_calls E cfg D t alpha (tape_rng s) xs ?z] => change (run_calls E cfg D t alpha (tape_rng s) xs z) with (run_calls E cfg D t alpha (tape_rng s) xs tp) end.
            match goal with |- _ = thr_wt phi (obind ?x _) => replace x with (Some r) by (symmetry; exact Er) end. cbn [obind]. fold (threads s calls ts).
            destruct (threads s calls ts) as [rs|]; cbn [obind thr_wt]; [|ring]. cbn [flat_map]. now rewrite ev_wt_app. }
          rewrite (Rmult_comm C). apply (expects_n_scal m (ev_wt phi (evs r))). exact IH.
        * apply expects_n_ext with (f1 := fun _ => 0); [|apply expects_n_const]. intros ts _. unfold threads. cbn [combine omap fst snd].
          match goal with |- _ = thr_wt phi (obind ?x _) => replace x with (@None (result tape)) by (symmetry; exact Er) end. reflexivity.
      + rewrite Rmult_comm. apply (calls_law E D ws ps cfg P GR HD NO HL VP Hn WB WP t ord TS a PM s phi xs).
        * intros x Hx. apply Hok. cbn [concat]. apply in_or_app. now left.
        * intros es. now apply ex_value.
  Qed.

  (** the probability of a pair: the code drops blocks with fewer than 10^-6 expected edges *)
  Definition qpair (u v : nat) : R := if existsb (fun x => dropped x && joinedb (call_pairs x) u v) plan0 then 0 else pe u v.
  Lemma pe_sym u v : pe u v = pe v u.
  Proof.
    unfold ProbE_Girg.pe, pnode, conn_prob, d_term, w_term, node_distance. rewrite (coord_distance_sym E GR (coord (mk u))). now rewrite (Rmult_comm (weight (mk u))).
  Qed.
  Lemma qpair_sym u v : qpair u v = qpair v u.
  Proof.
    unfold qpair. rewrite pe_sym. replace (existsb (fun x => dropped x && joinedb (call_pairs x) v u) plan0) with (existsb (fun x => dropped x && joinedb (call_pairs x) u v) plan0); [reflexivity|].
    induction plan0 as [|x l IH]; [reflexivity|]. cbn [existsb]. now rewrite IH, joinedb_comm.
  Qed.
  Lemma qpair_call x u v : In x plan0 -> In (u, v) (call_pairs x) -> call_q x u v = qpair u v.
  Proof.
    intros Hx Hp. pose proof (plan0_ok E cfg D ws ps P HD NO HL Hn t ord TS x Hx) as Hok.
    destruct (call_pairs_In E cfg D ws ps P HL Hn t ord TS x u v Hp) as [Hu Hv].
    assert (Hne : u <> v) by (intros <-; revert Hp; now apply (call_pairs_irrefl E cfg D ws ps P HD NO HL Hn t ord TS x u)).
    assert (Hj : joinedb (call_pairs x) u v = true) by (apply joinedb_In; now left).
    unfold ProbE_Girg.call_q, qpair. destruct (dropped x) eqn:Dx.
    - replace (existsb _ plan0) with true; [reflexivity|]. symmetry. apply existsb_exists. exists x. split; [exact Hx|]. now rewrite Dx, Hj.
    - replace (existsb _ plan0) with false; [reflexivity|]. symmetry. destruct (existsb _ plan0) eqn:Ex; [|reflexivity]. exfalso.
      apply existsb_exists in Ex as (y & Hy & Ey). apply andb_prop in Ey as [Dy Jy].
      assert (x = y); [|congruence]. apply (once_inj call_pairs plan0 u v); auto; [|now apply cnt2_joined|now apply cnt2_joined].
      now apply (plan0_pairs E cfg D ws ps P HD NO HL VP Hn t ord TS).
  Qed.
  Lemma qpair_cases u v : (u < n)%nat -> (v < n)%nat -> u <> v -> qpair u v = pe u v \/ (qpair u v = 0 /\ pe u v < 1 / 1000000).
  Proof.
    intros Hu Hv Hne. unfold qpair. destruct (existsb _ plan0) eqn:Ex; [|now left]. right. split; [reflexivity|].
    apply existsb_exists in Ex as (x & Hx & Exx). apply andb_prop in Exx as [Dx Jx]. pose proof (plan0_ok E cfg D ws ps P HD NO HL Hn t ord TS x Hx) as Hok.
    destruct x as [A B l i j|A B l i j]; [discriminate|]. cbn [ProbE_Girg.dropped] in Dx. apply andb_prop in Dx as [_ Dx]. apply Rltb_true in Dx.
    apply joinedb_In in Jx. cbn [Tree_Run.call_pairs] in Jx.
    assert (B1 : forall y z, In (y, z) (list_prod (V E cfg D ws ps P ord i A l) (V E cfg D ws ps P ord j B l)) -> pe y z < 1 / 1000000).
    { intros y z I. apply in_prod_iff in I as [I1 I2]. destruct (block_bound E D ws ps cfg P GR HD NO HL VP Hn WB WP t ord TS a PM A B l i j y z Hok I1 I2) as [[B0 B1] B2].
      eapply Rle_lt_trans; [exact B1|]. set (bm := block_max E D cfg P a A B l i j) in *.
      set (k := length (V E cfg D ws ps P ord i A l)) in *. set (m := length (V E cfg D ws ps P ord j B l)) in *.
      assert (Hk : (1 <= k * m)%nat). { assert (k <> 0%nat) by (unfold k; destruct (V _ _ _ _ _ _ _ i A l); [destruct I1|discriminate]). assert (m <> 0%nat) by (unfold m; destruct (V _ _ _ _ _ _ _ j B l); [destruct I2|discriminate]). nia. }
      apply le_INR in Hk. change (INR 1) with 1 in Hk. apply (gr_mono E GR) in Hk.
      assert (O1 : rnd E 1 = 1). { pose proof (gr_dyadic E GR 1 0 ltac:(cbn; lia) ltac:(lia)) as O. replace (1 / pow2R 0) with 1 in O by (unfold pow2R; cbn; lra). exact O. }
      rewrite O1 in Hk. apply Rnot_le_lt. intros C. apply (Rlt_not_le _ _ Dx). apply (gr_mono E GR). nra. }
    destruct Jx as [J|J]; [now apply B1|]. rewrite pe_sym. now apply B1.
  Qed.
  Lemma mean_all phi calls : Permutation (concat calls) plan0 ->
    prodR (concat calls) (call_mean (sym phi)) = prodR (all_pairs n) (fun uv => bern phi (qpair (fst uv) (snd uv)) (fst uv) (snd uv)).
  Proof.
    intros HP. rewrite (prodR_perm _ _ _ HP).
    transitivity (prodR (flat_map call_pairs plan0) (fun uv => bern (sym phi) (qpair (fst uv) (snd uv)) (fst uv) (snd uv))).
    - rewrite prodR_flat_map. apply prodR_ext. intros x Hx. unfold ProbE_Girg.call_mean. apply prodR_ext. intros [u v] Hp. cbn [fst snd]. now rewrite (qpair_call x u v Hx Hp).
    - rewrite (prodR_norm _ n (fun u v => bern (sym phi) (qpair u v) u v)).
      + apply prodR_ext. intros [u v] I. apply all_pairs_In in I. cbn [fst snd]. unfold bern, sym. now rewrite (proj2 (Nat.ltb_lt u v)) by lia.
      + intros u v I. apply in_flat_map in I as (x & Hx & I). destruct (call_pairs_In E cfg D ws ps P HL Hn t ord TS x u v I) as [Hu Hv]. repeat split; auto.
        intros <-. revert I. apply (call_pairs_irrefl E cfg D ws ps P HD NO HL Hn t ord TS x u). now apply (plan0_ok E cfg D ws ps P HD NO HL Hn t ord TS).
      + intros u v Hu Hv Hne. now apply (plan0_pairs E cfg D ws ps P HD NO HL VP Hn t ord TS).
      + intros u v. destruct (Nat.eq_dec u v) as [->|Hne]; [reflexivity|]. unfold bern. now rewrite qpair_sym, !(sym_comm phi u v) by exact Hne.
  Qed.
  Variables (seed : Z) (omp_max team : nat).
  Hypotheses (FP : fpl_ok D E omp_max) (HT : (1 <= team <= omp_max)%nat) (SD : seeds_defined seed omp_max = true) (Hs : (0 <= seed)%Z)
    (T1 : tree_outcome E cfg D ws ps omp_max (Some t)) (T2 : forall o, tree_outcome E cfg D ws ps omp_max o -> o = Some t).
  Theorem girg_law : forall out : list tape -> option (list (nat * nat)),
    (forall tapes, length tapes = omp_max -> girg_outcome E cfg (tape_rng (seeded seed tapes)) ws ps (AFin a) seed omp_max team (out tapes)) ->
    forall phi, expects_n omp_max (fun tapes => match out tapes with
        | Some edges => prodR (all_pairs (length ws)) (fun uv => phi (fst uv) (snd uv) (joinedb edges (fst uv) (snd uv)))
        | None => 0 end)
      (prodR (all_pairs (length ws)) (fun uv => bern phi (qpair (fst uv) (snd uv)) (fst uv) (snd uv))).
  Proof.
  pose proof (levels_eq _ cfg _ _ ps _ NO t ord TS) as HLE. pose proof (no_c _ _ _ _ NO) as Hc.
  intros out Hout phi.
  destruct (thread_calls_ok cfg D P (AFin a) HD Hc HLE E omp_max team FP HT) as (calls & Ec & Lc & HP).
  assert (HP0 : Permutation (concat calls) (plan cfg D P (N.to_nat (p_levels P - 1)) 0%N 0%N 0%N)).
  { rewrite HP. unfold full_plan. rewrite filter_true; [reflexivity|]. intros x _. unfold keep. cbn [is_inf]. rewrite andb_false_r. apply orb_true_r. }
  assert (Hok : forall x, In x (concat calls) -> call_ok cfg D P x).
  { intros x Hx. apply (Permutation_in _ HP0) in Hx. revert Hx. apply (plan0_ok E cfg D ws ps P HD NO HL Hn t ord TS). }
  rewrite <- (mean_all phi calls HP0).
  set (s0 := seeded 0 []).
  eapply expects_n_ext; [|apply (threads_law (sym phi) s0 calls Hok omp_max); lia].
  intros tapes Lt. specialize (Hout tapes Lt). set (s := seeded seed tapes) in *.
  assert (Lg0 : (length calls <= length tapes)%nat) by lia.
  destruct (threads_decided E cfg D ws ps P GR HD NO HL VP Hn t ord TS (AFin a) (tape_rng s) (tape_good s) calls tapes Lg0 Hok) as (rs & Er & HF).
  assert (Eth : threads s0 calls tapes = Some rs).
  { assert (Lg : (length tapes <? length calls)%nat = false) by (apply Nat.ltb_ge; lia). rewrite <- Er.
    change (run_threads E cfg D t (AFin a) (tape_rng s) calls tapes) with (if (length tapes <? length calls)%nat then None else threads s calls tapes). rewrite Lg. apply threads_irr. }
  rewrite Eth. cbn [thr_wt].
  assert (Ob : exists edges, out tapes = Some edges /\ interleaving (map edges_of rs) edges).
  { apply (girg_outcome_inv _ _ _ _ _ _ _ _ _ _ D HD) in Hout.
    2:{ pose proof (n_pos E D ws ps P NO HL Hn) as Np. rewrite HL in Np. destruct ps; [cbn in Np; lia|discriminate]. }
    2:{ intros p Ip. rewrite List.Forall_forall in VP. apply VP in Ip. apply Ip. }
    destruct Hout as (ot & Hot & Ho). rewrite (T2 ot Hot) in Ho.
    destruct Ho as (ors & Hors & Ho). unfold edges_outcome in Hors. rewrite SD in Hors. destruct Hors as (gens & Hg & ->).
    unfold gens_ok in Hg. rewrite (proj2 (Z.leb_le _ _) Hs) in Hg. rewrite <- Lt in Hg at 1. cbn [rseed tape_rng] in Hg. unfold s in Hg. rewrite seeded_gens in Hg. subst gens. fold s in Ho.
    rewrite (ts_P _ _ _ _ _ _ _ _ TS), Ec in Ho. cbn [obind] in Ho. rewrite Er in Ho.
    destruct (collect_interleaving (2 ^ 20) omp_max (map edges_of rs)) as [_ HC].
    { rewrite map_length, <- (Forall2_len _ _ _ HF). lia. }
    destruct (HC _ Ho) as (edges & -> & IL). eauto. }
  destruct Ob as (edges & -> & IL).
  assert (Hpairs : flat_map event_pairs (flat_map evs rs) = flat_map (Tree_Run.call_pairs E cfg D ws ps P ord) (concat calls)).
  { clear -HF. induction HF as [|xs r calls rs Hd HF IH]; [reflexivity|]. cbn [flat_map concat]. rewrite !flat_map_app, IH. f_equal. apply Hd. }
  assert (Hevok : List.Forall ev_ok (flat_map evs rs)).
  { assert (G : forall cs ts rs', (forall x, In x (concat cs) -> call_ok cfg D P x) -> threads s0 cs ts = Some rs' -> List.Forall ev_ok (flat_map evs rs')).
    { clear -GR HD NO HL VP Hn TS. induction cs as [|xs cs IH]; intros ts rs' Hk; unfold threads; [intros [= <-]; constructor|]. destruct ts as [|tp ts]; [intros [= <-]; constructor|].
      cbn [combine omap fst snd]. destruct (run_calls E cfg D t (AFin a) (tape_rng s0) xs tp) as [r|] eqn:E1; [|discriminate]. cbn [obind]. fold (threads s0 cs ts).
      destruct (threads s0 cs ts) as [rr|] eqn:E2; [|discriminate]. cbn [obind]. intros [= <-]. cbn [flat_map]. apply List.Forall_app. split.
      - eapply (calls_ev_ok s0 xs); [|exact E1]. intros x Hx. apply Hk. cbn [concat]. apply in_or_app. now left.
      - eapply IH; [|exact E2]. intros x Hx. apply Hk. cbn [concat]. apply in_or_app. now right. }
    exact (G calls tapes rs Hok Eth). }
  pose proof (graph_weight phi (flat_map evs rs) (length ws) Hevok) as GW. etransitivity; [symmetry; apply GW|].
  3:{ apply prodR_ext. intros [u v] _. cbn [fst snd]. f_equal. apply eq_true_iff_eq. rewrite !joinedb_In.
    assert (Q : forall x, In x (flat_map event_edges (flat_map evs rs)) <-> In x edges); [|now rewrite !Q].
    intros x. rewrite (edges_In rs edges x IL). clear. unfold edges_of. induction rs as [|r rs IH]; cbn [flat_map]; [reflexivity|]. rewrite flat_map_app, !in_app_iff, IH. reflexivity. }
  - intros u v I. rewrite Hpairs in I. apply in_flat_map in I as (x & Hx & I). destruct (call_pairs_In E cfg D ws ps P HL Hn t ord TS x u v I) as [Hu Hv]. repeat split; auto.
    intros <-. revert I. apply (call_pairs_irrefl E cfg D ws ps P HD NO HL Hn t ord TS x u). now apply Hok.
  - intros u v Hu Hv Hne. rewrite Hpairs, (cnt2_perm _ _ u v (flat_map_perm_list _ _ _ HP0)). now apply (plan0_pairs E cfg D ws ps P HD NO HL VP Hn t ord TS).
Qed.

(** there are results for all values of the draws *)
Lemma girg_runs : exists out : list tape -> option (list (nat * nat)),
    forall tapes, girg_outcome E cfg (tape_rng (seeded seed tapes)) ws ps (AFin a) seed omp_max team (out tapes).
Proof.
  set (gens := fun tapes => map (fun k => rseed (tape_rng (seeded seed tapes)) (seed + Z.of_nat k)) (seq 0 omp_max)).
  set (ors := fun tapes => (do calls <- thread_calls E cfg D (tP t) (AFin a) omp_max team; run_threads E cfg D t (AFin a) (tape_rng (seeded seed tapes)) calls (gens tapes))).
  exists (fun tapes => match ors tapes with None => None | Some rs =>
    (do s <- brun (2 ^ 20) (concat (map (fun tc => thread_acts (fst tc) (snd tc)) (combine (seq 0 (length (map edges_of rs))) (map edges_of rs)))) (repeat [] omp_max, []); Some (snd s ++ concat (fst s))) end).
  intros tapes. generalize T1 VP NO HL. destruct ps as [|p0 ps'] eqn:Eps; intros T1' VP' NO' HL'.
  { pose proof (n_pos E D ws [] P NO HL' Hn) as Np. cbn in HL'. lia. }
  inversion_clear VP' as [|? ? [V1 _] _]. unfold girg_outcome. rewrite V1, N2Nat.id.
  assert (EDb : ((1 <=? D) && (D <=? 5))%N = true) by (apply andb_true_intro; pose proof HD as HD1; unfold dim_ok in HD1; split; apply N.leb_le; lia). rewrite EDb.
  exists (Some t). split; [exact T1'|]. exists (ors tapes). split.
  - unfold edges_outcome. rewrite SD. exists (gens tapes). split; [|reflexivity]. unfold gens_ok. now rewrite (proj2 (Z.leb_le _ _) Hs).
  - destruct (ors tapes) as [rs|]; [|reflexivity]. unfold collect. eexists. split; [apply interleaving_concat|reflexivity].
Qed.
End Law2.
