(** The law of the edges: all threads, all pairs. *)
From Coq Require Import Arith NArith ZArith List Bool Reals Lra Lia Permutation.
From Coquelicot Require Import Coquelicot.
From Verif Require Import Base Sched Bits_Model Coord_Model Coord_Proofs Coord_Geo Coord_Torus IntSort_Model IntSort_Proofs Cover Tree_Model Tree_Proofs Tree_Build Tree_Plan Tree_Run Girg_Model Girg_Proofs Girg_Num
  Prop_Girg Prob_Spec Prob Prob_Events Prob_Girg.
Import ListNotations.
Local Open Scope R_scope.

Lemma expects_scal c f v : expects f v -> expects (fun t => c * f t) (c * v).
Proof.
  intros H. induction H as [f v H|f g v H IH HI].
  - apply ex_value. intros t. now rewrite H.
  - apply ex_draw with (g := fun x => c * g x); [exact IH|]. apply (is_RInt_scal (V := R_NormedModule) g 0 1 c v HI).
Qed.
Lemma expects_n_scal n : forall c f v, expects_n n f v -> expects_n n (fun t => c * f t) (c * v).
Proof.
  induction n as [|n IH]; intros c f v; cbn [expects_n]; [now intros ->|]. intros (g & H1 & H2). exists (fun t => c * g t). split; [|now apply expects_scal].
  intros t. apply (IH c (fun ts => f (t :: ts))), H1.
Qed.
Lemma map_nth_seq {A} (l : list A) d : map (fun k => nth k l d) (seq 0 (length l)) = l.
Proof.
  induction l as [|x l IH]; [reflexivity|]. cbn [length seq map nth]. f_equal. rewrite <- seq_shift, map_map. exact IH.
Qed.
Lemma seeded_gens seed tapes : map (fun k => seeded seed tapes (seed + Z.of_nat k)%Z) (seq 0 (length tapes)) = tapes.
Proof.
  transitivity (map (fun k => nth k tapes (fun _ => zero_draw)) (seq 0 (length tapes))); [|apply map_nth_seq].
  apply map_ext. intros k. unfold seeded. f_equal. lia.
Qed.
(** only one call decides a given pair *)
Lemma once_inj (f : call -> list (nat * nat)) L u v x y : cnt2 (flat_map f L) u v = 1%nat -> In x L -> In y L -> (1 <= cnt2 (f x) u v)%nat -> (1 <= cnt2 (f y) u v)%nat -> x = y.
Proof.
  intros H Hx Hy Cx Cy. apply in_split in Hx as (l1 & l2 & ->). rewrite flat_map_app in H. cbn [flat_map] in H. rewrite !cnt2_app in H.
  apply in_app_or in Hy. destruct Hy as [Hy|[Hy|Hy]]; [|exact Hy|]; exfalso; apply in_split in Hy as (m1 & m2 & ->); rewrite flat_map_app in H; cbn [flat_map] in H; rewrite !cnt2_app in H; lia.
Qed.
Lemma cnt2_joined L u v : (1 <= cnt2 L u v)%nat <-> joinedb L u v = true.
Proof. rewrite joinedb_In, <- !cnt_In. unfold cnt2. lia. Qed.

(** the shape of what one call does *)
Lemma decideI_pairs E D W alpha rg xs : forall g, List.Forall (fun e => match e with EPair _ _ _ => True | _ => False end) (fst (decideI E D W alpha rg xs g)).
Proof.
  induction xs as [|[a b] xs IH]; intros g; [constructor|]. cbn [decideI]. destruct (match alpha with AInf => _ | AFin _ => _ end) as [hit g1].
  specialize (IH g1). destruct (decideI E D W alpha rg xs g1) as [es g2]. cbn [fst] in *. now constructor.
Qed.
Lemma pairs_ev_ok es : List.Forall (fun e => match e with EPair _ _ _ => True | _ => False end) es -> List.Forall ev_ok es.
Proof.
  intros H. eapply List.Forall_impl; [|exact H]. intros [u v [|]|us vs hits] He x; cbn; try tauto.
Qed.
Lemma single_ev_ok e : le_count (flat_map event_edges [e]) (flat_map event_pairs [e]) -> ev_ok e.
Proof. intros H x Hx. pose proof (le_count_incl _ _ x H) as I. cbn [flat_map] in I. rewrite !app_nil_r in I. now apply I. Qed.
Lemma typeI_ev_ok E D t alpha rg A B l i j g r : sampleTypeI E D t alpha rg A B l i j g = Some r -> List.Forall ev_ok (evs r).
Proof.
  unfold sampleTypeI. destruct (nodes_in D t i A l) as [ra|]; [|discriminate]. cbn [obind]. destruct (nodes_in D t j B l) as [rb|]; [|discriminate]. cbn [obind].
  destruct ra as [|x ra]; [intros [= <-]; constructor|]. destruct rb as [|y rb]; [intros [= <-]; constructor|].
  pose proof (decideI_pairs E D (p_W (tP t)) alpha rg (pairsI ((A =? B)%N && (i =? j)%nat) 0 (x :: ra) (y :: rb)) g) as H.
  destruct (decideI _ _ _ _ _ _ _) as [es g']. intros [= <-]. cbn [evs fst] in *. now apply pairs_ev_ok.
Qed.
Lemma call_ev_ok E cfg D t alpha rg x g r : run_call E cfg D t alpha rg x g = Some r -> le_count (edges_of r) (pairs_of r) -> List.Forall ev_ok (evs r).
Proof.
  destruct x as [A B l i j|A B l i j]; cbn [run_call]; intros H HL; [eapply typeI_ev_ok; exact H|].
  unfold sampleTypeII in H. destruct (nodes_in D t i A l) as [ra|]; [|discriminate]. cbn [obind] in H. destruct (nodes_in D t j B l) as [rb|]; [|discriminate]. cbn [obind] in H.
  assert (H' : List.Forall ev_ok (evs r) \/ exists e, evs r = [e]).
  { destruct ra as [|x ra]; [injection H as <-; left; constructor|]. destruct rb as [|y rb]; [injection H as <-; left; constructor|].
    destruct (w_upper_bound E (tP t) i j); [|discriminate]. cbn [obind] in H. destruct (dist_lower_bound E cfg D A B l); [|discriminate]. cbn [obind] in H.
    destruct (Rltb _ _); [left; eapply typeI_ev_ok; exact H|]. destruct (Rltb _ _); [injection H as <-; right; eexists; reflexivity|].
    destruct (geo rg _ g) as [k0 g1]. destruct (skip_loop _ _ _ _ _ _ _ _ _ _ _) as [[hits g2]|]; [|discriminate]. cbn [obind] in H. injection H as <-. right. eexists. reflexivity. }
  destruct H' as [H'|(e & Ee)]; [exact H'|]. unfold edges_of, pairs_of in HL. rewrite Ee in *. constructor; [|constructor]. now apply single_ev_ok.
Qed.

Section Law2.
  Context {D : N} {ws : list R} {ps : list (list R)} {seed : Z} {omp_max team : nat} (HI : girg_input D ws ps seed omp_max team).
  Variables (cfg : config) (P : tparams) (NO : num_ok ideal_env D ws P) (IP : ideal_params ws P).
  Variables (t : tree) (ord : list nat) (TS : tree_spec ideal_env cfg D ws ps P t ord).
  Variables (a : R) (Ha : 0 <= a).
  Notation alpha := (AFin a).
  Notation HD := (gi_dim _ _ _ _ _ _ HI).
  Notation HL := (gi_len _ _ _ _ _ _ HI).
  Notation Hn := (gi_n _ _ _ _ _ _ HI).
  Notation n := (length ws).
  Notation mk := (Tree_Build.mk ideal_env cfg D ws ps P).
  Notation call_pairs := (call_pairs ideal_env cfg D ws ps P ord).
  Notation pe := (@pe D ws ps cfg P a).
  Notation dropped := (@dropped D ws ps cfg P ord a).
  Notation call_q := (@call_q D ws ps cfg P ord a).
  Notation call_mean phi := (@call_mean D ws ps cfg P ord a phi).
  Notation plan0 := (plan cfg D P (N.to_nat (p_levels P - 1)) 0%N 0%N 0%N).

  Lemma calls_ev_ok s xs : (forall x, In x xs -> call_ok cfg D P x) -> forall g r, run_calls ideal_env cfg D t alpha (tape_rng s) xs g = Some r -> List.Forall ev_ok (evs r).
  Proof.
    induction xs as [|x xs IH]; intros Hok g r; cbn [run_calls]; [intros [= <-]; constructor|].
    destruct (call_decided ideal_env cfg D ws ps P ideal_good HD NO HL (use_vp HI) Hn t ord TS alpha (tape_rng s) (tape_good s) x g (Hok x (or_introl eq_refl))) as (r1 & E1 & D1).
    rewrite E1. cbn [obind]. destruct (run_calls ideal_env cfg D t alpha (tape_rng s) xs (gen r1)) as [r2|] eqn:E2; [|discriminate]. cbn [obind]. intros [= <-]. cbn [evs].
    apply List.Forall_app. split; [exact (call_ev_ok ideal_env cfg D t alpha (tape_rng s) x g r1 E1 (de_edges _ _ _ _ _ _ _ _ _ _ D1))|]. eapply IH; [|exact E2]. intros; apply Hok; now right.
  Qed.

  Definition threads (s : Z -> tape) (calls : list (list call)) (tapes : list tape) : option (list (result tape)) :=
    omap (fun cg => run_calls ideal_env cfg D t alpha (tape_rng s) (fst cg) (snd cg)) (combine calls tapes).
  Lemma threads_irr s1 s2 calls : forall tapes, threads s1 calls tapes = threads s2 calls tapes.
  Proof.
    unfold threads. induction calls as [|xs calls IH]; intros tapes; [reflexivity|]. destruct tapes as [|tp tapes]; [reflexivity|]. cbn [combine omap fst snd].
    specialize (IH tapes). pose proof (calls_irr ideal_env cfg D t alpha s1 s2 xs tp) as C. cbn [tape_rng G] in *.
    match goal with |- obind ?x ?f = obind ?y ?g => replace x with y by (symmetry; exact C); destruct y as [r|]; [|reflexivity] end. cbn [obind].
    match goal with |- obind ?x ?f = obind ?y ?g => replace x with y by (symmetry; exact IH) end. reflexivity.
  Qed.
  Definition thr_wt phi (o : option (list (result tape))) : R := match o with Some rs => ev_wt phi (flat_map evs rs) | None => 0 end.
  Lemma threads_law phi s calls : (forall x, In x (concat calls) -> call_ok cfg D P x) -> forall m, (length calls <= m)%nat ->
    expects_n m (fun tapes => thr_wt phi (threads s calls tapes)) (prodR (concat calls) (call_mean phi)).
  Proof.
    induction calls as [|xs calls IH]; intros Hok m Hm.
    - cbn [concat]. apply expects_n_ext with (f1 := fun _ => 1); [|apply expects_n_const]. intros ts _. reflexivity.
    - destruct m as [|m]; [cbn in Hm; lia|]. cbn [concat]. rewrite prodR_app. cbn [expects_n].
      specialize (IH ltac:(intros x Hx; apply Hok; cbn [concat]; apply in_or_app; now right) m ltac:(cbn in Hm; lia)).
      set (C := prodR (concat calls) (call_mean phi)) in *.
      exists (fun tp => KR (fun es _ => C * ev_wt phi es) (run_calls ideal_env cfg D t alpha (tape_rng s) xs tp)). split.
      + intros tp. destruct (run_calls ideal_env cfg D t alpha (tape_rng s) xs tp) as [r|] eqn:Er; cbn [KR].
        * apply expects_n_ext with (f1 := fun ts => ev_wt phi (evs r) * thr_wt phi (threads s calls ts)).
          { intros ts _. unfold threads. cbn [combine omap fst snd]. match goal with |- context [run_calls ideal_env cfg D t alpha (tape_rng s) xs ?z] => change (run_calls ideal_env cfg D t alpha (tape_rng s) xs z) with (run_calls ideal_env cfg D t alpha (tape_rng s) xs tp) end.
            match goal with |- _ = thr_wt phi (obind ?x _) => replace x with (Some r) by (symmetry; exact Er) end. cbn [obind]. fold (threads s calls ts).
            destruct (threads s calls ts) as [rs|]; cbn [obind thr_wt]; [|ring]. cbn [flat_map]. now rewrite ev_wt_app. }
          rewrite (Rmult_comm C). apply (expects_n_scal m (ev_wt phi (evs r))). exact IH.
        * apply expects_n_ext with (f1 := fun _ => 0); [|apply expects_n_const]. intros ts _. unfold threads. cbn [combine omap fst snd].
          match goal with |- _ = thr_wt phi (obind ?x _) => replace x with (@None (result tape)) by (symmetry; exact Er) end. reflexivity.
      + rewrite Rmult_comm. apply (calls_law HI cfg P NO IP t ord TS a Ha s phi xs).
        * intros x Hx. apply Hok. cbn [concat]. apply in_or_app. now left.
        * intros es. now apply ex_value.
  Qed.

  (** the probability of a pair: the code drops blocks with fewer than 10^-6 expected edges *)
  Definition qpair (u v : nat) : R := if existsb (fun x => dropped x && joinedb (call_pairs x) u v) plan0 then 0 else pe u v.
  Lemma pe_sym u v : pe u v = pe v u.
  Proof.
    unfold Prob_Girg.pe, pnode, conn_prob, d_term, w_term, node_distance. rewrite (coord_distance_sym ideal_env ideal_good (coord (mk u))). now rewrite (Rmult_comm (weight (mk u))).
  Qed.
  Lemma qpair_sym u v : qpair u v = qpair v u.
  Proof.
    unfold qpair. rewrite pe_sym. replace (existsb (fun x => dropped x && joinedb (call_pairs x) v u) plan0) with (existsb (fun x => dropped x && joinedb (call_pairs x) u v) plan0); [reflexivity|].
    induction plan0 as [|x l IH]; [reflexivity|]. cbn [existsb]. now rewrite IH, joinedb_comm.
  Qed.
  Lemma qpair_call x u v : In x plan0 -> In (u, v) (call_pairs x) -> call_q x u v = qpair u v.
  Proof.
    intros Hx Hp. pose proof (plan0_ok ideal_env cfg D ws ps P HD NO HL Hn t ord TS x Hx) as Hok.
    destruct (call_pairs_In ideal_env cfg D ws ps P HL Hn t ord TS x u v Hp) as [Hu Hv].
    assert (Hne : u <> v) by (intros <-; revert Hp; now apply (call_pairs_irrefl ideal_env cfg D ws ps P HD NO HL Hn t ord TS x u)).
    assert (Hj : joinedb (call_pairs x) u v = true) by (apply joinedb_In; now left).
    unfold Prob_Girg.call_q, qpair. destruct (dropped x) eqn:Dx.
    - replace (existsb _ plan0) with true; [reflexivity|]. symmetry. apply existsb_exists. exists x. split; [exact Hx|]. now rewrite Dx, Hj.
    - replace (existsb _ plan0) with false; [reflexivity|]. symmetry. destruct (existsb _ plan0) eqn:Ex; [|reflexivity]. exfalso.
      apply existsb_exists in Ex as (y & Hy & Ey). apply andb_prop in Ey as [Dy Jy].
      assert (x = y); [|congruence]. apply (once_inj call_pairs plan0 u v); auto; [|now apply cnt2_joined|now apply cnt2_joined].
      now apply (plan0_pairs ideal_env cfg D ws ps P HD NO HL (use_vp HI) Hn t ord TS).
  Qed.
  Lemma qpair_cases u v : (u < n)%nat -> (v < n)%nat -> u <> v -> qpair u v = pe u v \/ (qpair u v = 0 /\ pe u v < 1 / 1000000).
  Proof.
    intros Hu Hv Hne. unfold qpair. destruct (existsb _ plan0) eqn:Ex; [|now left]. right. split; [reflexivity|].
    apply existsb_exists in Ex as (x & Hx & E). apply andb_prop in E as [Dx Jx]. pose proof (plan0_ok ideal_env cfg D ws ps P HD NO HL Hn t ord TS x Hx) as Hok.
    destruct x as [A B l i j|A B l i j]; [discriminate|]. cbn [Prob_Girg.dropped] in Dx. apply andb_prop in Dx as [_ Dx]. apply Rltb_true in Dx.
    apply joinedb_In in Jx. cbn [Tree_Run.call_pairs] in Jx.
    assert (B1 : forall y z, In (y, z) (list_prod (V ideal_env cfg D ws ps P ord i A l) (V ideal_env cfg D ws ps P ord j B l)) -> pe y z < 1 / 1000000).
    { intros y z I. apply in_prod_iff in I as [I1 I2]. destruct (block_bound HI cfg P NO IP t ord TS a Ha A B l i j y z Hok I1 I2) as [[B0 B1] B2].
      eapply Rle_lt_trans; [exact B1|]. eapply Rle_lt_trans; [|exact Dx]. set (bm := block_max cfg P a A B l i j) in *.
      set (k := length (V ideal_env cfg D ws ps P ord i A l)) in *. set (m := length (V ideal_env cfg D ws ps P ord j B l)) in *.
      assert (Hk : (1 <= k * m)%nat). { assert (k <> 0%nat) by (unfold k; destruct (V _ _ _ _ _ _ _ i A l); [destruct I1|discriminate]). assert (m <> 0%nat) by (unfold m; destruct (V _ _ _ _ _ _ _ j B l); [destruct I2|discriminate]). nia. }
      apply le_INR in Hk. change (INR 1) with 1 in Hk. nra. }
    destruct Jx as [J|J]; [now apply B1|]. rewrite pe_sym. now apply B1.
  Qed.
  Lemma mean_all phi calls : Permutation (concat calls) plan0 ->
    prodR (concat calls) (call_mean (sym phi)) = prodR (all_pairs n) (fun uv => bern phi (qpair (fst uv) (snd uv)) (fst uv) (snd uv)).
  Proof.
    intros HP. rewrite (prodR_perm _ _ _ HP).
    transitivity (prodR (flat_map call_pairs plan0) (fun uv => bern (sym phi) (qpair (fst uv) (snd uv)) (fst uv) (snd uv))).
    - rewrite prodR_flat_map. apply prodR_ext. intros x Hx. unfold Prob_Girg.call_mean. apply prodR_ext. intros [u v] Hp. cbn [fst snd]. now rewrite (qpair_call x u v Hx Hp).
    - rewrite (prodR_norm _ n (fun u v => bern (sym phi) (qpair u v) u v)).
      + apply prodR_ext. intros [u v] I. apply all_pairs_In in I. cbn [fst snd]. unfold bern, sym. now rewrite (proj2 (Nat.ltb_lt u v)) by lia.
      + intros u v I. apply in_flat_map in I as (x & Hx & I). destruct (call_pairs_In ideal_env cfg D ws ps P HL Hn t ord TS x u v I) as [Hu Hv]. repeat split; auto.
        intros <-. revert I. apply (call_pairs_irrefl ideal_env cfg D ws ps P HD NO HL Hn t ord TS x u). now apply (plan0_ok ideal_env cfg D ws ps P HD NO HL Hn t ord TS).
      + intros u v Hu Hv Hne. now apply (plan0_pairs ideal_env cfg D ws ps P HD NO HL (use_vp HI) Hn t ord TS).
      + intros u v. destruct (Nat.eq_dec u v) as [->|Hne]; [reflexivity|]. unfold bern. now rewrite qpair_sym, !(sym_comm phi u v) by exact Hne.
  Qed.
End Law2.

Lemma girg_outcome_inv E cfg rg ws ps alpha seed omp_max team o D : (1 <= D <= 5)%N -> ps <> [] -> (forall p, In p ps -> length p = N.to_nat D) ->
  girg_outcome E cfg rg ws ps alpha seed omp_max team o ->
  exists ot, tree_outcome E cfg D ws ps omp_max ot /\
    match ot with None => o = None | Some t =>
      exists ors, edges_outcome E cfg D t alpha rg seed omp_max team ors /\
        match ors with None => o = None | Some rs => collect (2 ^ 20) omp_max (map edges_of rs) o end end.
Proof.
  intros HD Hne HL H. destruct ps as [|p0 ps']; [congruence|]. unfold girg_outcome in H. rewrite (HL p0 (or_introl eq_refl)), N2Nat.id in H.
  assert (EDb : ((1 <=? D) && (D <=? 5))%N = true) by (apply andb_true_intro; split; apply N.leb_le; lia). rewrite EDb in H. exact H.
Qed.

Theorem girg_law cfg D ws ps seed omp_max team a : girg_input D ws ps seed omp_max team -> (0 <= seed)%Z -> 0 <= a ->
  exists P t ord q, num_ok ideal_env D ws P /\ ideal_params ws P /\ tree_spec ideal_env cfg D ws ps P t ord /\ tree_outcome ideal_env cfg D ws ps omp_max (Some t) /\ q = @qpair D ws ps cfg P ord a /\
    (forall u v, (u < length ws)%nat -> (v < length ws)%nat -> u <> v -> q u v = @pe D ws ps cfg P a u v \/ (q u v = 0 /\ @pe D ws ps cfg P a u v < 1 / 1000000)) /\
    forall out : list tape -> option (list (nat * nat)),
    (forall tapes, length tapes = omp_max -> girg_outcome ideal_env cfg (tape_rng (seeded seed tapes)) ws ps (AFin a) seed omp_max team (out tapes)) ->
    forall phi, expects_n omp_max (fun tapes => match out tapes with
        | Some edges => prodR (all_pairs (length ws)) (fun uv => phi (fst uv) (snd uv) (joinedb edges (fst uv) (snd uv)))
        | None => 0 end)
      (prodR (all_pairs (length ws)) (fun uv => bern phi (q (fst uv) (snd uv)) (fst uv) (snd uv))).
Proof.
  intros HI Hs Ha. destruct (use_num HI) as (P & NO & IP). destruct (use_build HI cfg P NO) as (t & ord & TS & T1 & T2).
  pose proof (gi_dim _ _ _ _ _ _ HI) as HD. pose proof (gi_len _ _ _ _ _ _ HI) as HL. pose proof (gi_n _ _ _ _ _ _ HI) as Hn. pose proof (use_vp HI) as VP.
  pose proof (levels_eq _ cfg _ _ ps _ NO t ord TS) as HLE. pose proof (no_c _ _ _ _ NO) as Hc.
  exists P, t, ord, (@qpair D ws ps cfg P ord a). split; [exact NO|]. split; [exact IP|]. split; [exact TS|]. split; [exact T1|]. split; [reflexivity|]. split; [now apply (qpair_cases HI cfg P NO IP t ord TS a Ha)|].
  intros out Hout phi.
  destruct (thread_calls_ok cfg D P (AFin a) HD Hc HLE ideal_env omp_max team (use_fpl HI) (gi_team _ _ _ _ _ _ HI)) as (calls & Ec & Lc & HP).
  assert (HP0 : Permutation (concat calls) (plan cfg D P (N.to_nat (p_levels P - 1)) 0%N 0%N 0%N)).
  { rewrite HP. unfold full_plan. rewrite filter_true; [reflexivity|]. intros x _. unfold keep. cbn [is_inf]. rewrite andb_false_r. apply orb_true_r. }
  assert (Hok : forall x, In x (concat calls) -> call_ok cfg D P x).
  { intros x Hx. apply (Permutation_in _ HP0) in Hx. revert Hx. apply (plan0_ok ideal_env cfg D ws ps P HD NO HL Hn t ord TS). }
  rewrite <- (mean_all HI cfg P NO t ord TS a phi calls HP0).
  set (s0 := seeded 0 []).
  eapply expects_n_ext; [|apply (threads_law HI cfg P NO IP t ord TS a Ha (sym phi) s0 calls Hok omp_max); lia].
  intros tapes Lt. specialize (Hout tapes Lt). set (s := seeded seed tapes) in *.
  assert (Lg0 : (length calls <= length tapes)%nat) by lia.
  destruct (threads_decided ideal_env cfg D ws ps P ideal_good HD NO HL VP Hn t ord TS (AFin a) (tape_rng s) (tape_good s) calls tapes Lg0 Hok) as (rs & Er & HF).
  assert (Eth : threads (D := D) cfg t a s0 calls tapes = Some rs).
  { assert (Lg : (length tapes <? length calls)%nat = false) by (apply Nat.ltb_ge; lia). rewrite <- Er.
    change (run_threads ideal_env cfg D t (AFin a) (tape_rng s) calls tapes) with (if (length tapes <? length calls)%nat then None else threads (D := D) cfg t a s calls tapes). rewrite Lg. apply threads_irr. }
  rewrite Eth. cbn [thr_wt].
  assert (Ob : exists edges, out tapes = Some edges /\ interleaving (map edges_of rs) edges).
  { apply (girg_outcome_inv _ _ _ _ _ _ _ _ _ _ D HD) in Hout.
    2:{ pose proof (n_pos ideal_env D ws ps P NO HL Hn) as Np. rewrite HL in Np. destruct ps; [cbn in Np; lia|discriminate]. }
    2:{ intros p Ip. rewrite List.Forall_forall in VP. apply VP in Ip. apply Ip. }
    destruct Hout as (ot & Hot & Ho). rewrite (T2 ot Hot) in Ho.
    destruct Ho as (ors & Hors & Ho). unfold edges_outcome in Hors. rewrite (use_seed HI) in Hors. destruct Hors as (gens & Hg & ->).
    unfold gens_ok in Hg. rewrite (proj2 (Z.leb_le _ _) Hs) in Hg. rewrite <- Lt in Hg at 1. cbn [rseed tape_rng] in Hg. unfold s in Hg. rewrite seeded_gens in Hg. subst gens. fold s in Ho.
    rewrite (ts_P _ _ _ _ _ _ _ _ TS), Ec in Ho. cbn [obind] in Ho. rewrite Er in Ho.
    destruct (collect_interleaving (2 ^ 20) omp_max (map edges_of rs)) as [_ HC].
    { rewrite map_length, <- (Forall2_len _ _ _ HF). lia. }
    destruct (HC _ Ho) as (edges & -> & IL). eauto. }
  destruct Ob as (edges & -> & IL).
  assert (Hpairs : flat_map event_pairs (flat_map evs rs) = flat_map (Tree_Run.call_pairs ideal_env cfg D ws ps P ord) (concat calls)).
  { clear -HF. induction HF as [|xs r calls rs Hd HF IH]; [reflexivity|]. cbn [flat_map concat]. rewrite !flat_map_app, IH. f_equal. apply Hd. }
  assert (Hevok : List.Forall ev_ok (flat_map evs rs)).
  { assert (G : forall cs ts rs', (forall x, In x (concat cs) -> call_ok cfg D P x) -> threads (D := D) cfg t a s0 cs ts = Some rs' -> List.Forall ev_ok (flat_map evs rs')).
    { clear -HI NO TS. induction cs as [|xs cs IH]; intros ts rs' Hk; unfold threads; [intros [= <-]; constructor|]. destruct ts as [|tp ts]; [intros [= <-]; constructor|].
      cbn [combine omap fst snd]. destruct (run_calls ideal_env cfg D t (AFin a) (tape_rng s0) xs tp) as [r|] eqn:E1; [|discriminate]. cbn [obind]. fold (threads (D := D) cfg t a s0 cs ts).
      destruct (threads (D := D) cfg t a s0 cs ts) as [rr|] eqn:E2; [|discriminate]. cbn [obind]. intros [= <-]. cbn [flat_map]. apply List.Forall_app. split.
      - eapply (calls_ev_ok HI cfg P NO t ord TS a s0 xs); [|exact E1]. intros x Hx. apply Hk. cbn [concat]. apply in_or_app. now left.
      - eapply IH; [|exact E2]. intros x Hx. apply Hk. cbn [concat]. apply in_or_app. now right. }
    exact (G calls tapes rs Hok Eth). }
  pose proof (graph_weight phi (flat_map evs rs) (length ws) Hevok) as GW. etransitivity; [symmetry; apply GW|].
  3:{ apply prodR_ext. intros [u v] _. cbn [fst snd]. f_equal. apply eq_true_iff_eq. rewrite !joinedb_In.
    assert (Q : forall x, In x (flat_map event_edges (flat_map evs rs)) <-> In x edges); [|now rewrite !Q].
    intros x. rewrite (edges_In rs edges x IL). clear. unfold edges_of. induction rs as [|r rs IH]; cbn [flat_map]; [reflexivity|]. rewrite flat_map_app, !in_app_iff, IH. reflexivity. }
  - intros u v I. rewrite Hpairs in I. apply in_flat_map in I as (x & Hx & I). destruct (call_pairs_In ideal_env cfg D ws ps P HL Hn t ord TS x u v I) as [Hu Hv]. repeat split; auto.
    intros <-. revert I. apply (call_pairs_irrefl ideal_env cfg D ws ps P HD NO HL Hn t ord TS x u). now apply Hok.
  - intros u v Hu Hv Hne. rewrite Hpairs, (cnt2_perm _ _ u v (flat_map_perm_list _ _ _ HP0)). now apply (plan0_pairs ideal_env cfg D ws ps P HD NO HL VP Hn t ord TS).
Qed.

(** there are results for all values of the draws *)
Lemma girg_runs cfg D ws ps seed omp_max team a : girg_input D ws ps seed omp_max team -> (0 <= seed)%Z ->
  exists out : list tape -> option (list (nat * nat)),
    forall tapes, girg_outcome ideal_env cfg (tape_rng (seeded seed tapes)) ws ps (AFin a) seed omp_max team (out tapes).
Proof.
  intros HI Hs. destruct (use_num HI) as (P & NO & IP). destruct (use_build HI cfg P NO) as (t & ord & TS & T1 & T2).
  pose proof (gi_dim _ _ _ _ _ _ HI) as HD. pose proof (gi_len _ _ _ _ _ _ HI) as HL. pose proof (gi_n _ _ _ _ _ _ HI) as Hn. pose proof (use_vp HI) as VP.
  set (gens := fun tapes => map (fun k => rseed (tape_rng (seeded seed tapes)) (seed + Z.of_nat k)) (seq 0 omp_max)).
  set (ors := fun tapes => (do calls <- thread_calls ideal_env cfg D (tP t) (AFin a) omp_max team; run_threads ideal_env cfg D t (AFin a) (tape_rng (seeded seed tapes)) calls (gens tapes))).
  exists (fun tapes => match ors tapes with None => None | Some rs =>
    (do s <- brun (2 ^ 20) (concat (map (fun tc => thread_acts (fst tc) (snd tc)) (combine (seq 0 (length (map edges_of rs))) (map edges_of rs)))) (repeat [] omp_max, []); Some (snd s ++ concat (fst s))) end).
  intros tapes. destruct ps as [|p0 ps'] eqn:Eps.
  { pose proof (n_pos ideal_env D ws [] P NO HL Hn) as Np. cbn in HL. lia. }
  inversion_clear VP as [|? ? [V1 _] _]. unfold girg_outcome. rewrite V1, N2Nat.id.
  assert (EDb : ((1 <=? D) && (D <=? 5))%N = true) by (apply andb_true_intro; split; apply N.leb_le; lia). rewrite EDb.
  exists (Some t). split; [exact T1|]. exists (ors tapes). split.
  - unfold edges_outcome. rewrite (use_seed HI). exists (gens tapes). split; [|reflexivity]. unfold gens_ok. now rewrite (proj2 (Z.leb_le _ _) Hs).
  - destruct (ors tapes) as [rs|]; [|reflexivity]. unfold collect. eexists. split; [apply interleaving_concat|reflexivity].
Qed.
