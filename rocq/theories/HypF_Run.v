(** Running the calls of the hyperbolic recursion over an arbitrary arithmetic, on a tree built by HypF_Build. *)
From Coq Require Import Arith NArith ZArith List Bool Reals Permutation Lia Lra.
From Flocq Require Import Core.
From Verif Require Import Base Sched Bits_Model Bits_Proofs Coord_Model Coord_Proofs Coord_Geo IntSort_Model IntSort_Proofs Prefix_Model
  Tree_Model Cover Tree_Proofs Tree_Build Tree_Plan Tree_Run Hyp_Model Hyp_Math Hyp_Angle Hyp_Levels Hyp_Build Hyp_Run HypF_Model HypF_Build.
Import ListNotations.
Local Open Scope N_scope.

(** what the arithmetic and the random engine must satisfy so that the tables of the filters are read in range *)
Record hsound (M : hmath) (rg : rng) : Prop := {
  so_prob : forall T Rd d, (0 <= hr M (1 / connectionProbRecF M T Rd d) <= 1)%R;
  so_zero : hr M 0 = 0%R;
  so_tiny : (0 < hr M (1 / 1000000))%R;
  so_u01 : forall g, (0 <= hr M (hr M (100 / 1) * fst (u01 rg g)) <= 100)%R;
  so_uni : forall z g, (0 < hr M z <= 1)%R -> (0 <= hr M (hr M (100 / hr M z) * fst (uni0 rg (hr M z) g)) <= 100)%R }.

Section Filters.
  Variables (M : hmath).
  Lemma filter_stageF_some F i : (0 <= i <= 100)%Z -> exists y, filter_stageF M F i = Some y.
  Proof.
    intros H. unfold filter_stageF. destruct (Z.eqb_spec i 0); [eauto|]. destruct (Z.eqb_spec i 100); [eauto|].
    assert (E : ((0 <? i) && (i <? 100))%Z = true) by (apply andb_true_intro; split; apply Z.ltb_lt; lia). rewrite E. eauto.
  Qed.
  Lemma filter_decideF_some F T Rd p q x : (0 <= hr M (hr M (100 / f_max F) * x) <= 100)%R -> exists b, filter_decideF M F T Rd p q x = Some b.
  Proof.
    intros H. unfold filter_decideF, filter_upperF, filter_lowerF. set (y := hr M (hr M (100 / f_max F) * x)) in *.
    assert (A : (0 <= Zfloor y)%Z) by (apply Zfloor_lub; lra).
    assert (B : (Zfloor y <= 100)%Z) by (apply le_IZR; pose proof (Zfloor_lb y); lra).
    assert (C : (0 <= Zceil y)%Z) by (apply le_IZR; pose proof (Zceil_ub y); lra).
    assert (D : (Zceil y <= 100)%Z) by (apply Zceil_glb; lra).
    rewrite (double_to_int_small y) by lra. cbn [obind].
    rewrite (double_to_int_small (IZR (Zceil y))); [|apply IZR_le; exact C|apply IZR_lt; lia]. cbn [obind]. rewrite Zfloor_IZR.
    destruct (filter_stageF_some F (Zfloor y) ltac:(lia)) as (y1 & ->). destruct (filter_stageF_some F (Zceil y) ltac:(lia)) as (y2 & ->). cbn [obind].
    destruct (match y1 with XInf => _ | XFin _ => _ end); [eauto|]. destruct (xlt _ y2); eauto.
  Qed.
  Lemma hdecideIF_spec t rg : hsound M rg -> forall ps g,
    exists es g', hdecideIF M t rg ps g = Some (es, g') /\
    flat_map event_pairs es = map pids ps /\
    le_count (flat_map event_edges es) (flat_map event_pairs es) /\
    (threshold_mode (h_T t) = true ->
     flat_map event_edges es = map pids (filter (fun ab => isDistanceBelowRF M (fst ab) (snd ab) (hcosh M (h_R t))) ps)).
  Proof.
    intros SO. induction ps as [|[a b] ps IH]; intros g; cbn [hdecideIF].
    - exists [], g. repeat split; auto. intros x. apply Nat.le_refl.
    - assert (Hh : exists hit g1, (if threshold_mode (h_T t) then Some (isDistanceBelowRF M a b (hcosh M (h_R t)), g)
                       else let (x, g') := u01 rg g in
                            do h <- filter_decideF M (typeI_filter t) (h_T t) (h_R t) a b x; Some (h, g')) = Some (hit, g1) /\
                  (threshold_mode (h_T t) = true -> hit = isDistanceBelowRF M a b (hcosh M (h_R t)))).
      { destruct (threshold_mode (h_T t)); [eauto|]. pose proof (so_u01 M rg SO g) as Hu. destruct (u01 rg g) as [x g']. cbn [fst] in Hu.
        destruct (filter_decideF_some (typeI_filter t) (h_T t) (h_R t) a b x Hu) as (h & ->).
        cbn [obind]. do 2 eexists. split; [reflexivity|]. discriminate. }
      destruct Hh as (hit & g1 & E1 & E2). rewrite E1. cbn [obind].
      destruct (IH g1) as (es & g2 & E3 & I1 & I2 & I3). rewrite E3. cbn [obind].
      do 2 eexists. split; [reflexivity|]. cbn [flat_map map event_pairs event_edges filter fst snd app]. split; [now rewrite I1|]. split.
      + change ((pid a, pid b) :: flat_map event_pairs es) with ([(pid a, pid b)] ++ flat_map event_pairs es).
        apply le_count_app; auto. intros x. destruct hit; [apply Nat.le_refl|cbn; lia].
      + intros HT. rewrite (I3 HT), (E2 HT). destruct (isDistanceBelowRF M a b (hcosh M (h_R t))); reflexivity.
  Qed.
  Lemma hskip_loopF_ok T Rd F rg ra rb : good_rng rg -> hsound M rg -> (exists z, f_max F = hr M z) -> good_filter F -> NoDup (map pid ra) -> NoDup (map pid rb) ->
    N.of_nat (length ra * length rb) < 2 ^ 62 ->
    forall fuel r g, N.of_nat (length ra * length rb) <= r + N.of_nat fuel ->
    exists hits g', hskip_loopF M T Rd F rg ra rb fuel r g = Some (hits, g') /\ NoDup hits /\
      forall h, In h hits -> exists q a b, r <= q /\ q < N.of_nat (length ra * length rb) /\
      nth_error ra (N.to_nat (q mod N.of_nat (length ra))) = Some a /\ nth_error rb (N.to_nat (q / N.of_nat (length ra))) = Some b /\ h = (pid a, pid b).
  Proof.
    intros GG SO (z & Ez) HF Na Nb Hnum. set (num := N.of_nat (length ra * length rb)) in *.
    induction fuel as [|f IH]; intros r g Hf; cbn [hskip_loopF]; fold num; destruct (N.leb_spec num r) as [L|L].
    - exists [], g. repeat split; [constructor|intros h []].
    - lia.
    - exists [], g. repeat split; [constructor|intros h []].
    - assert (La : 0 < N.of_nat (length ra)) by (unfold num in L; lia).
      pose proof (N.mod_lt r (N.of_nat (length ra)) ltac:(lia)) as Hm.
      assert (Hq : r / N.of_nat (length ra) < N.of_nat (length rb)).
      { apply N.div_lt_upper_bound; [lia|]. unfold num in L. rewrite Nat2N.inj_mul in L. exact L. }
      destruct (nth_error ra (N.to_nat (r mod N.of_nat (length ra)))) as [a|] eqn:Ea; [|apply nth_error_None in Ea; lia].
      destruct (nth_error rb (N.to_nat (r / N.of_nat (length ra)))) as [b|] eqn:Eb; [|apply nth_error_None in Eb; lia].
      cbn [obind]. pose proof (so_uni M rg SO z g) as Hx. unfold good_filter in HF. rewrite <- Ez in Hx. specialize (Hx HF).
      destruct (uni0 rg (f_max F) g) as [x g1]. cbn [fst] in Hx.
      destruct (filter_decideF_some F T Rd a b x Hx) as (hit & ->). cbn [obind].
      destruct (geo rg (f_max F) g1) as [k g2] eqn:Eg.
      assert (Hk : k < 2 ^ 63) by (pose proof (ggeo rg GG (f_max F) g1 HF) as H; now rewrite Eg in H).
      assert (K1 : 2 ^ 62 = 4611686018427387904) by reflexivity. assert (K2 : 2 ^ 63 = 9223372036854775808) by reflexivity.
      assert (K3 : 2 ^ 64 = 18446744073709551616) by reflexivity.
      rewrite (w64_small (1 + k)) by lia. rewrite w64_small by lia.
      destruct (IH (r + (1 + k)) g2 ltac:(lia)) as (hits & g' & E1 & E2 & E3). rewrite E1. cbn [obind].
      eexists. eexists. split; [reflexivity|]. split.
      + destruct hit; [|exact E2]. cbn [app]. constructor; auto. intros Hin.
        destruct (E3 _ Hin) as (q & a' & b' & Hrq & Hqn & Ha' & Hb' & Heq). injection Heq as Hia Hib.
        assert (P1 : N.to_nat (q mod N.of_nat (length ra)) = N.to_nat (r mod N.of_nat (length ra))).
        { apply (proj1 (NoDup_nth_error (map pid ra)) Na).
          - rewrite map_length. apply nth_error_Some. congruence.
          - rewrite (map_nth_error _ _ _ Ha'), (map_nth_error _ _ _ Ea). congruence. }
        assert (P2 : N.to_nat (q / N.of_nat (length ra)) = N.to_nat (r / N.of_nat (length ra))).
        { apply (proj1 (NoDup_nth_error (map pid rb)) Nb).
          - rewrite map_length. apply nth_error_Some. congruence.
          - rewrite (map_nth_error _ _ _ Hb'), (map_nth_error _ _ _ Eb). congruence. }
        pose proof (N.div_mod r (N.of_nat (length ra)) ltac:(lia)) as D1. pose proof (N.div_mod q (N.of_nat (length ra)) ltac:(lia)) as D2.
        apply N2Nat.inj in P1, P2. rewrite P1, P2 in D2. lia.
      + intros h Hh. apply in_app_or in Hh as [Hh|Hh].
        * destruct hit; [|destruct Hh]. destruct Hh as [<-|[]]. exists r, a, b. repeat split; auto; lia.
        * destruct (E3 _ Hh) as (q & a' & b' & Hrq & H). exists q, a', b'. split; [lia|exact H].
  Qed.
End Filters.

Lemma omap_ext_all {A B} (f g : A -> option B) L : (forall x, f x = g x) -> omap f L = omap g L.
Proof. intros H. induction L as [|a L IH]; cbn [omap]; [reflexivity|]. now rewrite H, IH. Qed.

Section RunF.
  Variables (M : hmath) (radii angles radii' angles' : list R) (T Rd : R).
  Hypothesis FT : fits M radii angles radii' angles' Rd.
  Variables (t : htree) (ord : list nat) (TSF : htree_specF M radii angles radii' angles' T Rd t ord).
  Variables (rg : rng) (GG : good_rng rg) (SO : hsound M rg).
  Notation DI := (ft_disc _ _ _ _ _ _ FT).
  Notation TS := (hf_spec _ _ _ _ _ _ _ _ _ TSF).
  Notation hmk' := (hmk radii' angles' Rd).
  Notation mk := (mkF M radii angles radii' angles' Rd).
  Definition exact_tree : htree := with_points t (map hmk' ord).
  Notation t' := exact_tree.
  Notation V := (hV radii' angles' Rd ord).
  Notation cpairs := (hcall_pairs radii' angles' Rd ord).

  Lemma hR_eq : h_R t = Rd. Proof. exact (hs_R _ _ _ _ _ _ TS). Qed.
  Lemma hT_eq : h_T t = T. Proof. exact (hs_T _ _ _ _ _ _ TS). Qed.
  Lemma layers_le : (h_layers t <= hm Rd)%nat. Proof. exact (hs_layers _ _ _ _ _ _ TS). Qed.
  Lemma base_same i j : h_base t i j = h_base t' i j.
  Proof. unfold h_base. change (h_R t') with (h_R t). reflexivity. Qed.
  Lemma pairsF_eq l : h_layer_pairsF M t l = h_layer_pairs t' l.
  Proof.
    unfold h_layer_pairsF, h_layer_pairs. apply filter_ext_in. intros [i j] H. apply in_prod_iff in H as [Hi Hj]. apply in_seq in Hi, Hj. cbn [fst snd].
    rewrite (baseF_eq M radii angles radii' angles' Rd FT t i j hR_eq layers_le (proj2 Hi) (proj2 Hj)). rewrite base_same. reflexivity.
  Qed.
  Lemma farF_eq A B l : hfar_callsF M t A B l = hfar_calls t' A B l.
  Proof. unfold hfar_callsF, hfar_calls. apply flat_map_ext. intros l'. now rewrite pairsF_eq. Qed.
  Lemma nearF_eq A B l : hnear_callsF M t A B l = hnear_calls t' A B l.
  Proof. unfold hnear_callsF, hnear_calls. now rewrite pairsF_eq. Qed.
  Lemma visitF_eq nd : forall fuel A B l, hvisitF M nd t fuel A B l = hvisit nd t' fuel A B l.
  Proof.
    induction fuel as [|f IH]; intros A B l; cbn [hvisitF hvisit]; rewrite farF_eq, nearF_eq; [reflexivity|].
    destruct (htouching A B l) as [tch|]; cbn [obind]; [|reflexivity]. destruct (negb tch); [reflexivity|].
    change (h_levels t') with (h_levels t). destruct (l =? h_levels t - 1); [reflexivity|].
    rewrite (omap_ext_all _ (fun ab => hvisit nd t' f (fst ab) (snd ab) (l + 1)) (hchild_pairs A B)) by (intros ab; apply IH). reflexivity.
  Qed.
  Lemma sampleF_eq fpl nt : forall fuel A B l s, hsampleF M t fpl nt fuel A B l s = hsample t' fpl nt fuel A B l s.
  Proof.
    induction fuel as [|f IH]; intros A B l s; cbn [hsampleF hsample]; rewrite farF_eq, nearF_eq; [reflexivity|].
    destruct (htouching A B l) as [tch|]; cbn [obind]; [|reflexivity]. destruct (negb tch); [reflexivity|].
    destruct (my_calls nt s (hnear_calls t' A B l)) as [cs s1].
    change (h_levels t') with (h_levels t). destruct (l =? h_levels t - 1); [reflexivity|]. destruct (l + 1 =? fpl); [reflexivity|].
    match goal with |- obind ?a _ = obind ?b _ => assert (EQ : a = b); [|rewrite EQ; reflexivity] end.
    revert s1. generalize (hchild_pairs A B) as L. induction L as [|ab L IHL]; intros s1; [reflexivity|].
    rewrite IH. destruct (hsample t' fpl nt f (fst ab) (snd ab) (l + 1) s1) as [[c1 s']|]; cbn [obind]; [|reflexivity]. now rewrite IHL.
  Qed.

  Lemma map_inj_mk L L' : map hmk' L = map hmk' L' -> L = L'.
  Proof.
    intros H. apply (f_equal (map pid)) in H. rewrite !map_map in H. cbn [pid hmk] in H. now rewrite !map_id in H.
  Qed.
  Lemma points_inF_eq i A l : (i < h_layers t)%nat -> l <= lev Rd i -> in_lv l A -> points_in t i A l = Some (map mk (V i A l)).
  Proof.
    intros Hi Hl HA. pose proof (points_in_eq radii' angles' T Rd t' ord TS i A l Hi Hl HA) as H. unfold points_in in *.
    change (hcellIterators t' i A l) with (hcellIterators t i A l) in H. destruct (hcellIterators t i A l) as [[b e]|]; [|discriminate]. cbn [obind] in *.
    change (h_points t') with (map hmk' ord) in H. rewrite slice_map in H. rewrite (hf_points _ _ _ _ _ _ _ _ _ TSF), slice_map.
    destruct (slice ord b e) as [L|]; [|discriminate]. cbn [option_map] in *. injection H as H. apply map_inj_mk in H. now rewrite H.
  Qed.

  Definition hitF (u v : nat) : bool := isDistanceBelowRF M (mk u) (mk v) (hcosh M Rd).
  (** the edges a call contributes at T = 0 *)
  Definition call_hits (x : call) : list (nat * nat) :=
    match x with CallI _ _ _ _ _ => filter (fun uv => hitF (fst uv) (snd uv)) (cpairs x) | CallII _ _ _ _ _ => [] end.
  Record hdecidedF (r : result (G rg)) (pairs hits : list (nat * nat)) : Prop := {
    hdf_pairs : pairs_of r = pairs;
    hdf_edges : le_count (edges_of r) (pairs_of r);
    hdf_checks : (type1 r + type2 r = 2 * Z.of_nat (length (pairs_of r)))%Z;
    hdf_zero : T = 0%R -> edges_of r = hits }.
  Lemma map_pidF L : map pid (map mk L) = L.
  Proof. rewrite map_map. cbn [pid mkF]. apply map_id. Qed.
  Lemma map_pidsF L : map pids (map (fun ab => (mk (fst ab), mk (snd ab))) L) = L.
  Proof. rewrite map_map. unfold pids. cbn [pid mkF fst snd]. rewrite <- (map_id L) at 2. apply map_ext. intros [a b]. reflexivity. Qed.
  Lemma filter_map_pidsF L :
    map pids (filter (fun ab => isDistanceBelowRF M (fst ab) (snd ab) (hcosh M Rd)) (map (fun ab => (mk (fst ab), mk (snd ab))) L))
    = filter (fun uv => hitF (fst uv) (snd uv)) L.
  Proof.
    induction L as [|[u v] L IH]; [reflexivity|]. cbn [map filter fst snd]. fold (hitF u v).
    destruct (hitF u v); cbn [map]; rewrite IH; reflexivity.
  Qed.
  Lemma hdecidedF_nil g : hdecidedF {| evs := []; type1 := 0; type2 := 0; gen := g |} [] [].
  Proof. constructor; cbn; auto. intros x. apply Nat.le_refl. Qed.

  Lemma htypeIF_ok A B l i j g : in_lv l A -> in_lv l B -> (i < h_layers t)%nat -> (j < h_layers t)%nat -> l <= base Rd i j ->
    let pairs := if (A =? B) && (i =? j)%nat then uptri (V i A l) else list_prod (V i A l) (V j B l) in
    exists r, hsampleTypeIF M t rg A B l i j g = Some r /\ hdecidedF r pairs (filter (fun uv => hitF (fst uv) (snd uv)) pairs).
  Proof.
    intros HA HB Hi Hj Hl pairs. destruct (hbase_ok radii' angles' T Rd DI t' ord TS i j Hi Hj) as (B1 & B2 & _). unfold hsampleTypeIF.
    rewrite (points_inF_eq i A l Hi ltac:(lia) HA). cbn [obind]. rewrite (points_inF_eq j B l Hj ltac:(lia) HB). cbn [obind].
    set (same := (A =? B) && (i =? j)%nat) in *.
    assert (Hs : same = true -> V i A l = V j B l).
    { unfold same. intros H. apply andb_prop in H as [H1%N.eqb_eq H2%Nat.eqb_eq]. now subst. }
    set (va := V i A l) in *. set (vb := V j B l) in *.
    assert (Hp : pairsI same 0 (map mk va) (map mk vb) = map (fun ab => (mk (fst ab), mk (snd ab))) pairs).
    { unfold pairs. destruct same.
      - rewrite <- (Hs eq_refl), pairsI_same. apply uptri_map.
      - rewrite pairsI_prod. apply prod_map. }
    destruct va as [|a0 va'] eqn:Eva; [|destruct vb as [|b0 vb'] eqn:Evb].
    - cbn [map]. eexists. split; [reflexivity|]. assert (pairs = []) as -> by (unfold pairs; destruct same; reflexivity). apply hdecidedF_nil.
    - cbn [map]. eexists. split; [reflexivity|].
      assert (pairs = []) as ->. { unfold pairs. destruct same; [specialize (Hs eq_refl); discriminate|apply prod_nil_r]. } apply hdecidedF_nil.
    - rewrite <- Eva, <- Evb in *. destruct (map mk va) as [|a1 ra'] eqn:Era; [rewrite Eva in Era; discriminate|].
      destruct (map mk vb) as [|b1 rb'] eqn:Erb; [rewrite Evb in Erb; discriminate|]. rewrite <- Era, <- Erb in *.
      rewrite Hp.
      destruct (hdecideIF_spec M t rg SO (map (fun ab => (mk (fst ab), mk (snd ab))) pairs) g) as (es & g' & Ed & S1 & S2 & S3).
      rewrite Ed. cbn [obind]. eexists. split; [reflexivity|]. rewrite map_pidsF in S1.
      constructor; unfold pairs_of, edges_of; cbn [evs type1 type2].
      + exact S1.
      + exact S2.
      + rewrite S1, !map_length. unfold pairs. destruct same eqn:Es.
        * rewrite uptri_length, Eva. lia.
        * rewrite prod_length, Eva, Evb. lia.
      + intros H0. rewrite S3 by (rewrite hT_eq; exact (threshold_0 radii' angles' T Rd t' ord TS H0)). rewrite hR_eq. apply filter_map_pidsF.
  Qed.

  Lemma htypeIIF_ok A B l i j g : hcall_ok Rd t' (CallII A B l i j) ->
    exists r, hsampleTypeIIF M t rg A B l i j g = Some r /\ hdecidedF r (list_prod (V i A l) (V j B l)) [].
  Proof.
    intros Hok. pose proof Hok as (HA & HB & Hi & Hj & Hl & Ht). destruct (nontouch_ring radii' angles' T Rd DI t' ord TS A B l i j Hok) as (Hr & Hl2 & HAB).
    destruct (htypeIF_ok A B l i j g HA HB Hi Hj Hl) as (rI & EI & DI').
    assert (Hs : (A =? B) && (i =? j)%nat = false) by (destruct (N.eqb_spec A B); [contradiction|reflexivity]). rewrite Hs in DI'.
    destruct (hbase_ok radii' angles' T Rd DI t' ord TS i j Hi Hj) as (B1 & B2 & B3 & B4). unfold hsampleTypeIIF.
    rewrite (points_inF_eq i A l Hi ltac:(lia) HA). cbn [obind]. rewrite (points_inF_eq j B l Hj ltac:(lia) HB). cbn [obind].
    set (ra := map mk (V i A l)). set (rb := map mk (V j B l)).
    set (checks := (2 * Z.of_nat (length ra) * Z.of_nat (length rb))%Z).
    assert (Hch : checks = (2 * Z.of_nat (length (list_prod (V i A l) (V j B l))))%Z).
    { unfold checks, ra, rb. rewrite prod_length, !map_length. lia. }
    assert (Hix : forall hits, flat_map event_pairs [EBlock (map pid ra) (map pid rb) hits] = list_prod (V i A l) (V j B l)).
    { intros hits. cbn [flat_map event_pairs]. rewrite app_nil_r. unfold ra, rb. now rewrite !map_pidF. }
    assert (Hnone : forall g0, hdecidedF {| evs := [EBlock (map pid ra) (map pid rb) []]; type1 := 0; type2 := checks; gen := g0 |} (list_prod (V i A l) (V j B l)) []).
    { intros g0. constructor; unfold pairs_of, edges_of; cbn [evs type1 type2].
      - apply Hix.
      - intros x. cbn. lia.
      - rewrite Hix, <- Hch. lia.
      - intros _. reflexivity. }
    destruct (is_zero (h_T t) || (length ra =? 0)%nat || (length rb =? 0)%nat) eqn:Ez; [eexists; split; [reflexivity|apply Hnone]|].
    apply orb_false_iff in Ez as [Ez _]. apply orb_false_iff in Ez as [Ez _].
    assert (HT0 : T <> 0%R). { rewrite hT_eq in Ez. unfold is_zero in Ez. destruct (Req_EM_T T 0); [discriminate|assumption]. }
    assert (HdI : forall h, hdecidedF rI (list_prod (V i A l) (V j B l)) h).
    { intros h. destruct DI' as [D1 D2 D3 _]. constructor; auto. intros H. contradiction. }
    unfold lookup_filtersF. rewrite (baseF_eq M radii angles radii' angles' Rd FT t i j hR_eq layers_le Hi Hj).
    rewrite base_same, B4. rewrite (proj2 (N.leb_le 2 l)) by lia. rewrite (proj2 (N.leb_le l _) Hl). cbn [andb].
    rewrite hT_eq, hR_eq. destruct (filtersF_some M Rd T i j l ltac:(lia)) as (d1 & d2 & ->). cbn [obind].
    rewrite (cellsBetween_eq l) by (auto; lia). cbn [obind].
    match goal with |- context [if ring l A B - 1 =? 1 then ?a else ?b] => set (F := if ring l A B - 1 =? 1 then a else b) end.
    assert (HZ : exists z, f_max F = hr M z) by (unfold F; destruct (ring l A B - 1 =? 1); cbn [f_max]; eauto).
    assert (HP : (0 <= f_max F <= 1)%R) by (unfold F; destruct (ring l A B - 1 =? 1); cbn [f_max]; apply (so_prob M rg SO)).
    destruct (Rltb (hr M (1 / 5)) (f_max F)); [exists rI; split; [exact EI|apply HdI]|].
    destruct (Rltb (hr M (hr M (INR (length ra * length rb)) * f_max F)) (hr M (1 / 1000000))) eqn:Et; [eexists; split; [reflexivity|apply Hnone]|].
    assert (GF : good_filter F).
    { split; [|apply HP]. destruct (proj1 HP) as [H|H]; [exact H|]. exfalso. rewrite <- H, Rmult_0_r, (so_zero M rg SO) in Et.
      apply Rltb_false in Et. pose proof (so_tiny M rg SO). lra. }
    destruct (geo rg (f_max F) g) as [r0 g1].
    assert (Hnum : N.of_nat (length ra * length rb) < 2 ^ 62).
    { unfold ra, rb. rewrite !map_length. pose proof (hV_length radii' angles' T Rd t' ord TS i A l) as L1.
      pose proof (hV_length radii' angles' T Rd t' ord TS j B l) as L2.
      pose proof (di_n31 _ _ _ DI) as Hn. change (2 ^ 31) with 2147483648 in Hn. change (2 ^ 62) with (2147483648 * 2147483648). rewrite Nat2N.inj_mul.
      apply N.mul_lt_mono; lia. }
    assert (Nra : NoDup (map pid ra)) by (unfold ra; rewrite map_pidF; apply (hV_NoDup radii' angles' T Rd t' ord TS)).
    assert (Nrb : NoDup (map pid rb)) by (unfold rb; rewrite map_pidF; apply (hV_NoDup radii' angles' T Rd t' ord TS)).
    destruct (hskip_loopF_ok M T Rd F rg ra rb GG SO HZ GF Nra Nrb Hnum (length ra * length rb) r0 g1 ltac:(lia)) as (hits & g2 & E1 & E2 & E3).
    rewrite E1. cbn [obind]. eexists. split; [reflexivity|].
    constructor; unfold pairs_of, edges_of; cbn [evs type1 type2].
    - apply Hix.
    - rewrite Hix. cbn [flat_map event_edges]. rewrite app_nil_r. apply NoDup_le_count; auto.
      intros h Hh. destruct (E3 h Hh) as (q & a & b & _ & _ & Ha & Hb & ->).
      apply nth_error_In in Ha, Hb. unfold ra, rb in Ha, Hb. apply in_map_iff in Ha as (u & <- & Hu), Hb as (v & <- & Hv).
      cbn [pid mkF]. now apply in_prod.
    - rewrite Hix, <- Hch. lia.
    - intros Ha. contradiction.
  Qed.

  Lemma hcall_decidedF x g : hcall_ok Rd t' x -> exists r, hrun_callF M t rg x g = Some r /\ hdecidedF r (cpairs x) (call_hits x).
  Proof.
    destruct x as [A B l i j|A B l i j]; intros Hok; cbn [hrun_callF call_hits].
    - destruct Hok as (HA & HB & Hi & Hj & Hl). cbn [hcall_pairs]. apply htypeIF_ok; auto. lia.
    - cbn [hcall_pairs]. now apply htypeIIF_ok.
  Qed.
  Lemma hdecidedF_app r1 r2 p1 p2 h1 h2 g : hdecidedF r1 p1 h1 -> hdecidedF r2 p2 h2 ->
    hdecidedF {| evs := evs r1 ++ evs r2; type1 := type1 r1 + type1 r2; type2 := type2 r1 + type2 r2; gen := g |} (p1 ++ p2) (h1 ++ h2).
  Proof.
    intros [A1 A2 A3 A4] [B1 B2 B3 B4]. unfold pairs_of, edges_of in *.
    constructor; unfold pairs_of, edges_of; cbn [evs type1 type2]; rewrite ?flat_map_app.
    - now rewrite A1, B1.
    - now apply le_count_app.
    - rewrite app_length. lia.
    - intros Ha. now rewrite (A4 Ha), (B4 Ha).
  Qed.
  Lemma hcalls_decidedF xs : (forall x, In x xs -> hcall_ok Rd t' x) -> forall g,
    exists r, hrun_callsF M t rg xs g = Some r /\ hdecidedF r (flat_map cpairs xs) (flat_map call_hits xs).
  Proof.
    induction xs as [|x xs IH]; intros Hok g; cbn [hrun_callsF flat_map].
    - eexists. split; [reflexivity|]. apply hdecidedF_nil.
    - destruct (hcall_decidedF x g (Hok x (or_introl eq_refl))) as (r1 & E1 & D1). rewrite E1. cbn [obind].
      destruct (IH ltac:(intros; apply Hok; now right) (gen r1)) as (r2 & E2 & D2). rewrite E2. cbn [obind].
      eexists. split; [reflexivity|]. now apply hdecidedF_app.
  Qed.
End RunF.
