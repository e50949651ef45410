(** Running the calls of the hyperbolic recursion on a correctly built tree: what every call decides. *)
From Coq Require Import Arith NArith ZArith List Bool Reals Permutation Lia Lra.
From Flocq Require Import Core.
From Verif Require Import Base Sched Bits_Model Bits_Proofs Coord_Model Coord_Proofs Coord_Geo IntSort_Model IntSort_Proofs Prefix_Model
  Tree_Model Cover Tree_Proofs Tree_Build Tree_Plan Tree_Run Hyp_Model Hyp_Math Hyp_Angle Hyp_Levels Hyp_Build.
Import ListNotations.
Local Open Scope N_scope.

(** ** the fast distance test *)
Lemma below_iff c1 c2 s1 s2 phi1 phi2 C : (0 < s1)%R -> (0 < s2)%R ->
  (c1 / s1 * (c2 / s2) - C * (1 / s1) * (1 / s2) < cos phi1 * cos phi2 + sin phi1 * sin phi2)%R <->
  (c1 * c2 - s1 * s2 * cos (phi1 - phi2) < C)%R.
Proof.
  intros H1 H2. rewrite cos_minus. set (k := (cos phi1 * cos phi2 + sin phi1 * sin phi2)%R).
  assert (P : (0 < s1 * s2)%R) by now apply Rmult_lt_0_compat.
  assert (E : ((c1 / s1 * (c2 / s2) - C * (1 / s1) * (1 / s2)) * (s1 * s2) = c1 * c2 - C)%R) by (field; lra).
  split; intros H.
  - apply (Rmult_lt_compat_r _ _ _ P) in H. rewrite E in H. lra.
  - apply Rmult_lt_reg_r with (s1 * s2)%R; [exact P|]. rewrite E. lra.
Qed.

(** ** the filters are always defined *)
Definition good_filter (F : dfilter) : Prop := (0 < f_max F <= 1)%R.
Lemma double_to_int_small x : (0 <= x)%R -> (x < 2147483648)%R -> double_to_int x = Some (Zfloor x).
Proof.
  intros H0 H1. unfold double_to_int. rewrite Ztrunc_floor by exact H0.
  assert (0 <= Zfloor x)%Z by (apply Zfloor_lub; lra).
  assert (Zfloor x < 2147483648)%Z by (apply lt_IZR; pose proof (Zfloor_lb x); lra).
  change (2 ^ 31)%Z with 2147483648%Z.
  destruct (_ && _)%Z eqn:E; [reflexivity|]. exfalso. apply andb_false_iff in E as [E|E]; [apply Z.leb_gt in E; lia|apply Z.ltb_ge in E; lia].
Qed.
Lemma filter_index F x : good_filter F -> (0 <= x < f_max F)%R -> (0 <= 100 / f_max F * x < 100)%R.
Proof.
  intros [H1 H2] [H3 H4]. assert (I : (0 < / f_max F)%R) by now apply Rinv_0_lt_compat.
  assert (E : (f_max F * / f_max F = 1)%R) by (apply Rinv_r; lra). unfold Rdiv. split.
  - repeat apply Rmult_le_pos; lra.
  - assert (x * / f_max F < 1)%R by (rewrite <- E; now apply Rmult_lt_compat_r). lra.
Qed.
Lemma filter_stage_some F i : (0 <= i <= 100)%Z -> exists y, filter_stage F i = Some y.
Proof.
  intros H. unfold filter_stage. destruct (Z.eqb_spec i 0); [eauto|]. destruct (Z.eqb_spec i 100); [eauto|].
  assert (E : ((0 <? i) && (i <? 100))%Z = true) by (apply andb_true_intro; split; apply Z.ltb_lt; lia). rewrite E. eauto.
Qed.
Lemma filter_bounds_some F x : good_filter F -> (0 <= x < f_max F)%R ->
  filter_upper F x = filter_stage F (Zfloor (100 / f_max F * x)) /\ filter_lower F x = filter_stage F (Zceil (100 / f_max F * x)) /\
  (0 <= Zfloor (100 / f_max F * x) <= 99)%Z /\ (0 <= Zceil (100 / f_max F * x) <= 100)%Z.
Proof.
  intros HF Hx. destruct (filter_index F x HF Hx) as [H1 H2]. set (y := (100 / f_max F * x)%R) in *.
  assert (A : (0 <= Zfloor y)%Z) by (apply Zfloor_lub; lra).
  assert (B : (Zfloor y < 100)%Z) by (apply lt_IZR; pose proof (Zfloor_lb y); lra).
  assert (C : (0 <= Zceil y)%Z). { apply le_IZR. pose proof (Zceil_ub y). lra. }
  assert (D : (Zceil y <= 100)%Z) by (apply Zceil_glb; lra).
  split; [|split; [|lia]].
  - unfold filter_upper. fold y. rewrite double_to_int_small by lra. reflexivity.
  - unfold filter_lower. fold y. rewrite double_to_int_small; [rewrite Zfloor_IZR; reflexivity| |].
    + apply IZR_le. exact C.
    + apply IZR_le in D. lra.
Qed.
Lemma filter_decide_some F T Rd p q x : good_filter F -> (0 <= x < f_max F)%R -> exists b, filter_decide F T Rd p q x = Some b.
Proof.
  intros HF Hx. destruct (filter_bounds_some F x HF Hx) as (E1 & E2 & H1 & H2). unfold filter_decide. rewrite E1, E2.
  destruct (filter_stage_some F (Zfloor (100 / f_max F * x)) ltac:(lia)) as (y1 & ->).
  destruct (filter_stage_some F (Zceil (100 / f_max F * x)) ltac:(lia)) as (y2 & ->). cbn [obind].
  destruct (match y1 with XInf => _ | XFin _ => _ end); [eauto|]. destruct (xlt _ y2); eauto.
Qed.

(** ** one call *)
Definition pids (ab : hpoint * hpoint) : nat * nat := (pid (fst ab), pid (snd ab)).
Lemma hdecideI_spec t rg : good_rng rg -> forall ps g,
  exists es g', hdecideI t rg ps g = Some (es, g') /\
  flat_map event_pairs es = map pids ps /\
  le_count (flat_map event_edges es) (flat_map event_pairs es) /\
  (threshold_mode (h_T t) = true -> flat_map event_edges es = map pids (filter (fun ab => isDistanceBelowR (fst ab) (snd ab) (cosh (h_R t))) ps)).
Proof.
  intros GG. induction ps as [|[a b] ps IH]; intros g; cbn [hdecideI].
  - exists [], g. repeat split; auto. intros x. apply Nat.le_refl.
  - assert (Hh : exists hit g1, (if threshold_mode (h_T t) then Some (isDistanceBelowR a b (cosh (h_R t)), g)
                     else let (x, g') := u01 rg g in
                          do h <- filter_decide (typeI_filter t) (h_T t) (h_R t) a b x; Some (h, g')) = Some (hit, g1) /\
                (threshold_mode (h_T t) = true -> hit = isDistanceBelowR a b (cosh (h_R t)))).
    { destruct (threshold_mode (h_T t)); [eauto|]. pose proof (gu01 rg GG g) as Hu. destruct (u01 rg g) as [x g']. cbn [fst] in Hu.
      destruct (filter_decide_some (typeI_filter t) (h_T t) (h_R t) a b x) as (h & ->); [unfold good_filter; cbn; lra|cbn; lra|].
      cbn [obind]. do 2 eexists. split; [reflexivity|]. discriminate. }
    destruct Hh as (hit & g1 & E1 & E2). rewrite E1. cbn [obind].
    destruct (IH g1) as (es & g2 & E3 & I1 & I2 & I3). rewrite E3. cbn [obind].
    do 2 eexists. split; [reflexivity|]. cbn [flat_map map event_pairs event_edges filter fst snd app]. split; [now rewrite I1|]. split.
    + change ((pid a, pid b) :: flat_map event_pairs es) with ([(pid a, pid b)] ++ flat_map event_pairs es).
      apply le_count_app; auto. intros x. destruct hit; [apply Nat.le_refl|cbn; lia].
    + intros HT. rewrite (I3 HT), (E2 HT). destruct (isDistanceBelowR a b (cosh (h_R t))); reflexivity.
Qed.

Lemma hskip_loop_ok T Rd F rg ra rb : good_rng rg -> good_filter F -> NoDup (map pid ra) -> NoDup (map pid rb) ->
  N.of_nat (length ra * length rb) < 2 ^ 62 ->
  forall fuel r g, N.of_nat (length ra * length rb) <= r + N.of_nat fuel ->
  exists hits g', hskip_loop T Rd F rg ra rb fuel r g = Some (hits, g') /\ NoDup hits /\
    forall h, In h hits -> exists q a b, r <= q /\ q < N.of_nat (length ra * length rb) /\
    nth_error ra (N.to_nat (q mod N.of_nat (length ra))) = Some a /\ nth_error rb (N.to_nat (q / N.of_nat (length ra))) = Some b /\ h = (pid a, pid b).
Proof.
  intros GG HF Na Nb Hnum. set (num := N.of_nat (length ra * length rb)) in *.
  induction fuel as [|f IH]; intros r g Hf; cbn [hskip_loop]; fold num; destruct (N.leb_spec num r) as [L|L].
  - exists [], g. repeat split; [constructor|intros h []].
  - lia.
  - exists [], g. repeat split; [constructor|intros h []].
  - assert (La : 0 < N.of_nat (length ra)) by (unfold num in L; lia).
    pose proof (N.mod_lt r (N.of_nat (length ra)) ltac:(lia)) as Hm.
    assert (Hq : r / N.of_nat (length ra) < N.of_nat (length rb)).
    { apply N.div_lt_upper_bound; [lia|]. unfold num in L. rewrite Nat2N.inj_mul in L. exact L. }
    destruct (nth_error ra (N.to_nat (r mod N.of_nat (length ra)))) as [a|] eqn:Ea; [|apply nth_error_None in Ea; lia].
    destruct (nth_error rb (N.to_nat (r / N.of_nat (length ra)))) as [b|] eqn:Eb; [|apply nth_error_None in Eb; lia].
    cbn [obind]. pose proof (guni rg GG (f_max F) g HF) as Hx. destruct (uni0 rg (f_max F) g) as [x g1]. cbn [fst] in Hx.
    destruct (filter_decide_some F T Rd a b x HF Hx) as (hit & ->). cbn [obind].
    destruct (geo rg (f_max F) g1) as [k g2] eqn:Eg.
    assert (Hk : k < 2 ^ 63) by (pose proof (ggeo rg GG (f_max F) g1 HF) as H; now rewrite Eg in H).
    assert (K1 : 2 ^ 62 = 4611686018427387904) by reflexivity. assert (K2 : 2 ^ 63 = 9223372036854775808) by reflexivity.
    assert (K3 : 2 ^ 64 = 18446744073709551616) by reflexivity.
    rewrite (w64_small (1 + k)) by lia. rewrite w64_small by lia.
    destruct (IH (r + (1 + k)) g2 ltac:(lia)) as (hits & g' & E1 & E2 & E3). rewrite E1. cbn [obind].
    eexists. eexists. split; [reflexivity|]. split.
    + destruct hit; [|exact E2]. cbn [app]. constructor; auto. intros Hin.
      destruct (E3 _ Hin) as (q & a' & b' & Hrq & Hqn & Ha' & Hb' & Heq). injection Heq as Hia Hib.
      assert (P1 : N.to_nat (q mod N.of_nat (length ra)) = N.to_nat (r mod N.of_nat (length ra))).
      { apply (proj1 (NoDup_nth_error (map pid ra)) Na).
        - rewrite map_length. apply nth_error_Some. congruence.
        - rewrite (map_nth_error _ _ _ Ha'), (map_nth_error _ _ _ Ea). congruence. }
      assert (P2 : N.to_nat (q / N.of_nat (length ra)) = N.to_nat (r / N.of_nat (length ra))).
      { apply (proj1 (NoDup_nth_error (map pid rb)) Nb).
        - rewrite map_length. apply nth_error_Some. congruence.
        - rewrite (map_nth_error _ _ _ Hb'), (map_nth_error _ _ _ Eb). congruence. }
      pose proof (N.div_mod r (N.of_nat (length ra)) ltac:(lia)) as D1. pose proof (N.div_mod q (N.of_nat (length ra)) ltac:(lia)) as D2.
      apply N2Nat.inj in P1, P2. rewrite P1, P2 in D2. lia.
    + intros h Hh. apply in_app_or in Hh as [Hh|Hh].
      * destruct hit; [|destruct Hh]. destruct Hh as [<-|[]]. exists r, a, b. repeat split; auto; lia.
      * destruct (E3 _ Hh) as (q & a' & b' & Hrq & H). exists q, a', b'. split; [lia|exact H].
Qed.

Section Run.
  Variables (radii angles : list R) (T Rd : R).
  Hypotheses (DI : disc_input radii angles Rd).
  Variables (t : htree) (ord : list nat) (TS : htree_spec radii angles T Rd t ord).
  Variables (rg : rng) (GG : good_rng rg).
  Notation n := (length radii).
  Notation lay := (hlay radii Rd).
  Notation cel := (cel angles).
  Notation mk := (hmk radii angles Rd).
  Notation layers := (h_layers t).
  Notation levels := (h_levels t).

  Definition hV (i : nat) (A l : N) : list nat := filter (fun u => (lay u =? i)%nat && (cel l u =? A)) ord.
  Lemma hord_NoDup : NoDup ord.
  Proof. apply (Permutation_NoDup (Permutation_sym (hs_perm _ _ _ _ _ _ TS))), seq_NoDup. Qed.
  Lemma hord_In u : In u ord <-> (u < n)%nat.
  Proof.
    split; intros H.
    - apply (Permutation_in _ (hs_perm _ _ _ _ _ _ TS)) in H. apply in_seq in H. lia.
    - apply (Permutation_in _ (Permutation_sym (hs_perm _ _ _ _ _ _ TS))). apply in_seq. lia.
  Qed.
  Lemma hV_In u i A l : In u (hV i A l) <-> (u < n)%nat /\ lay u = i /\ cel l u = A.
  Proof. unfold hV. rewrite filter_In, hord_In, andb_true_iff, Nat.eqb_eq, N.eqb_eq. reflexivity. Qed.
  Lemma hV_NoDup i A l : NoDup (hV i A l).
  Proof. apply NoDup_filter, hord_NoDup. Qed.
  Lemma hV_count u i A l : (u < n)%nat -> count_occ Nat.eq_dec (hV i A l) u = inV lay cel u i A l.
  Proof.
    intros Hu. unfold inV. pose proof (proj1 (NoDup_count_occ Nat.eq_dec _) (hV_NoDup i A l) u) as H1.
    destruct (in_dec Nat.eq_dec u (hV i A l)) as [Hin|Hin].
    - pose proof Hin as H2. apply (count_occ_In Nat.eq_dec) in H2. apply hV_In in Hin as (_ & -> & ->).
      rewrite Nat.eqb_refl, N.eqb_refl. cbn. lia.
    - pose proof (proj1 (count_occ_not_In Nat.eq_dec _ _) Hin) as H2. rewrite H2. rewrite hV_In in Hin.
      destruct (Nat.eqb_spec (lay u) i), (N.eqb_spec (cel l u) A); cbn; auto. tauto.
  Qed.
  Lemma hV_length i A l : (length (hV i A l) <= n)%nat.
  Proof.
    transitivity (length ord); [|rewrite (Permutation_length (hs_perm _ _ _ _ _ _ TS)), seq_length; auto].
    unfold hV. generalize ord. intros L. induction L as [|a L IH]; cbn [filter length]; auto. destruct (_ && _); cbn [length]; lia.
  Qed.
  Lemma points_in_eq i A l : (i < layers)%nat -> l <= lev Rd i -> in_lv l A -> points_in t i A l = Some (map mk (hV i A l)).
  Proof.
    intros Hi Hl HA. destruct (hs_iter _ _ _ _ _ _ TS i A l Hi Hl HA) as (b & e & E1 & E2).
    unfold points_in. rewrite E1. cbn [obind]. exact E2.
  Qed.

  Lemma hbase_ok i j : (i < layers)%nat -> (j < layers)%nat ->
    base Rd i j <= lev Rd i /\ base Rd i j <= lev Rd j /\ base Rd i j < levels /\ h_base t i j = base Rd i j.
  Proof.
    intros Hi Hj. destruct (base_ok radii angles Rd DI t i j (hs_R _ _ _ _ _ _ TS) (hs_disc _ _ _ _ _ _ TS) (hs_layers _ _ _ _ _ _ TS) Hi Hj)
      as (_ & B1 & B2 & B3 & B4). rewrite (hs_levels _ _ _ _ _ _ TS). split; [exact B1|]. split; [exact B2|]. split; [lia|exact B4].
  Qed.
  Lemma hlevel_bound l : l < levels -> l <= 30.
  Proof.
    intros H. rewrite (hs_levels _ _ _ _ _ _ TS) in H. destruct (hm_ceil radii angles Rd DI) as (_ & M1 & _).
    destruct (lev_ok radii angles Rd DI 0 ltac:(lia)) as (_ & _ & B). lia.
  Qed.
  Lemma levels_pos : 0 < levels.
  Proof. rewrite (hs_levels _ _ _ _ _ _ TS). lia. Qed.

  (** *** the plan *)
  Definition htouchb (A B l : N) : bool := match htouching A B l with Some b => b | None => false end.
  Definition hplan : nat -> N -> N -> N -> list call := gplan layers levels (base Rd) htouchb hchild_pairs.
  Definition hseqplan : N -> nat -> N -> N -> N -> list call * list (N * N) := gseq layers levels (base Rd) htouchb hchild_pairs.
  Definition hkeep (nd : bool) (x : call) : bool := isI x || negb (nd && is_zero T).
  Lemma htouching_Some A B l : l < levels -> in_lv l A -> in_lv l B -> htouching A B l = Some (htouchb A B l).
  Proof. intros Hl HA HB. unfold htouchb. pose proof (hlevel_bound l Hl). rewrite (htouching_eq l) by (auto; lia). reflexivity. Qed.
  Lemma pairs_eq l : h_layer_pairs t l = gpairs layers (base Rd) l.
  Proof.
    unfold h_layer_pairs, gpairs. apply filter_ext_in. intros [i j] H. apply in_prod_iff in H as [Hi Hj]. apply in_seq in Hi, Hj. cbn [fst snd].
    destruct (hbase_ok i j ltac:(lia) ltac:(lia)) as (_ & _ & _ & ->). reflexivity.
  Qed.
  Lemma far_eq A B l : hfar_calls t A B l = gfar layers levels (base Rd) A B l.
  Proof. unfold hfar_calls, gfar. apply flat_map_ext. intros l'. now rewrite pairs_eq. Qed.
  Lemma near_eq A B l : hnear_calls t A B l = gnear layers (base Rd) A B l.
  Proof. unfold hnear_calls, gnear. now rewrite pairs_eq. Qed.
  Lemma hchild_lv A B l ab : l + 1 < levels -> in_lv l A -> in_lv l B -> In ab (hchild_pairs A B) -> in_lv (l + 1) (fst ab) /\ in_lv (l + 1) (snd ab).
  Proof.
    intros Hl HA HB H. pose proof (hlevel_bound _ Hl). destruct (hchild_pairs_in l A B ab ltac:(lia) HA HB H) as [H1 H2]. split; [apply (hkids_in_lv l A); [exact HA|exact H1]|apply (hkids_in_lv l B); [exact HB|exact H2]].
  Qed.
  Lemma hnear_keep nd A B l : filter (hkeep nd) (hnear_calls t A B l) = hnear_calls t A B l.
  Proof.
    apply filter_true. intros x Hx. unfold hnear_calls in Hx. apply in_flat_map in Hx as (ij & _ & Hx).
    destruct (negb (A =? B) || (fst ij <=? snd ij)%nat); [|destruct Hx]. destruct Hx as [<-|[]]. reflexivity.
  Qed.
  Lemma hfar_keep nd A B l : filter (hkeep nd) (hfar_calls t A B l) = if nd && is_zero T then [] else hfar_calls t A B l.
  Proof.
    assert (H : forall x, In x (hfar_calls t A B l) -> hkeep nd x = negb (nd && is_zero T)).
    { intros x Hx. unfold hfar_calls in Hx. apply in_flat_map in Hx as (l' & _ & Hx). apply in_map_iff in Hx as (ij & <- & _). reflexivity. }
    destruct (nd && is_zero T).
    - apply filter_none. intros x Hx. now rewrite (H x Hx).
    - apply filter_true. intros x Hx. now rewrite (H x Hx).
  Qed.

  Lemma hvisit_eq nd : forall k fuel A B l, l < levels -> k = N.to_nat (levels - 1 - l) -> (k <= fuel)%nat ->
    in_lv l A -> in_lv l B -> hvisit nd t fuel A B l = Some (filter (hkeep nd) (hplan k A B l)).
  Proof.
    induction k as [|k IH]; intros fuel A B l Hl Hk Hf HA HB; destruct fuel as [|f]; try lia;
      cbn [hvisit]; rewrite htouching_Some by assumption; cbn [obind]; unfold hplan; cbn [gplan]; rewrite (hs_T _ _ _ _ _ _ TS);
      destruct (htouchb A B l); cbn [negb]; rewrite <- ?far_eq, <- ?near_eq; try (now rewrite hfar_keep).
    - destruct (N.eqb_spec l (levels - 1)); [|lia]. rewrite app_nil_r. now rewrite hnear_keep.
    - destruct (N.eqb_spec l (levels - 1)); [|lia]. rewrite app_nil_r. now rewrite hnear_keep.
    - destruct (N.eqb_spec l (levels - 1)); [lia|].
      rewrite (omap_map _ (fun ab => filter (hkeep nd) (hplan k (fst ab) (snd ab) (l + 1)))).
      + cbn [obind]. rewrite filter_app, flat_map_filter. rewrite hnear_keep. rewrite flat_map_concat_map. reflexivity.
      + intros ab Hab. destruct (hchild_lv A B l ab ltac:(lia) HA HB Hab). apply IH; auto; lia.
  Qed.
  Lemma root_lv : in_lv 0 0.
  Proof. unfold in_lv, hfc. cbn. lia. Qed.

  (** *** calls made by the recursion *)
  Definition hcall_ok (x : call) : Prop :=
    match x with
    | CallI A B l i j => in_lv l A /\ in_lv l B /\ (i < layers)%nat /\ (j < layers)%nat /\ l = base Rd i j
    | CallII A B l i j => in_lv l A /\ in_lv l B /\ (i < layers)%nat /\ (j < layers)%nat /\ l <= base Rd i j /\ htouching A B l = Some false
    end.
  Lemma hgpairs_In i j l : In (i, j) (gpairs layers (base Rd) l) -> (i < layers)%nat /\ (j < layers)%nat /\ base Rd i j = l.
  Proof. unfold gpairs. rewrite filter_In, in_prod_iff, !in_seq. cbn [fst snd]. rewrite N.eqb_eq. lia. Qed.
  Lemma hplan_ok : forall k A B l, l < levels -> k = N.to_nat (levels - 1 - l) -> in_lv l A -> in_lv l B ->
    forall x, In x (hplan k A B l) -> hcall_ok x.
  Proof.
    assert (Hfar : forall A B l, l < levels -> in_lv l A -> in_lv l B -> htouchb A B l = false ->
       forall x, In x (gfar layers levels (base Rd) A B l) -> hcall_ok x).
    { intros A B l Hl HA HB Ht x Hx. unfold gfar in Hx. apply in_flat_map in Hx as (l' & Hl' & Hx). apply Nrange_In in Hl'.
      apply in_map_iff in Hx as ([i j] & <- & Hij). apply hgpairs_In in Hij as (Hi & Hj & Hb). cbn [fst snd hcall_ok].
      rewrite (htouching_Some A B l Hl HA HB), Ht. split; [exact HA|]. split; [exact HB|]. split; [exact Hi|]. split; [exact Hj|]. split; [lia|reflexivity]. }
    assert (Hnear : forall A B l, in_lv l A -> in_lv l B -> forall x, In x (gnear layers (base Rd) A B l) -> hcall_ok x).
    { intros A B l HA HB x Hx. unfold gnear in Hx. apply in_flat_map in Hx as ([i j] & Hij & Hx). apply hgpairs_In in Hij as (Hi & Hj & Hb).
      destruct (negb _ || _); [|destruct Hx]. destruct Hx as [<-|[]]. cbn [fst snd hcall_ok]. split; [exact HA|]. split; [exact HB|]. split; [exact Hi|]. split; [exact Hj|symmetry; exact Hb]. }
    induction k as [|k IH]; intros A B l Hl Hk HA HB x; unfold hplan; cbn [gplan]; destruct (htouchb A B l) eqn:Et; cbn [negb]; intros Hx;
      try (revert Hx; apply (Hfar A B l Hl HA HB Et)); apply in_app_or in Hx as [Hx|Hx]; try (revert Hx; apply Hnear; assumption); try (destruct Hx; fail).
    apply in_flat_map in Hx as (ab & Hab & Hx).
    destruct (hchild_lv A B l ab ltac:(lia) HA HB Hab) as [Ha Hb].
    revert Hx. apply IH; auto; lia.
  Qed.

  (** *** which pairs a call decides *)
  Definition hcall_pairs (x : call) : list (nat * nat) :=
    match x with
    | CallI A B l i j => if (A =? B) && (i =? j)%nat then uptri (hV i A l) else list_prod (hV i A l) (hV j B l)
    | CallII A B l i j => list_prod (hV i A l) (hV j B l)
    end.
  Definition hhit (u v : nat) : bool := isDistanceBelowR (mk u) (mk v) (cosh Rd).
  Lemma hhit_iff u v : (u < n)%nat -> (v < n)%nat ->
    hhit u v = true <-> (hc (rad radii u) (rad radii v) (phi angles u - phi angles v) < cosh Rd)%R.
  Proof.
    intros Hu Hv. unfold hhit, isDistanceBelowR. rewrite Rltb_true. cbn [coth_r invsinh_r cos_phi sin_phi hmk].
    destruct (rad_ok radii angles Rd DI u Hu) as [P1 _]. destruct (rad_ok radii angles Rd DI v Hv) as [P2 _].
    rewrite below_iff by (apply sinh_pos; assumption). unfold hc. reflexivity.
  Qed.
  Lemma hhit_sym u v : hhit u v = hhit v u.
  Proof.
    unfold hhit, isDistanceBelowR. f_equal; cbn [coth_r invsinh_r cos_phi sin_phi hmk]; ring.
  Qed.

  (** points in cells that do not touch *)
  Lemma nontouch_ring A B l i j : hcall_ok (CallII A B l i j) -> 2 <= ring l A B /\ 2 <= l <= 30 /\ A <> B.
  Proof.
    intros (HA & HB & Hi & Hj & Hl & Ht). destruct (hbase_ok i j Hi Hj) as (_ & _ & B3 & _). pose proof (hlevel_bound l ltac:(lia)) as L30.
    split; [|split; [split; [|exact L30]|]].
    - rewrite (htouching_eq l) in Ht by (auto; lia). injection Ht as Ht. apply N.leb_gt in Ht. lia.
    - destruct (N.le_gt_cases l 1) as [L|L]; [|lia]. rewrite (htouching_low l A B L HA HB) in Ht. discriminate.
    - intros <-. rewrite htouching_self in Ht. discriminate.
  Qed.
  (** the distance of any two such points, for an angle between the cells *)
  Lemma far_facts A B l i j u v th : hcall_ok (CallII A B l i j) -> In u (hV i A l) -> In v (hV j B l) ->
    (half (l - 1) <= th <= IZR (Z.of_N (ring l A B) - 1) * wid l)%R -> (th <= PI)%R ->
    (cosh Rd < hc (rmin Rd i) (rmin Rd j) th /\
     hc (rmin Rd i) (rmin Rd j) th <= hc (rad radii u) (rad radii v) (phi angles u - phi angles v))%R.
  Proof.
    intros Hok Hu Hv Hth HthPI. destruct (nontouch_ring A B l i j Hok) as (Hr & Hl2 & HAB). pose proof Hok as (HA & HB & Hi & Hj & Hl & Ht).
    apply hV_In in Hu as (Hun & Hlu & Hcu). apply hV_In in Hv as (Hvn & Hlv & Hcv).
    pose proof (HR radii angles Rd DI) as HR. pose proof (hs_disc _ _ _ _ _ _ TS) as HD. pose proof (hs_layers _ _ _ _ _ _ TS) as HL.
    assert (HK : (INR (layers - 1) < Rd)%R) by (apply (lt_hm radii angles Rd DI); lia).
    destruct (base_pos Rd layers i j HR HD HK Hi Hj ltac:(lia)) as [Ri Rj].
    destruct (base_spec Rd layers i j HR HD HK Hi Hj) as (B1 & _).
    apply pbl_spec in B1 as [_ B1]; [|lra]. specialize (B1 (l - 1) ltac:(lia)). unfold far_at in B1.
    destruct (hlay_spec radii angles Rd DI u Hun) as (_ & _ & U1 & _). destruct (hlay_spec radii angles Rd DI v Hvn) as (_ & _ & V1 & _).
    rewrite Hlu in U1. rewrite Hlv in V1.
    destruct (rad_ok radii angles Rd DI u Hun) as [_ U2]. destruct (rad_ok radii angles Rd DI v Hvn) as [_ V2].
    pose proof (phi_ok radii angles Rd DI u Hun) as Au. pose proof (phi_ok radii angles Rd DI v Hvn) as Av.
    destruct (half_range (l - 1)) as [Hh0 Hh1].
    assert (C1 : (hc (rmin Rd i) (rmin Rd j) (half (l - 1)) <= hc (rmin Rd i) (rmin Rd j) th)%R).
    { apply hc_angle_le; auto. apply cos_decr_1; lra. }
    split; [lra|].
    apply Rle_trans with (hc (rad radii u) (rad radii v) th).
    - apply (hc_mono Rd); lra.
    - apply hc_angle_le; try lra. apply cos_le_circ; [exact Au|exact Av|]. split; [lra|].
      eapply Rle_trans; [apply Hth|]. rewrite <- Hcu, <- Hcv. now apply circ_lower.
  Qed.
  Lemma ring_wid A B l : 2 <= l -> 2 <= ring l A B -> (half (l - 1) <= IZR (Z.of_N (ring l A B) - 1) * wid l)%R.
  Proof.
    intros Hl Hr. assert (E : half (l - 1) = wid l).
    { unfold half, wid. replace l with (l - 1 + 1) at 2 by lia. unfold pow2R at 2. rewrite N.pow_add_r, N2Z.inj_mul, mult_IZR. fold (pow2R (l - 1)).
      pose proof (pow2R_pos (l - 1)). change (IZR (Z.of_N (2 ^ 1))) with 2%R. field. lra. }
    rewrite E. pose proof (wid_pos l). rewrite <- (Rmult_1_l (wid l)) at 1. apply Rmult_le_compat_r; [lra|]. apply IZR_le. lia.
  Qed.
  Lemma hfar_bound A B l i j u v : hcall_ok (CallII A B l i j) -> In u (hV i A l) -> In v (hV j B l) -> hhit u v = false.
  Proof.
    intros Hok Hu Hv. destruct (nontouch_ring A B l i j Hok) as (Hr & Hl2 & HAB).
    destruct (half_range (l - 1)) as [Hh0 Hh1].
    destruct (far_facts A B l i j u v (half (l - 1)) Hok Hu Hv) as [F1 F2]; [split; [lra|apply ring_wid; lia]|lra|].
    apply hV_In in Hu as (Hun & _). apply hV_In in Hv as (Hvn & _).
    destruct (hhit u v) eqn:E; [|reflexivity]. apply hhit_iff in E; auto. lra.
  Qed.

  Lemma hcall_pairs_cnt2 x u v : (u < n)%nat -> (v < n)%nat -> u <> v -> cnt2 (hcall_pairs x) u v = S_call lay cel u v x.
  Proof.
    intros Hu Hv Hne. destruct x as [A B l i j|A B l i j]; cbn [hcall_pairs S_call].
    - destruct (N.eqb_spec A B) as [<-|HAB]; cbn [andb]; [destruct (Nat.eqb_spec i j) as [<-|Hij]; cbn [andb]|].
      + rewrite cnt2_uptri by exact Hne. now rewrite !hV_count.
      + unfold cnt2, two. rewrite !cnt_prod, !hV_count by assumption. reflexivity.
      + unfold cnt2, two. rewrite !cnt_prod, !hV_count by assumption. reflexivity.
    - unfold cnt2, two. rewrite !cnt_prod, !hV_count by assumption. reflexivity.
  Qed.
  Lemma hcall_pairs_In x u v : In (u, v) (hcall_pairs x) -> (u < n)%nat /\ (v < n)%nat.
  Proof.
    destruct x as [A B l i j|A B l i j]; cbn [hcall_pairs]; [destruct ((A =? B) && (i =? j)%nat)|]; intros H;
      try apply uptri_In in H as [H1 H2]; try (apply in_prod_iff in H as [H1 H2]); apply hV_In in H1, H2; tauto.
  Qed.
  Lemma hcall_pairs_irrefl x u : hcall_ok x -> ~ In (u, u) (hcall_pairs x).
  Proof.
    destruct x as [A B l i j|A B l i j]; intros Hok; cbn [hcall_pairs].
    - destruct (N.eqb_spec A B) as [<-|HAB]; cbn [andb]; [destruct (Nat.eqb_spec i j) as [<-|Hij]; cbn [andb]|].
      + apply uptri_irrefl, hV_NoDup.
      + rewrite in_prod_iff, !hV_In. intuition congruence.
      + rewrite in_prod_iff, !hV_In. intuition congruence.
    - destruct (nontouch_ring A B l i j Hok) as (_ & _ & HN). rewrite in_prod_iff, !hV_In. intuition congruence.
  Qed.

  (** conclusions about one call (or several calls run with one generator) *)
  Record hdecided (r : result (G rg)) (pairs : list (nat * nat)) : Prop := {
    hd_pairs : pairs_of r = pairs;
    hd_edges : le_count (edges_of r) (pairs_of r);
    hd_checks : (type1 r + type2 r = 2 * Z.of_nat (length (pairs_of r)))%Z;
    hd_zero : T = 0%R -> edges_of r = filter (fun uv => hhit (fst uv) (snd uv)) (pairs_of r) }.

  Lemma map_pid L : map pid (map mk L) = L.
  Proof. rewrite map_map. cbn [pid hmk]. apply map_id. Qed.
  Lemma map_pids L : map pids (map (fun ab => (mk (fst ab), mk (snd ab))) L) = L.
  Proof. rewrite map_map. unfold pids. cbn [pid hmk fst snd]. rewrite <- (map_id L) at 2. apply map_ext. intros [a b]. reflexivity. Qed.
  Lemma filter_map_pids L :
    map pids (filter (fun ab => isDistanceBelowR (fst ab) (snd ab) (cosh Rd)) (map (fun ab => (mk (fst ab), mk (snd ab))) L))
    = filter (fun uv => hhit (fst uv) (snd uv)) L.
  Proof.
    induction L as [|[u v] L IH]; [reflexivity|]. cbn [map filter fst snd]. fold (hhit u v).
    destruct (hhit u v); cbn [map]; rewrite IH; reflexivity.
  Qed.
  Lemma hdecided_nil g : hdecided {| evs := []; type1 := 0; type2 := 0; gen := g |} [].
  Proof. constructor; cbn; auto. intros x. apply Nat.le_refl. Qed.
  Lemma threshold_0 : T = 0%R -> threshold_mode T = true.
  Proof. intros ->. unfold threshold_mode. apply Rleb_true. left. apply Rdiv_lt_0_compat; [lra|]. apply IZR_lt. reflexivity. Qed.

  Lemma htypeI_ok A B l i j g : in_lv l A -> in_lv l B -> (i < layers)%nat -> (j < layers)%nat -> l <= base Rd i j ->
    exists r, hsampleTypeI t rg A B l i j g = Some r /\
      hdecided r (if (A =? B) && (i =? j)%nat then uptri (hV i A l) else list_prod (hV i A l) (hV j B l)).
  Proof.
    intros HA HB Hi Hj Hl. destruct (hbase_ok i j Hi Hj) as (B1 & B2 & _). unfold hsampleTypeI.
    rewrite (points_in_eq i A l Hi ltac:(lia) HA). cbn [obind]. rewrite (points_in_eq j B l Hj ltac:(lia) HB). cbn [obind].
    set (same := (A =? B) && (i =? j)%nat).
    assert (Hs : same = true -> hV i A l = hV j B l).
    { unfold same. intros H. apply andb_prop in H as [H1%N.eqb_eq H2%Nat.eqb_eq]. now subst. }
    set (va := hV i A l) in *. set (vb := hV j B l) in *.
    set (pairs := if same then uptri va else list_prod va vb).
    assert (Hp : pairsI same 0 (map mk va) (map mk vb) = map (fun ab => (mk (fst ab), mk (snd ab))) pairs).
    { unfold pairs. destruct same.
      - rewrite <- (Hs eq_refl), pairsI_same. apply uptri_map.
      - rewrite pairsI_prod. apply prod_map. }
    destruct va as [|a0 va'] eqn:Eva; [|destruct vb as [|b0 vb'] eqn:Evb].
    - cbn [map]. eexists. split; [reflexivity|]. assert (pairs = []) as -> by (unfold pairs; destruct same; reflexivity). apply hdecided_nil.
    - cbn [map]. eexists. split; [reflexivity|].
      assert (pairs = []) as ->. { unfold pairs. destruct same; [specialize (Hs eq_refl); discriminate|apply prod_nil_r]. } apply hdecided_nil.
    - rewrite <- Eva, <- Evb in *. destruct (map mk va) as [|a1 ra'] eqn:Era; [rewrite Eva in Era; discriminate|].
      destruct (map mk vb) as [|b1 rb'] eqn:Erb; [rewrite Evb in Erb; discriminate|]. rewrite <- Era, <- Erb in *.
      rewrite Hp.
      destruct (hdecideI_spec t rg GG (map (fun ab => (mk (fst ab), mk (snd ab))) pairs) g) as (es & g' & Ed & S1 & S2 & S3).
      rewrite Ed. cbn [obind]. eexists. split; [reflexivity|]. rewrite map_pids in S1.
      constructor; unfold pairs_of, edges_of; cbn [evs type1 type2].
      + exact S1.
      + exact S2.
      + rewrite S1, !map_length. unfold pairs. destruct same eqn:Es.
        * rewrite uptri_length, Eva. lia.
        * rewrite prod_length, Eva, Evb. lia.
      + intros H0. rewrite S1, S3 by (rewrite (hs_T _ _ _ _ _ _ TS); now apply threshold_0). rewrite (hs_R _ _ _ _ _ _ TS). apply filter_map_pids.
  Qed.

  (** the two envelope filters *)
  Lemma typeII_filters_eq i j l : 2 <= l <= 30 -> typeII_filters T Rd i j l =
    Some ({| f_max := 1 / connectionProbRec T Rd (hyp_distance (rmin Rd i) 0 (rmin Rd j) (IZR (Z.of_N (ring l (hfc l) (hfc l + 2) - 1)) * wid l)); f_R := Rd; f_T := T |},
          {| f_max := 1 / connectionProbRec T Rd (hyp_distance (rmin Rd i) 0 (rmin Rd j) (IZR (Z.of_N (ring l (hfc l) (hfc l + 3) - 1)) * wid l)); f_R := Rd; f_T := T |}).
  Proof.
    intros Hl. unfold typeII_filters. rewrite firstCell_Some by lia. cbn [obind].
    pose proof (pow2_lt 2 l ltac:(lia)) as P. change (2 ^ 2) with 4 in P.
    assert (H0 : in_lv l (hfc l)) by (unfold in_lv; rewrite hfc_succ; lia).
    assert (H2 : in_lv l (hfc l + 2)) by (unfold in_lv; rewrite hfc_succ; lia).
    assert (H3 : in_lv l (hfc l + 3)) by (unfold in_lv; rewrite hfc_succ; lia).
    rewrite !hdist_eq by (auto; lia). cbn [obind]. reflexivity.
  Qed.
  Lemma rec_gt_1 d : (1 < connectionProbRec T Rd d)%R.
  Proof. unfold connectionProbRec. pose proof (exp_pos (1 / 2 / T * (d - Rd))). lra. Qed.
  Lemma rec_good d : good_filter {| f_max := 1 / connectionProbRec T Rd d; f_R := Rd; f_T := T |}.
  Proof.
    unfold good_filter. cbn [f_max]. pose proof (rec_gt_1 d) as H. split; [apply Rdiv_lt_0_compat; lra|].
    unfold Rdiv. rewrite Rmult_1_l, <- Rinv_1. apply Rinv_le_contravar; lra.
  Qed.

  Lemma htypeII_ok A B l i j g : hcall_ok (CallII A B l i j) ->
    exists r, hsampleTypeII t rg A B l i j g = Some r /\ hdecided r (list_prod (hV i A l) (hV j B l)).
  Proof.
    intros Hok. pose proof Hok as (HA & HB & Hi & Hj & Hl & Ht). destruct (nontouch_ring A B l i j Hok) as (Hr & Hl2 & HAB).
    destruct (htypeI_ok A B l i j g HA HB Hi Hj Hl) as (rI & EI & DI').
    assert (Hs : (A =? B) && (i =? j)%nat = false) by (destruct (N.eqb_spec A B); [contradiction|reflexivity]). rewrite Hs in DI'.
    destruct (hbase_ok i j Hi Hj) as (B1 & B2 & B3 & B4). unfold hsampleTypeII.
    rewrite (points_in_eq i A l Hi ltac:(lia) HA). cbn [obind]. rewrite (points_in_eq j B l Hj ltac:(lia) HB). cbn [obind].
    set (ra := map mk (hV i A l)). set (rb := map mk (hV j B l)).
    set (checks := (2 * Z.of_nat (length ra) * Z.of_nat (length rb))%Z).
    assert (Hch : checks = (2 * Z.of_nat (length (list_prod (hV i A l) (hV j B l))))%Z).
    { unfold checks, ra, rb. rewrite prod_length, !map_length. lia. }
    assert (Hfar : forall u v, In (u, v) (list_prod (hV i A l) (hV j B l)) -> hhit u v = false).
    { intros u v H. apply in_prod_iff in H as [Hu Hv]. eapply hfar_bound; eauto. }
    assert (Hix : forall hits, flat_map event_pairs [EBlock (map pid ra) (map pid rb) hits] = list_prod (hV i A l) (hV j B l)).
    { intros hits. cbn [flat_map event_pairs]. rewrite app_nil_r. unfold ra, rb. now rewrite !map_pid. }
    assert (Hnone : forall g0, hdecided {| evs := [EBlock (map pid ra) (map pid rb) []]; type1 := 0; type2 := checks; gen := g0 |} (list_prod (hV i A l) (hV j B l))).
    { intros g0. constructor; unfold pairs_of, edges_of; cbn [evs type1 type2].
      - apply Hix.
      - intros x. cbn. lia.
      - rewrite Hix, <- Hch. lia.
      - intros _. rewrite Hix. cbn [flat_map event_edges app]. symmetry. apply filter_none. intros [u v] H1. apply (Hfar u v H1). }
    destruct (is_zero (h_T t) || (length ra =? 0)%nat || (length rb =? 0)%nat) eqn:Ez; [eexists; split; [reflexivity|apply Hnone]|].
    apply orb_false_iff in Ez as [Ez _]. apply orb_false_iff in Ez as [Ez _].
    assert (HT0 : T <> 0%R). { rewrite (hs_T _ _ _ _ _ _ TS) in Ez. unfold is_zero in Ez. destruct (Req_EM_T T 0); [discriminate|assumption]. }
    unfold lookup_filters. rewrite B4. rewrite (proj2 (N.leb_le 2 l)) by lia. rewrite (proj2 (N.leb_le l _) Hl). cbn [andb].
    rewrite (hs_T _ _ _ _ _ _ TS), (hs_R _ _ _ _ _ _ TS), typeII_filters_eq by lia. cbn [obind].
    rewrite (cellsBetween_eq l) by (auto; lia). cbn [obind].
    match goal with |- context [if ring l A B - 1 =? 1 then ?a else ?b] => set (F := if ring l A B - 1 =? 1 then a else b) end.
    assert (GF : good_filter F) by (unfold F; destruct (ring l A B - 1 =? 1); apply rec_good).
    destruct (Rltb (1 / 5) (f_max F)); [exists rI; split; [exact EI|exact DI']|].
    destruct (Rltb (INR (length ra * length rb) * f_max F) (1 / 1000000)); [eexists; split; [reflexivity|apply Hnone]|].
    destruct (geo rg (f_max F) g) as [r0 g1].
    assert (Hnum : N.of_nat (length ra * length rb) < 2 ^ 62).
    { unfold ra, rb. rewrite !map_length. pose proof (hV_length i A l) as L1. pose proof (hV_length j B l) as L2.
      pose proof (di_n31 _ _ _ DI) as Hn. change (2 ^ 31) with 2147483648 in Hn. change (2 ^ 62) with (2147483648 * 2147483648). rewrite Nat2N.inj_mul.
      apply N.mul_lt_mono; lia. }
    assert (Nra : NoDup (map pid ra)) by (unfold ra; rewrite map_pid; apply hV_NoDup).
    assert (Nrb : NoDup (map pid rb)) by (unfold rb; rewrite map_pid; apply hV_NoDup).
    destruct (hskip_loop_ok T Rd F rg ra rb GG GF Nra Nrb Hnum (length ra * length rb) r0 g1 ltac:(lia)) as (hits & g2 & E1 & E2 & E3).
    rewrite E1. cbn [obind]. eexists. split; [reflexivity|].
    constructor; unfold pairs_of, edges_of; cbn [evs type1 type2].
    - apply Hix.
    - rewrite Hix. cbn [flat_map event_edges]. rewrite app_nil_r. apply NoDup_le_count; auto.
      intros h Hh. destruct (E3 h Hh) as (q & a & b & _ & _ & Ha & Hb & ->).
      apply nth_error_In in Ha, Hb. unfold ra, rb in Ha, Hb. apply in_map_iff in Ha as (u & <- & Hu), Hb as (v & <- & Hv).
      cbn [pid hmk]. now apply in_prod.
    - rewrite Hix, <- Hch. lia.
    - intros Ha. contradiction.
  Qed.

  Lemma hcall_decided x g : hcall_ok x -> exists r, hrun_call t rg x g = Some r /\ hdecided r (hcall_pairs x).
  Proof.
    destruct x as [A B l i j|A B l i j]; intros Hok; cbn [hrun_call hcall_pairs].
    - destruct Hok as (HA & HB & Hi & Hj & Hl). apply htypeI_ok; auto. lia.
    - now apply htypeII_ok.
  Qed.
  Lemma hdecided_app r1 r2 p1 p2 g : hdecided r1 p1 -> hdecided r2 p2 ->
    hdecided {| evs := evs r1 ++ evs r2; type1 := type1 r1 + type1 r2; type2 := type2 r1 + type2 r2; gen := g |} (p1 ++ p2).
  Proof.
    intros [A1 A2 A3 A4] [B1 B2 B3 B4]. unfold pairs_of, edges_of in *.
    constructor; unfold pairs_of, edges_of; cbn [evs type1 type2]; rewrite ?flat_map_app.
    - now rewrite A1, B1.
    - now apply le_count_app.
    - rewrite app_length. lia.
    - intros Ha. now rewrite filter_app, (A4 Ha), (B4 Ha).
  Qed.
  Lemma hcalls_decided xs : (forall x, In x xs -> hcall_ok x) -> forall g,
    exists r, hrun_calls t rg xs g = Some r /\ hdecided r (flat_map hcall_pairs xs).
  Proof.
    induction xs as [|x xs IH]; intros Hok g; cbn [hrun_calls flat_map].
    - eexists. split; [reflexivity|]. apply hdecided_nil.
    - destruct (hcall_decided x g (Hok x (or_introl eq_refl))) as (r1 & E1 & D1). rewrite E1. cbn [obind].
      destruct (IH ltac:(intros; apply Hok; now right) (gen r1)) as (r2 & E2 & D2). rewrite E2. cbn [obind].
      eexists. split; [reflexivity|]. now apply hdecided_app.
  Qed.

  (** *** everything the recursion decides *)
  Notation plan0 := (hplan (N.to_nat (levels - 1)) 0 0 0).
  Lemma hplan0_ok x : In x plan0 -> hcall_ok x.
  Proof.
    intros Hx. pose proof levels_pos. apply (hplan_ok (N.to_nat (levels - 1)) 0 0 0); auto; try apply root_lv. lia.
  Qed.
  Lemma hkids_NoDup A : NoDup (hkids A).
  Proof. unfold hkids. constructor; [intros [H|[]]; lia|]. constructor; [intros []|constructor]. Qed.
  Lemma hplan0_total u v : (u < n)%nat -> (v < n)%nat -> total lay cel plan0 u v = 1%nat.
  Proof.
    intros Hu Hv. pose proof (hs_lay _ _ _ _ _ _ TS u Hu) as Lu. pose proof (hs_lay _ _ _ _ _ _ TS v Hv) as Lv.
    unfold hplan. rewrite (cover_total layers levels (base Rd) htouchb hkids hchild_pairs in_lv).
    - destruct (N.ltb_spec (base Rd (lay u) (lay v)) 0); [lia|]. unfold pairind. rewrite N.eqb_refl.
      assert (H0 : forall x, (x < n)%nat -> cel 0 x = 0).
      { intros x Hx. unfold Hyp_Build.cel. pose proof (hcel_in 0 (phi angles x) (phi_ok radii angles Rd DI x Hx)) as [_ H1].
        unfold hfc in H1. change (2 ^ (0 + 1) - 1) with 1 in H1. apply N.lt_1_r. exact H1. }
      rewrite !H0 by assumption. reflexivity.
    - intros i j. apply base_sym.
    - intros i j Hi Hj. apply hbase_ok; assumption.
    - intros A l HA Hl. unfold htouchb. now rewrite htouching_self.
    - intros A B l HA HB Hl. apply (hchild_pairs_eq l); auto. pose proof (hlevel_bound _ Hl). lia.
    - intros A l HA Hl. apply hkids_NoDup.
    - intros A l a HA Hl Ha. eapply hkids_in_lv; eauto.
    - intros A B l a HA HB Hl H1 H2. cbn [hkids In] in H1, H2. lia.
    - exact Lu.
    - exact Lv.
    - intros x l A Hx HA Hl _. assert (Hxn : (x < n)%nat) by (destruct Hx; subst; assumption).
      apply hkids_iff; auto. apply (phi_ok radii angles Rd DI x Hxn).
    - apply root_lv.
    - apply root_lv.
    - apply levels_pos.
    - lia.
  Qed.
  Lemma hplan0_pairs u v : (u < n)%nat -> (v < n)%nat -> u <> v -> cnt2 (flat_map hcall_pairs plan0) u v = 1%nat.
  Proof.
    intros Hu Hv Hne. rewrite cnt2_flat_map. rewrite <- (hplan0_total u v Hu Hv). unfold total. f_equal. apply map_ext_in.
    intros x _. now apply hcall_pairs_cnt2.
  Qed.
End Run.
