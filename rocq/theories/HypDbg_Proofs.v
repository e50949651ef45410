(** The assertions of a debug build of the hyperbolic generator hold: proofs. *)
From Coq Require Import Arith NArith ZArith List Bool Reals Lia Lra Permutation Sorted.
From Flocq Require Import Core.
From Verif Require Import Base Sched Coord_Model Coord_Proofs Coord_Geo Coord_Torus IntSort_Model IntSort_Proofs Prefix_Model Prop_IntSort Prop_Prefix Tree_Model Cover Tree_Proofs Tree_Build Tree_Run Girg_Model.
From Verif Require Import Hyp_Model Hyp_Math Hyp_Angle Hyp_Levels Hyp_Build Hyp_Run Hyp_Filter Hyp_Sched Hyp_Threads Hyp_Gen Dbg_Base HypDbg_Model.
Import ListNotations.
Local Open Scope N_scope.

Lemma dassert_true b : b = true -> dassert b = Some tt. Proof. intros ->. reflexivity. Qed.
Lemma is_sorted_iff l : StronglySorted N.le l -> is_sorted l = true.
Proof.
  induction 1 as [|a l S IH F]; [reflexivity|]. destruct l as [|b l]; [reflexivity|]. change (is_sorted (a :: b :: l)) with ((a <=? b) && is_sorted (b :: l)). rewrite IH, andb_true_r.
  apply N.leb_le. rewrite Forall_forall in F. apply F. now left.
Qed.

Lemma nth_firstn {X} (l : list X) m k : (k < m)%nat -> nth_error (firstn m l) k = nth_error l k.
Proof. revert m k. induction l as [|x l IH]; intros [|m] [|k] H; try lia; try reflexivity. cbn. apply IH. lia. Qed.
Lemma nth_skipn {X} (l : list X) m k : nth_error (skipn m l) k = nth_error l (m + k).
Proof. revert m k. induction l as [|x l IH]; intros [|m] k; try reflexivity; [now destruct k|]. cbn. apply IH. Qed.

(** ** children of touching cells have at most two cells between them *)
Lemma ring_children l A B a b : (l < 31) -> in_lv l A -> in_lv l B -> ring l A B <= 1 -> In a (hkids A) -> In b (hkids B) -> ring (l + 1) a b <= 3.
Proof.
  intros Hl HA HB Hr Ha Hb. pose proof (cell_diff_lt l A B HA HB) as Hd.
  assert (E : 2 ^ (l + 1) = 2 * 2 ^ l) by (rewrite N.pow_add_r, N.pow_1_r; lia).
  unfold ring in *. rewrite E. unfold cell_diff in *. unfold hkids in *. cbn [In] in Ha, Hb.
  destruct Ha as [<-|[<-|[]]], Hb as [<-|[<-|[]]]; lia.
Qed.

Section DebugRun.
  Variables (radii angles : list R) (T Rd : R).
  Hypotheses (DI : disc_input radii angles Rd).
  Hypotheses (Hin : Forall (fun r => r < Rd)%R radii) (HR1 : (1 <= Rd)%R) (HT : (0 <= T)%R) (HTR : (2 * T * ln 99 <= Rd)%R).
  Variables (t : htree) (ord : list nat) (TS : htree_spec radii angles T Rd t ord).
  Variables (rg : rng) (GG : good_rng rg).
  Notation n := (length radii).
  Notation lay := (hlay radii Rd).
  Notation cel := (cel angles).
  Notation mk := (hmk radii angles Rd).
  Notation layers := (h_layers t).
  Notation levels := (h_levels t).
  Notation V := (hV radii angles Rd ord).
  Notation call_ok := (hcall_ok Rd t).
  Notation plan := (hplan Rd t).

  (** *** every executed call on cells that do not touch has one or two cells between them *)
  Definition near_enough (x : call) : Prop := match x with CallI _ _ _ _ _ => True | CallII A B l _ _ => ring l A B <= 3 end.
  Lemma plan_near : forall k A B l, l < levels -> k = N.to_nat (levels - 1 - l) -> in_lv l A -> in_lv l B -> ring l A B <= 3 ->
    forall x, In x (plan k A B l) -> near_enough x.
  Proof.
    assert (Hfar : forall A B l, ring l A B <= 3 -> forall x, In x (gfar layers levels (base Rd) A B l) -> near_enough x).
    { intros A B l Hr x Hx. unfold gfar in Hx. apply in_flat_map in Hx as (l' & _ & Hx). apply in_map_iff in Hx as ([i j] & <- & _). exact Hr. }
    assert (Hnear : forall A B l x, In x (gnear layers (base Rd) A B l) -> near_enough x).
    { intros A B l x Hx. unfold gnear in Hx. apply in_flat_map in Hx as ([i j] & _ & Hx). destruct (negb _ || _); [|destruct Hx]. destruct Hx as [<-|[]]. exact I. }
    induction k as [|k IH]; intros A B l Hl Hk HA HB Hr x; unfold hplan; cbn [gplan]; destruct (htouchb A B l) eqn:Et; cbn [negb]; intros Hx;
      try (revert Hx; apply (Hfar A B l Hr)); apply in_app_or in Hx as [Hx|Hx]; try (revert Hx; apply Hnear); try (destruct Hx; fail).
    apply in_flat_map in Hx as (ab & Hab & Hx). assert (L30 : l + 1 <= 30) by (apply (hlevel_bound radii angles T Rd DI t ord TS); lia).
    destruct (hchild_pairs_in l A B ab ltac:(lia) HA HB Hab) as [Ka Kb].
    assert (Hr1 : ring l A B <= 1).
    { unfold htouchb in Et. rewrite (htouching_eq l A B ltac:(lia) HA HB) in Et. now apply N.leb_le. }
    revert Hx. apply IH; try lia; [apply (hkids_in_lv l A); auto|apply (hkids_in_lv l B); auto|].
    apply (ring_children l A B); auto. lia.
  Qed.
  Lemma plan0_near x : In x (plan (N.to_nat (levels - 1)) 0 0 0) -> near_enough x.
  Proof.
    pose proof (levels_pos radii angles T Rd t ord TS). apply plan_near; try exact root_lv; try lia. unfold ring, cell_diff. cbn. lia.
  Qed.

  (** *** the points *)
  Lemma rad_lt u : (u < n)%nat -> (0 < rad radii u < Rd)%R.
  Proof.
    intros Hu. destruct (rad_ok radii angles Rd DI u Hu) as [H0 _]. split; [exact H0|]. rewrite Forall_forall in Hin. apply Hin. apply nth_In. exact Hu.
  Qed.
  Lemma p_radius_eq u : (u < n)%nat -> p_radius radii (mk u) = Some (rad radii u).
  Proof. intros Hu. unfold p_radius. cbn [pid hmk]. apply nth_error_nth'. exact Hu. Qed.
  Lemma p_angle_eq u : (u < n)%nat -> p_angle angles (mk u) = Some (phi angles u).
  Proof. intros Hu. unfold p_angle. cbn [pid hmk]. apply nth_error_nth'. now rewrite <- (di_len _ _ _ DI). Qed.
  Lemma target_eq i : (i < layers)%nat -> nth_error (h_level t) i = Some (lev Rd i) /\ lev Rd i <= 30.
  Proof.
    intros Hi. pose proof (hs_layers _ _ _ _ _ _ TS) as HL. rewrite (hs_level _ _ _ _ _ _ TS).
    rewrite (map_nth_error _ i (seq 0 (hm Rd)) (nth_error_seq 0 (hm Rd) i ltac:(lia))). split; [reflexivity|].
    apply (lev_ok radii angles Rd DI i). lia.
  Qed.
  Lemma levelled_eq target A l : l <= target -> target <= 30 -> in_lv l A ->
    exists b e, hlevelledCell target A l = Some (b, e) /\ dlevelledCell target A l = Some (b, e) /\ b <= e /\ e < 2 ^ target.
  Proof.
    intros Hl Ht HA. unfold dlevelledCell, hlevelledCell. rewrite (proj2 (N.ltb_ge _ _) Hl), (dassert_true _ (proj2 (N.leb_le _ _) Hl)).
    rewrite numCells_Some by lia. cbn [obind]. rewrite !firstCell_Some by lia. cbn [obind]. pose proof HA as [H1 H2].
    rewrite (proj2 (N.leb_le _ _) H1), (proj2 (N.ltb_lt _ _) H2). cbn [andb dassert obind]. rewrite (proj2 (N.ltb_ge _ _) H1).
    set (desc := 2 ^ (target - l)). set (loc := A - hfc l).
    assert (Hd : 0 < desc) by apply pow2_pos.
    assert (Hloc : loc < 2 ^ l) by (unfold loc; rewrite hfc_succ in H2; lia).
    assert (Htot : 2 ^ target = 2 ^ l * desc) by (unfold desc; rewrite <- N.pow_add_r; f_equal; lia).
    assert (Hup : loc * desc + desc <= 2 ^ target) by (rewrite Htot; nia).
    assert (P : 2 ^ target <= 2 ^ 30) by (apply N.pow_le_mono_r; lia). change (2 ^ 30) with 1073741824 in P.
    rewrite !w32_small by (change (2 ^ 32) with 4294967296; lia || (rewrite w32_small by (change (2 ^ 32) with 4294967296; lia); lia)).
    exists (loc * desc), (loc * desc + desc - 1). split; [reflexivity|]. cbn [obind].
    rewrite (dassert_true _ (proj2 (N.leb_le (loc * desc) (loc * desc + desc - 1)) ltac:(lia))). cbn [obind]. repeat split; lia.
  Qed.
  Lemma dlevelled_some i A l : (i < layers)%nat -> l <= lev Rd i -> in_lv l A -> exists be, dlevelledCell (lev Rd i) A l = Some be.
  Proof.
    intros Hi Hl HA. destruct (target_eq i Hi) as [_ B]. destruct (levelled_eq (lev Rd i) A l Hl B HA) as (b & e & _ & E & _). eauto.
  Qed.
  Lemma iter_le i A l : (i < layers)%nat -> l <= lev Rd i -> in_lv l A ->
    exists b e, hcellIterators t i A l = Some (b, e) /\ (b <= e)%nat /\ slice (h_points t) b e = Some (map mk (V i A l)) /\ length (V i A l) = (e - b)%nat.
  Proof.
    intros Hi Hl HA. destruct (hs_iter _ _ _ _ _ _ TS i A l Hi Hl HA) as (b & e & E1 & E2). exists b, e. split; [exact E1|].
    pose proof E2 as E3. unfold slice in E3. destruct ((b <=? e)%nat && (e <=? length (h_points t))%nat) eqn:E; [|discriminate].
    apply andb_prop in E as [L1%Nat.leb_le L2%Nat.leb_le]. split; [exact L1|]. split; [exact E2|].
    injection E3 as E3. apply (f_equal (@length _)) in E3. rewrite map_length, firstn_length, skipn_length in E3. fold (V i A l) in E3. lia.
  Qed.
  Lemma dpoints_in_eq i A l : (i < layers)%nat -> l <= lev Rd i -> in_lv l A -> dpoints_in t i A l = Some (map mk (V i A l)).
  Proof.
    intros Hi Hl HA. unfold dpoints_in, dcellIterators. rewrite (proj1 (target_eq i Hi)). cbn [obind].
    destruct (dlevelled_some i A l Hi Hl HA) as ([x y] & ->). cbn [obind].
    destruct (iter_le i A l Hi Hl HA) as (b & e & -> & L & E & _). cbn [obind].
    rewrite (dassert_true _ (proj2 (Nat.leb_le _ _) L)). cbn [obind]. exact E.
  Qed.
  Lemma dpointsInCell_eq i A l : (i < layers)%nat -> l <= lev Rd i -> in_lv l A -> dpointsInCell t i A l = Some (Z.of_nat (length (V i A l))).
  Proof.
    intros Hi Hl HA. unfold dpointsInCell. destruct (target_eq i Hi) as [Et B]. rewrite Et. cbn [obind].
    destruct (levelled_eq (lev Rd i) A l Hl B HA) as (b & e & _ & E & L1 & L2). rewrite E. cbn [obind].
    rewrite !firstCell_Some by lia. cbn [obind].
    assert (P : 2 ^ lev Rd i <= 2 ^ 30) by (apply N.pow_le_mono_r; lia). change (2 ^ 30) with 1073741824 in P.
    assert (F : hfc l + 2 ^ lev Rd i <= hfc (lev Rd i + 1)).
    { rewrite hfc_succ. assert (hfc l <= hfc (lev Rd i)) by (unfold hfc; pose proof (pow2_lt l (lev Rd i) Hl); lia). lia. }
    assert (F2 : hfc l < 2 ^ 30). { unfold hfc. pose proof (pow2_lt l 30 ltac:(lia)). pose proof (pow2_pos l). lia. } change (2 ^ 30) with 1073741824 in F2.
    rewrite !w32_small by (change (2 ^ 32) with 4294967296; lia).
    rewrite (dassert_true _ (proj2 (N.ltb_lt (b + hfc l) (hfc (lev Rd i + 1))) ltac:(lia))), (dassert_true _ (proj2 (N.ltb_lt (e + hfc l) (hfc (lev Rd i + 1))) ltac:(lia))).
    cbn [obind]. unfold hpointsInCell. destruct (iter_le i A l Hi Hl HA) as (b' & e' & -> & L & _ & E'). cbn [obind]. f_equal. lia.
  Qed.
  Lemma dkthPoint_eq i A l k u : (i < layers)%nat -> l <= lev Rd i -> in_lv l A -> nth_error (V i A l) k = Some u -> dkthPoint t i A l k = Some (mk u).
  Proof.
    intros Hi Hl HA Hk. unfold dkthPoint. rewrite (proj1 (target_eq i Hi)). cbn [obind].
    destruct (dlevelled_some i A l Hi Hl HA) as ([x y] & ->). cbn [obind]. unfold hkthPoint.
    destruct (iter_le i A l Hi Hl HA) as (b & e & -> & L & E & E'). cbn [obind].
    unfold slice in E. destruct ((b <=? e)%nat && (e <=? length (h_points t))%nat) eqn:Eb; [|discriminate]. injection E as E.
    assert (Hlt : (k < e - b)%nat) by (rewrite <- E'; apply nth_error_Some; congruence).
    assert (Q : nth_error (map mk (V i A l)) k = Some (mk u)) by now apply map_nth_error.
    rewrite <- E in Q. rewrite <- Q. symmetry. rewrite nth_firstn by lia. apply nth_skipn.
  Qed.
  Lemma place_ok i A l u : (i < layers)%nat -> l <= lev Rd i -> in_lv l A -> In u (V i A l) -> place_asserts radii angles t i A l (mk u) = Some tt.
  Proof.
    intros Hi Hl HA Hu. apply (hV_In radii angles T Rd t ord TS) in Hu as (Hun & Hlu & Hcu). unfold place_asserts.
    rewrite p_radius_eq, p_angle_eq by exact Hun. cbn [obind]. destruct (target_eq i Hi) as [_ B]. rewrite firstCell_Some by lia. cbn [obind].
    pose proof (phi_ok radii angles Rd DI u Hun) as Au. rewrite hcellForPoint_eq by (auto; lia). cbn [obind].
    unfold Hyp_Build.cel, hcel in Hcu. rewrite <- Hcu.
    assert (B1 : hidx l (phi angles u) < 2 ^ l) by now apply hidx_lt. pose proof (pow2_lt l 30 ltac:(lia)) as P. change (2 ^ 30) with 1073741824 in P.
    assert (F : hfc l < 2 ^ l) by (unfold hfc; pose proof (pow2_pos l); lia).
    replace (hfc l + hidx l (phi angles u) + 2 ^ 32 - hfc l) with (hidx l (phi angles u) + 1 * 2 ^ 32) by lia.
    assert (W : w32 (hidx l (phi angles u) + 1 * 2 ^ 32) = hidx l (phi angles u)).
    { unfold w32. rewrite N.land_ones, N.mod_add by discriminate. apply N.mod_small. change (2 ^ 32) with 4294967296. lia. }
    rewrite W, N.eqb_refl. cbn [dassert obind].
    destruct (hlay_spec radii angles Rd DI u Hun) as (_ & _ & R1 & R2). rewrite Hlu in R1, R2. rewrite (hs_R _ _ _ _ _ _ TS). apply dassert_true.
    apply andb_true_intro. split; [apply Rltb_true; exact R1|apply Rleb_true; exact R2].
  Qed.

  (** *** the decision *)
  Lemma dfilter_eq F p q x : (0 < T)%R -> f_R F = Rd -> f_T F = T -> (0 < f_max F <= 1)%R -> (0 <= x < f_max F)%R -> (1 <= distanceCosh p q)%R ->
    (0 <= Rd + 2 * T * ln (1 / (f_max F / 100 * 99) - 1))%R -> dfilter_decide F T Rd p q x = filter_decide F T Rd p q x.
  Proof.
    intros H0 ER ET HM Hx Hc Hlast. pose proof (filter_exact F T Rd p q x H0 ER ET HM Hx Hc Hlast) as E. rewrite <- rec_eq in E by lra.
    unfold filter_decide in E |- *. unfold dfilter_decide. cbv zeta in *. rewrite (dassert_true _ (proj2 (Rltb_true _ _) (proj2 Hx))). cbn [obind].
    destruct (filter_upper F x) as [up|]; [|reflexivity]. cbn [obind] in *.
    destruct (match up with XInf => false | XFin y => Rltb y (distanceCosh p q) end).
    - injection E as E. symmetry in E. apply Rltb_false in E. rewrite (dassert_true _ (proj2 (Rleb_true _ _) E)). reflexivity.
    - destruct (filter_lower F x) as [lo|]; [|reflexivity]. cbn [obind] in *. destruct (xlt (distanceCosh p q) lo); [|reflexivity].
      injection E as E. rewrite <- E. reflexivity.
  Qed.
  Lemma mk_cosh u v : (u < n)%nat -> (v < n)%nat -> distanceCosh (mk u) (mk v) = hc (rad radii u) (rad radii v) (phi angles u - phi angles v).
  Proof.
    intros Hu Hv. destruct (rad_lt u Hu) as [P1 _]. destruct (rad_lt v Hv) as [P2 _].
    apply (distanceCosh_eq (mk u) (mk v) u v (rad radii u) (phi angles u) (pcell (mk u)) (rad radii v) (phi angles v) (pcell (mk v))); auto.
    - unfold mk_point. destruct (Req_EM_T (rad radii u) 0); [lra|]. reflexivity.
    - unfold mk_point. destruct (Req_EM_T (rad radii v) 0); [lra|]. reflexivity.
  Qed.
  Lemma threshold_false : threshold_mode T = false -> (0 < T)%R.
  Proof.
    unfold threshold_mode. intros H. assert (~ (T <= 1 / IZR (2 ^ 52))%R) by (intros C; apply (proj2 (Rleb_true _ _)) in C; congruence).
    assert (0 < 1 / IZR (2 ^ 52))%R by (apply Rdiv_lt_0_compat; [lra|apply IZR_lt; reflexivity]). lra.
  Qed.

  (** *** sampleTypeI *)
  Definition goodI (A B l : N) (i j : nat) (x : (nat * hpoint) * (nat * hpoint)) : Prop :=
    exists u v, snd (fst x) = mk u /\ snd (snd x) = mk v /\ nth_error (V i A l) (fst (fst x)) = Some u /\ nth_error (V j B l) (fst (snd x)) = Some v /\ u <> v.
  Definition forget (x : (nat * hpoint) * (nat * hpoint)) : hpoint * hpoint := (snd (fst x), snd (snd x)).
  Lemma ddecideI_eq A B l i j : in_lv l A -> in_lv l B -> (i < layers)%nat -> (j < layers)%nat -> l <= base Rd i j ->
    forall ps g, Forall (goodI A B l i j) ps -> ddecideI radii angles t rg A B l i j ps g = hdecideI t rg (map forget ps) g.
  Proof.
    intros HA HB Hi Hj Hl. destruct (hbase_ok radii angles T Rd DI t ord TS i j Hi Hj) as (B1 & B2 & _).
    induction ps as [|[[ka a] [kb b]] ps IH]; intros g HF; [reflexivity|]. inversion HF as [|x L G1 G2]; subst.
    cbn [ddecideI map hdecideI forget fst snd]. destruct G1 as (u & v & Eu & Ev & Ku & Kv & Huv). cbn [fst snd] in *. subst a b.
    pose proof (nth_error_In _ _ Ku) as Iu. pose proof (nth_error_In _ _ Kv) as Iv.
    assert (P : dpairI radii angles t A B l i j ka (mk u) kb (mk v) = Some tt).
    { unfold dpairI. rewrite (dkthPoint_eq i A l ka u Hi ltac:(lia) HA Ku). cbn [obind]. rewrite Nat.eqb_refl. cbn [dassert obind].
      rewrite (dkthPoint_eq j B l kb v Hj ltac:(lia) HB Kv). cbn [obind]. rewrite Nat.eqb_refl. cbn [dassert obind].
      rewrite (place_ok i A l u Hi ltac:(lia) HA Iu). cbn [obind]. rewrite (place_ok j B l v Hj ltac:(lia) HB Iv). cbn [obind].
      apply dassert_true. cbn [pid hmk]. destruct (Nat.eqb_spec u v); [contradiction|reflexivity]. }
    rewrite P. cbn [obind].
    pose proof (proj1 (hV_In radii angles T Rd t ord TS u i A l) Iu) as (Hun & _). pose proof (proj1 (hV_In radii angles T Rd t ord TS v j B l) Iv) as (Hvn & _).
    match goal with |- obind ?X _ = obind ?Y _ => assert (E : X = Y) end.
    { unfold typeI_filter. rewrite (hs_T _ _ _ _ _ _ TS), (hs_R _ _ _ _ _ _ TS). destruct (threshold_mode T) eqn:Em.
      - destruct (rad_lt u Hun) as [R1 R2]. cbn [invsinh_r hmk].
        assert (HS : (1 / (1 / sinh (rad radii u)) < cosh Rd)%R).
        { pose proof (sinh_pos _ R1) as SP. replace (1 / (1 / sinh (rad radii u)))%R with (sinh (rad radii u)) by (field; lra).
          apply Rlt_trans with (cosh (rad radii u)); [|apply cosh_lt; lra].
          pose proof (cosh_plus_sinh (- rad radii u)) as H. rewrite cosh_opp, sinh_opp in H. pose proof (exp_pos (- rad radii u)). lra. }
        rewrite (dassert_true _ (proj2 (Rltb_true _ _) HS)). cbn [obind]. cbv zeta. rewrite !p_radius_eq, !p_angle_eq by assumption. cbn [obind].
        rewrite dassert_true; [reflexivity|]. destruct (isDistanceBelowR (mk u) (mk v) (cosh Rd)) eqn:Eh; [|reflexivity]. cbn [negb orb].
        fold (hhit radii angles Rd u v) in Eh. apply (hhit_iff radii angles Rd DI u v Hun Hvn) in Eh. apply Rltb_true. rewrite hyp_distance_eq.
        apply acosh_lt_iff; [apply hc_ge_1|lra|exact Eh].
      - pose proof (gu01 rg GG g) as Hu. destruct (u01 rg g) as [x g']. cbn [fst] in Hu.
        pose proof (threshold_false Em) as T0.
        rewrite dfilter_eq; try reflexivity; cbn [f_max]; try lra; [apply distanceCosh_ge_1|]. apply last_stage_typeI; assumption. }
    rewrite E. match goal with |- obind ?X _ = obind ?X _ => destruct X as [[hit g1]|] end; [|reflexivity]. cbn [obind]. rewrite IH by exact G2. reflexivity.
  Qed.
  Lemma map_snd_numbered (L : list hpoint) : map snd (numbered L) = L.
  Proof.
    unfold numbered. generalize 0%nat. induction L as [|a L IH]; intros k; cbn [length seq combine map]; [reflexivity|]. f_equal. apply IH.
  Qed.
  Lemma numbered_In (L : list hpoint) k a : In (k, a) (numbered L) -> nth_error L k = Some a.
  Proof.
    unfold numbered. enough (H : forall s, In (k, a) (combine (seq s (length L)) L) -> (s <= k)%nat /\ nth_error L (k - s) = Some a).
    { intros Hk. destruct (H 0%nat Hk) as [_ E]. now rewrite Nat.sub_0_r in E. }
    induction L as [|b L IH]; intros s Hk; [destruct Hk|]. cbn [length seq combine In] in Hk. destruct Hk as [[= <- <-]|Hk].
    - rewrite Nat.sub_diag. split; auto.
    - destruct (IH (S s) Hk) as [L1 E]. split; [lia|]. replace (k - s)%nat with (S (k - S s)) by lia. exact E.
  Qed.
  Lemma forget_pairs same LA LB : (same = true -> LA = LB) -> map forget (pairsI same 0 (numbered LA) (numbered LB)) = pairsI same 0 LA LB.
  Proof.
    intros Hs. destruct same.
    - rewrite <- (Hs eq_refl), !pairsI_same. rewrite <- (map_snd_numbered LA) at 2. rewrite uptri_map. reflexivity.
    - rewrite !pairsI_prod. rewrite <- (map_snd_numbered LA) at 2. rewrite <- (map_snd_numbered LB) at 2. rewrite prod_map. reflexivity.
  Qed.
  Lemma dsampleTypeI_eq A B l i j g : in_lv l A -> in_lv l B -> (i < layers)%nat -> (j < layers)%nat -> l <= base Rd i j ->
    dsampleTypeI radii angles t rg A B l i j g = hsampleTypeI t rg A B l i j g.
  Proof.
    intros HA HB Hi Hj Hl. destruct (hbase_ok radii angles T Rd DI t ord TS i j Hi Hj) as (B1 & B2 & _). unfold dsampleTypeI, hsampleTypeI.
    rewrite (dpoints_in_eq i A l Hi ltac:(lia) HA), (dpoints_in_eq j B l Hj ltac:(lia) HB).
    rewrite (points_in_eq radii angles T Rd t ord TS i A l Hi ltac:(lia) HA), (points_in_eq radii angles T Rd t ord TS j B l Hj ltac:(lia) HB). cbn [obind].
    set (same := (A =? B) && (i =? j)%nat).
    assert (Hs : same = true -> map mk (V i A l) = map mk (V j B l)).
    { unfold same. intros H. apply andb_prop in H as [H1%N.eqb_eq H2%Nat.eqb_eq]. now subst. }
    assert (HF : Forall (goodI A B l i j) (pairsI same 0 (numbered (map mk (V i A l))) (numbered (map mk (V j B l))))).
    { apply Forall_forall. intros [[ka a] [kb b]] Hx.
      assert (HI : In (ka, a) (numbered (map mk (V i A l))) /\ In (kb, b) (numbered (map mk (V j B l)))).
      { destruct same; [rewrite <- (Hs eq_refl) in Hx |- *; rewrite pairsI_same in Hx; now apply uptri_In in Hx|rewrite pairsI_prod in Hx; now apply in_prod_iff in Hx]. }
      destruct HI as [I1%numbered_In I2%numbered_In]. rewrite nth_error_map in I1, I2.
      destruct (nth_error (V i A l) ka) as [u|] eqn:Eu; [|discriminate]. destruct (nth_error (V j B l) kb) as [v|] eqn:Ev; [|discriminate].
      cbn [option_map] in I1, I2. injection I1 as <-. injection I2 as <-. exists u, v. cbn [fst snd]. repeat split; try assumption.
      intros <-. apply nth_error_In in Eu, Ev. apply (hV_In radii angles T Rd t ord TS) in Eu as (_ & L1 & C1), Ev as (_ & L2 & C2).
      assert (Es : same = true) by (unfold same; rewrite <- C1, <- C2, <- L1, <- L2, N.eqb_refl, Nat.eqb_refl; reflexivity).
      rewrite Es in Hx. rewrite <- (Hs Es), pairsI_same in Hx.
      apply (in_map (fun ab => (pid (snd (fst ab)), pid (snd (snd ab))))) in Hx. cbn [fst snd pid hmk] in Hx.
      change (fun ab : nat * hpoint * (nat * hpoint) => (pid (snd (fst ab)), pid (snd (snd ab)))) with
        (fun ab : nat * hpoint * (nat * hpoint) => ((fun x => pid (snd x)) (fst ab), (fun x => pid (snd x)) (snd ab))) in Hx.
      rewrite <- uptri_map in Hx. rewrite <- (map_map snd pid), map_snd_numbered, map_map in Hx. cbn [pid hmk] in Hx. rewrite map_id in Hx.
      revert Hx. apply uptri_irrefl. apply (hV_NoDup radii angles T Rd t ord TS). }
    pose proof (ddecideI_eq A B l i j HA HB Hi Hj Hl _ g HF) as E. rewrite forget_pairs in E by exact Hs.
    destruct (map mk (V i A l)); [reflexivity|]. destruct (map mk (V j B l)); [reflexivity|]. rewrite E. reflexivity.
  Qed.

  (** *** sampleTypeII *)
  Lemma ring_PI A B l : in_lv l A -> in_lv l B -> (IZR (Z.of_N (ring l A B) - 1) * wid l <= PI)%R.
  Proof.
    intros HA HB. pose proof (cell_diff_lt l A B HA HB) as Hd. assert (Rl : 2 * ring l A B <= 2 ^ l) by (unfold ring; lia).
    apply N2Z.inj_le in Rl. apply IZR_le in Rl. rewrite N2Z.inj_mul, mult_IZR in Rl. change (IZR (Z.of_N 2)) with 2%R in Rl.
    pose proof PI_RGT_0 as HP. pose proof (pow2R_pos l) as HW. unfold wid, pow2R in *. rewrite minus_IZR.
    apply Rmult_le_reg_r with (IZR (Z.of_N (2 ^ l))); [exact HW|].
    replace ((IZR (Z.of_N (ring l A B)) - 1) * (2 * PI / IZR (Z.of_N (2 ^ l))) * IZR (Z.of_N (2 ^ l)))%R with (PI * (2 * (IZR (Z.of_N (ring l A B)) - 1)))%R by (field; lra).
    apply Rmult_le_compat_l; lra.
  Qed.
  Lemma dpairII_ok A B l i j u v ang : hcall_ok Rd t (CallII A B l i j) -> In u (V i A l) -> In v (V j B l) ->
    ang = (IZR (Z.of_N (ring l A B - 1)) * wid l)%R ->
    dpairII radii angles t A B l i j ang (hyp_distance (layer_rad_min Rd i) 0 (layer_rad_min Rd j) ang) (mk u) (mk v) = Some tt.
  Proof.
    intros Hok Hu Hv ->. pose proof Hok as (HA & HB & Hi & Hj & Hl & Ht). destruct (hbase_ok radii angles T Rd DI t ord TS i j Hi Hj) as (B1 & B2 & _).
    destruct (nontouch_ring radii angles T Rd DI t ord TS A B l i j Hok) as (Hr & Hl2 & HAB).
    unfold dpairII. rewrite (place_ok i A l u Hi ltac:(lia) HA Hu), (place_ok j B l v Hj ltac:(lia) HB Hv). cbn [obind].
    pose proof (proj1 (hV_In radii angles T Rd t ord TS u i A l) Hu) as (Hun & _ & Cu). pose proof (proj1 (hV_In radii angles T Rd t ord TS v j B l) Hv) as (Hvn & _ & Cv).
    rewrite !p_angle_eq by assumption. cbn [obind]. replace (Z.of_N (ring l A B - 1)) with (Z.of_N (ring l A B) - 1)%Z by lia.
    set (th := (IZR (Z.of_N (ring l A B) - 1) * wid l)%R).
    pose proof (phi_ok radii angles Rd DI u Hun) as Au. pose proof (phi_ok radii angles Rd DI v Hvn) as Av.
    assert (Hc : (th <= Rabs (phi angles u - phi angles v))%R).
    { pose proof (circ_lower l _ _ Au Av) as H. change (hcel l (phi angles u)) with (cel l u) in H. change (hcel l (phi angles v)) with (cel l v) in H. rewrite Cu, Cv in H. fold th in H.
      apply Rle_trans with (1 := H). unfold circ. apply Rmin_l. }
    pose proof Hc as Hc'. rewrite Rabs_minus_sym in Hc'.
    rewrite dassert_true by (apply andb_true_intro; split; apply Rleb_true; assumption). cbn [obind].
    destruct (far_facts radii angles T Rd DI t ord TS A B l i j u v th Hok Hu Hv) as [F1 F2].
    { split; [apply ring_wid; lia|apply Rle_refl]. } { apply ring_PI; assumption. }
    rewrite mk_cosh by assumption. change (layer_rad_min Rd i) with (rmin Rd i). change (layer_rad_min Rd j) with (rmin Rd j). rewrite hyp_distance_0.
    rewrite dassert_true by (apply Rleb_true, acosh_le; [apply hc_ge_1|exact F2]). cbn [obind].
    apply dassert_true, Rltb_true. rewrite (hs_R _ _ _ _ _ _ TS). apply acosh_gt_iff; [apply hc_ge_1|lra|lra].
  Qed.
  Lemma dskip_eq F A B l i j ang : (0 < T)%R -> f_R F = Rd -> f_T F = T -> (0 < f_max F <= 1 / 5)%R -> hcall_ok Rd t (CallII A B l i j) ->
    ang = (IZR (Z.of_N (ring l A B - 1)) * wid l)%R -> forall fuel r g,
    dskip_loop radii angles t F A B l i j ang (hyp_distance (layer_rad_min Rd i) 0 (layer_rad_min Rd j) ang) rg (map mk (V i A l)) (map mk (V j B l)) fuel r g =
    hskip_loop T Rd F rg (map mk (V i A l)) (map mk (V j B l)) fuel r g.
  Proof.
    intros T0 ER ET HM Hok Ha. set (ra := map mk (V i A l)). set (rb := map mk (V j B l)).
    induction fuel as [|f IH]; intros r g; cbn [dskip_loop hskip_loop]; [reflexivity|]. destruct (N.of_nat (length ra * length rb) <=? r); [reflexivity|].
    destruct (nth_error ra _) as [a|] eqn:Ea; [|reflexivity]. destruct (nth_error rb _) as [b|] eqn:Eb; [|reflexivity]. cbn [obind].
    apply nth_error_In in Ea, Eb. apply in_map_iff in Ea as (u & <- & Hu), Eb as (v & <- & Hv).
    rewrite (dpairII_ok A B l i j u v ang Hok Hu Hv Ha). cbn [obind].
    pose proof (guni rg GG (f_max F) g ltac:(lra)) as Hx. destruct (uni0 rg (f_max F) g) as [x g1]. cbn [fst] in Hx.
    rewrite (hs_T _ _ _ _ _ _ TS), (hs_R _ _ _ _ _ _ TS).
    rewrite dfilter_eq; try assumption; try lra; [|apply distanceCosh_ge_1|apply last_stage_typeII; lra].
    destruct (filter_decide F T Rd (mk u) (mk v) x) as [hit|]; [|reflexivity]. cbn [obind]. destruct (geo rg (f_max F) g1) as [k g2].
    rewrite IH. reflexivity.
  Qed.
  Lemma zlen (L : list nat) : (Z.of_nat (length L) =? 0)%Z = (length (map mk L) =? 0)%nat.
  Proof. rewrite map_length. destruct (Nat.eqb_spec (length L) 0), (Z.eqb_spec (Z.of_nat (length L)) 0); lia || reflexivity. Qed.
  Lemma dsampleTypeII_eq A B l i j g : hcall_ok Rd t (CallII A B l i j) -> ring l A B <= 3 ->
    dsampleTypeII radii angles t rg A B l i j g = hsampleTypeII t rg A B l i j g.
  Proof.
    intros Hok H3. pose proof Hok as (HA & HB & Hi & Hj & Hl & Ht). destruct (hbase_ok radii angles T Rd DI t ord TS i j Hi Hj) as (B1 & B2 & _ & B4).
    destruct (nontouch_ring radii angles T Rd DI t ord TS A B l i j Hok) as (Hr & Hl2 & HAB). unfold dsampleTypeII, hsampleTypeII.
    rewrite (dpointsInCell_eq i A l Hi ltac:(lia) HA), (dpointsInCell_eq j B l Hj ltac:(lia) HB). cbn [obind].
    rewrite (points_in_eq radii angles T Rd t ord TS i A l Hi ltac:(lia) HA), (points_in_eq radii angles T Rd t ord TS j B l Hj ltac:(lia) HB). cbn [obind].
    rewrite !zlen. set (ra := map mk (V i A l)). set (rb := map mk (V j B l)).
    destruct (is_zero (h_T t) || (length ra =? 0)%nat || (length rb =? 0)%nat) eqn:Ez; [reflexivity|].
    apply orb_false_iff in Ez as [Ez Lb%Nat.eqb_neq]. apply orb_false_iff in Ez as [Ez La%Nat.eqb_neq].
    assert (T0 : (0 < T)%R). { rewrite (hs_T _ _ _ _ _ _ TS) in Ez. unfold is_zero in Ez. destruct (Req_EM_T T 0); [discriminate|lra]. }
    unfold lookup_filters. rewrite B4. rewrite (proj2 (N.leb_le 2 l)) by lia. rewrite (proj2 (N.leb_le l _) Hl). cbn [andb].
    rewrite (hs_T _ _ _ _ _ _ TS), (hs_R _ _ _ _ _ _ TS), typeII_filters_eq by lia. cbn [obind].
    rewrite (cellsBetween_eq l) by (auto; lia). cbn [obind].
    assert (C12 : (ring l A B - 1 =? 1) || (ring l A B - 1 =? 2) = true).
    { destruct (N.eqb_spec (ring l A B - 1) 1); [reflexivity|]. apply N.eqb_eq. lia. }
    rewrite (dassert_true _ C12). cbn [obind]. rewrite (hdist_eq l A B ltac:(lia) HA HB). cbn [obind].
    match goal with |- context [if ring l A B - 1 =? 1 then ?a else ?b] => set (F := if ring l A B - 1 =? 1 then a else b) end.
    set (ang := (IZR (Z.of_N (ring l A B - 1)) * wid l)%R).
    assert (EF : F = {| f_max := 1 / connectionProbRec T Rd (hyp_distance (rmin Rd i) 0 (rmin Rd j) ang); f_R := Rd; f_T := T |}).
    { unfold F, ang. pose proof (cell_diff_lt l A B HA HB) as Hd.
      assert (Rl : 2 * ring l A B <= 2 ^ l) by (unfold ring; lia).
      assert (P4 : 4 <= 2 ^ l) by (apply (pow2_lt 2 l); lia).
      destruct (N.eqb_spec (ring l A B - 1) 1) as [E|E].
      - replace (ring l (hfc l) (hfc l + 2) - 1) with (ring l A B - 1); [reflexivity|]. unfold ring, cell_diff in *; lia.
      - assert (P6 : 6 <= 2 ^ l) by lia.
        assert (P8 : 8 <= 2 ^ l). { destruct (N.eq_dec l 2) as [->|]; [change (2 ^ 2) with 4 in P6; lia|]. apply (pow2_lt 3 l). lia. }
        replace (ring l (hfc l) (hfc l + 3) - 1) with (ring l A B - 1); [reflexivity|]. assert (R3 : ring l A B = 3) by lia. rewrite R3. unfold ring, cell_diff; lia. }
    clearbody F. subst F. cbn [f_max].
    destruct (Rltb (1 / 5) _) eqn:E5; [apply dsampleTypeI_eq; assumption|]. apply Rltb_false in E5.
    change (layer_rad_min Rd i) with (rmin Rd i). change (layer_rad_min Rd j) with (rmin Rd j).
    match goal with |- context [Req_EM_T ?a ?a] => destruct (Req_EM_T a a); [|contradiction] end. cbn [dassert obind].
    match goal with |- context [Rltb ?a ?b] => destruct (Rltb a b) end; [reflexivity|].
    assert (E0 : forall L, length (map mk L) <> 0%nat -> exists u0, nth_error L 0 = Some u0) by (intros [|u0 L] HL; [now elim HL|eexists; reflexivity]).
    destruct (E0 _ La) as (u0 & Eu0). destruct (E0 _ Lb) as (v0 & Ev0).
    rewrite (dkthPoint_eq i A l 0 u0 Hi ltac:(lia) HA Eu0), (dkthPoint_eq j B l 0 v0 Hj ltac:(lia) HB Ev0).
    cbn [obind]. destruct (geo rg _ g) as [r0 g1]. subst ra rb.
    pose proof (rec_good T Rd (hyp_distance (rmin Rd i) 0 (rmin Rd j) ang)) as [G1 G2]. cbn [f_max] in G1, G2.
    change (rmin Rd i) with (layer_rad_min Rd i) in *. change (rmin Rd j) with (layer_rad_min Rd j) in *.
    rewrite dskip_eq; try assumption; try reflexivity. cbn [f_max]. lra.
  Qed.
  Lemma drun_call_eq x g : hcall_ok Rd t x -> near_enough x -> drun_call radii angles t rg x g = hrun_call t rg x g.
  Proof.
    destruct x as [A B l i j|A B l i j]; intros Hok Hn; cbn [drun_call hrun_call].
    - destruct Hok as (HA & HB & Hi & Hj & Hl). apply dsampleTypeI_eq; auto. lia.
    - now apply dsampleTypeII_eq.
  Qed.
  Lemma drun_calls_eq xs : (forall x, In x xs -> hcall_ok Rd t x /\ near_enough x) -> forall g, drun_calls radii angles t rg xs g = hrun_calls t rg xs g.
  Proof.
    induction xs as [|x xs IH]; intros H g; [reflexivity|]. cbn [drun_calls hrun_calls].
    destruct (H x (or_introl eq_refl)) as [H1 H2]. rewrite (drun_call_eq x g H1 H2). destruct (hrun_call t rg x g) as [r1|]; [|reflexivity]. cbn [obind].
    rewrite IH by (intros; apply H; now right). reflexivity.
  Qed.
End DebugRun.
