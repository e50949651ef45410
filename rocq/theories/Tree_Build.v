(** The constructor of SpatialTree: every schedule leaves the same, correct data structure. *)
From Coq Require Import Arith NArith ZArith List Bool Reals Permutation Lia Lra Sorted.
From Flocq Require Import Core.
From Verif Require Import Base Sched Bits_Model Bits_Proofs Coord_Model Coord_Proofs Coord_Geo IntSort_Model IntSort_Proofs IntSort_Main
  Prop_IntSort Prefix_Model Prefix_Proofs Prop_Prefix Tree_Model Cover Tree_Proofs.
Import ListNotations.
Local Open Scope N_scope.

(** What the proofs need from the double arithmetic on the weights [ws] (established for exact reals and for IEEE doubles elsewhere):
    the parameters are defined and within the range the cell numbers can handle, every weight falls into one of the layers, and the
    weight term of two nodes is bounded by the volume of the cells in which their layers are compared. *)
Record num_ok (E : fenv) (D : N) (ws : list R) (P : tparams) : Prop := {
  no_params : tree_params E D ws = Some P;
  no_c : (p_c P <= 30)%Z;
  no_layers : (p_layers P <= 4096)%nat;
  no_layer : forall w, In w ws -> exists i, layer_index E (p_w0 P) w = Some i /\ (i < p_layers P)%nat }.
(** the weight term of two nodes is bounded by the volume of the cells on which their layers are compared *)
Definition far_ok (E : fenv) (ws : list R) (P : tparams) : Prop :=
  forall w w' i j k, In w ws -> In w' ws -> layer_index E (p_w0 P) w = Some i -> layer_index E (p_w0 P) w' = Some j ->
    (Z.of_nat i + Z.of_nat j + 2 + Z.of_N k <= p_c P)%Z -> (rnd E (rnd E (w * w') / p_W P) <= 1 / pow2R k)%R.

Section Build.
  Variables (E : fenv) (cfg : config) (D : N) (ws : list R) (ps : list (list R)) (P : tparams).
  Hypotheses (GR : good_rnd E) (HD : dim_ok D) (NO : num_ok E D ws P) (HL : length ws = length ps)
             (VP : Forall (valid_pos E D) ps) (Hn : N.of_nat (length ws) < 2 ^ 31).
  Notation n := (length ws).
  Notation c := (p_c P).
  Definition wt (u : nat) : R := nth u ws 0%R.
  Definition pos (u : nat) : list R := nth u ps [].
  Definition lay (u : nat) : nat := match layer_index E (p_w0 P) (wt u) with Some i => i | None => O end.
  Definition cel (l : N) (u : nat) : N := cell_of cfg D l (pos u).
  Definition mk (u : nat) : node :=
    {| coord := pos u; weight := wt u; index := u; cell_id := fcell D c (lay u) + cellR cfg D (tl D c (lay u)) (pos u) |}.

  Lemma n_pos : (1 <= n)%nat.
  Proof. pose proof (no_params _ _ _ _ NO) as H. unfold tree_params in H. destruct ws; [discriminate|simpl; lia]. Qed.
  Lemma wt_In u : (u < n)%nat -> In (wt u) ws.
  Proof. intros H. apply nth_In. exact H. Qed.
  Lemma pos_valid u : (u < n)%nat -> valid_pos E D (pos u).
  Proof. intros H. rewrite Forall_forall in VP. apply VP. apply nth_In. lia. Qed.
  Lemma lay_spec u : (u < n)%nat -> layer_index E (p_w0 P) (wt u) = Some (lay u) /\ (lay u < p_layers P)%nat.
  Proof. intros H. destruct (no_layer _ _ _ _ NO _ (wt_In u H)) as (i & Hi & L). unfold lay. rewrite Hi. auto. Qed.
  Lemma tlb i : D * tl D c i <= 29.
  Proof. pose proof (tl_bound D c HD (no_c _ _ _ _ NO) i). lia. Qed.
  Lemma tl_lt i : tl D c i < 30.
  Proof. pose proof (tlb i). unfold dim_ok in HD. nia. Qed.

  Lemma combine_index : combine (seq 0 n) (combine ws ps) = map (fun u => (u, (wt u, pos u))) (seq 0 n).
  Proof.
    apply list_eq_nth.
    - rewrite !combine_length, map_length, seq_length. lia.
    - intros i Hi. rewrite !combine_length, seq_length in Hi. assert (Hi' : (i < n)%nat) by lia.
      rewrite (map_nth_error _ i (seq 0 n) (nth_error_seq 0 n i Hi')).
      assert (E1 : nth_error (combine (seq 0 n) (combine ws ps)) i = Some (nth i (combine (seq 0 n) (combine ws ps)) (O, (0%R, [])))).
      { apply nth_error_nth'. rewrite !combine_length, seq_length. exact Hi. }
      rewrite E1. rewrite !combine_nth by (rewrite ?combine_length, ?seq_length; lia). rewrite seq_nth by lia. reflexivity.
  Qed.
  Lemma classify_eq : classify_all E cfg D P (map (fcell D c) (seq 0 (S (p_layers P)))) ws ps = Some (map mk (seq 0 n)).
  Proof.
    unfold classify_all. rewrite (proj2 (Nat.ltb_ge _ _)) by lia. rewrite combine_index.
    assert (H : forall L, (forall u, In u L -> (u < n)%nat) ->
      omap (classify E cfg D P (map (fcell D c) (seq 0 (S (p_layers P))))) (map (fun u => (u, (wt u, pos u))) L) = Some (map mk L)).
    { induction L as [|u L IH]; intros HLt; [reflexivity|]. cbn [map omap].
      assert (Hu : (u < n)%nat) by (apply HLt; now left). destruct (lay_spec u Hu) as [El Ll].
      unfold classify at 1. rewrite El. cbn [obind].
      rewrite (map_nth_error _ (lay u) (seq 0 (S (p_layers P))) (nth_error_seq 0 (S (p_layers P)) (lay u) ltac:(lia))). cbn [obind].
      destruct (pos_valid u Hu) as [VL VF]. rewrite (proj2 (Nat.ltb_ge _ _)) by lia.
      rewrite firstn_all2 by lia.
      rewrite (cellForPoint_eq E cfg D (pos u) _ GR (pos_valid u Hu)) by (pose proof (tl_lt (lay u)); unfold tl in *; lia). cbn [obind].
      rewrite IH by (intros; apply HLt; now right). cbn [obind]. f_equal. f_equal. unfold mk. f_equal.
      apply w32_small. change (target_level D c (lay u)) with (tl D c (lay u)).
      assert (B : cellR cfg D (tl D c (lay u)) (pos u) < 2 ^ (D * tl D c (lay u))).
      { apply (cellR_bound cfg E D _ _ HD (pos_valid u Hu)). pose proof (tlb (lay u)). lia. }
      pose proof (fcell_lt D c HD (no_c _ _ _ _ NO) (S (lay u)) ltac:(pose proof (no_layers _ _ _ _ NO); lia)) as F. cbn [fcell] in F.
      cbn [Nat.add]. change (2 ^ 31) with 2147483648 in F. change (2 ^ 32) with 4294967296. lia. }
    apply H. intros u Hu. apply in_seq in Hu. lia.
  Qed.

  Definition M : N := fcell D c (p_layers P).
  Lemma M_lt : M < 2 ^ 31.
  Proof. apply fcell_lt; [exact HD|apply (no_c _ _ _ _ NO)|apply (no_layers _ _ _ _ NO)]. Qed.
  Lemma mk_cell_lt u : (u < n)%nat -> cellR cfg D (tl D c (lay u)) (pos u) < 2 ^ (D * tl D c (lay u)).
  Proof. intros Hu. apply (cellR_bound cfg E D _ _ HD (pos_valid u Hu)). pose proof (tlb (lay u)). lia. Qed.
  Lemma mk_lt u : (u < n)%nat -> cell_id (mk u) < M.
  Proof.
    intros Hu. cbn [cell_id mk]. destruct (lay_spec u Hu) as [_ L]. pose proof (mk_cell_lt u Hu).
    pose proof (fcell_mono D c (S (lay u)) (p_layers P) L) as H1. cbn [fcell] in H1. unfold M. lia.
  Qed.

  (** *** a cell's range of numbers on the insertion level *)
  Lemma range_iff u i A l : (u < n)%nat -> (i < p_layers P)%nat -> l <= tl D c i -> in_level D l A ->
    (let lo := fcell D c i + (A - fc D l) * 2 ^ (D * (tl D c i - l)) in
     (lo <=? cell_id (mk u)) && (cell_id (mk u) <? lo + 2 ^ (D * (tl D c i - l)))) = (lay u =? i)%nat && (cel l u =? A).
  Proof.
    intros Hu Hi Hl HA. cbv zeta. set (desc := 2 ^ (D * (tl D c i - l))). set (loc := A - fc D l).
    assert (Hd : 0 < desc) by apply pow2_pos.
    assert (Hloc : loc < 2 ^ (D * l)). { unfold loc. destruct HA as [H1 H2]. rewrite fc_succ in H2 by exact HD. lia. }
    assert (Htot : 2 ^ (D * tl D c i) = 2 ^ (D * l) * desc).
    { unfold desc. rewrite <- N.pow_add_r. f_equal. rewrite <- N.mul_add_distr_l. f_equal. lia. }
    assert (Hup : loc * desc + desc <= 2 ^ (D * tl D c i)) by (rewrite Htot; nia).
    pose proof (mk_cell_lt u Hu) as Hc. cbn [cell_id mk]. set (x := cellR cfg D (tl D c (lay u)) (pos u)) in *.
    destruct (Nat.eqb_spec (lay u) i) as [Ei|Ei].
    - subst i. cbn [andb].
      assert (Ex : cellR cfg D l (pos u) = x / desc).
      { unfold x, desc. pose proof (cellR_ancestor cfg E D (pos u) l (N.to_nat (tl D c (lay u) - l)) HD (pos_valid u Hu)) as H.
        rewrite N2Nat.id in H. replace (l + (tl D c (lay u) - l)) with (tl D c (lay u)) in H by lia. apply H. pose proof (tlb (lay u)). lia. }
      unfold cel, cell_of. rewrite Ex.
      assert (EA : A = fc D l + loc) by (unfold loc; destruct HA; lia).
      pose proof (N.div_mod x desc ltac:(lia)) as Hdm. pose proof (N.mod_lt x desc ltac:(lia)) as Hml.
      set (q := x / desc) in *. set (r := x mod desc) in *. clearbody q r.
      destruct (N.eqb_spec (fc D l + q) A) as [Eq|Eq].
      + assert (q = loc) by lia. subst q. apply andb_true_intro. split; [apply N.leb_le|apply N.ltb_lt]; nia.
      + apply andb_false_iff. destruct (N.lt_trichotomy q loc) as [L|[L|L]]; [left; apply N.leb_gt|lia|right; apply N.ltb_ge]; nia.
    - cbn [andb]. apply andb_false_iff.
      destruct (N.leb_spec (fcell D c i + loc * desc) (fcell D c (lay u) + x)) as [L1|L1]; [|now left]. right. apply N.ltb_ge.
      destruct (N.le_gt_cases (fcell D c i + loc * desc + desc) (fcell D c (lay u) + x)) as [L2|L2]; [exact L2|]. exfalso. apply Ei.
      apply (fcell_inv D c (lay u) i x Hc). cbn [fcell]. lia.
  Qed.

  Record tree_spec (t : tree) (ord : list nat) : Prop := {
    ts_P : tP t = P;
    ts_perm : Permutation ord (seq 0 n);
    ts_nodes : tnodes t = map mk ord;
    ts_stable : is_stable_sort cell_id (map mk (seq 0 n)) (map mk ord);
    ts_index : is_prefix_index (map (fun v => N.to_nat (cell_id v)) (tnodes t)) (N.to_nat M) (tfirst t);
    ts_iter : forall i A l, (i < p_layers P)%nat -> l <= tl D c i -> in_level D l A ->
      exists b e, cellIterators D t i A l = Some (b, e) /\
        slice (tnodes t) b e = Some (map mk (filter (fun u => (lay u =? i)%nat && (cel l u =? A)) ord)) }.

  Lemma filter_map_comm {X Y} (f : X -> Y) (p : Y -> bool) L : filter p (map f L) = map f (filter (fun x => p (f x)) L).
  Proof. induction L as [|a L IH]; simpl; auto. destruct (p (f a)); simpl; congruence. Qed.

  Lemma build_queries ord arr : Permutation ord (seq 0 n) -> is_stable_sort cell_id (map mk (seq 0 n)) (map mk ord) ->
    StronglySorted (fun a b => cell_id a <= cell_id b) (map mk ord) ->
    is_prefix_index (map (fun v => N.to_nat (cell_id v)) (map mk ord)) (N.to_nat M) arr ->
    tree_spec {| tP := P; tfcl := map (fcell D c) (seq 0 (S (p_layers P))); tnodes := map mk ord; tfirst := arr |} ord.
  Proof.
    intros HP HST HS [HAl HA]. constructor; auto; [split; assumption|]. intros i A l Hi Hl Hin.
    unfold cellIterators. cbn [tfcl tfirst tP tnodes].
    rewrite (map_nth_error _ i (seq 0 (S (p_layers P))) (nth_error_seq 0 (S (p_layers P)) i ltac:(lia))). cbn [obind Nat.add].
    unfold levelledCell. change (target_level D c i) with (tl D c i). rewrite (proj2 (N.ltb_ge _ _) Hl).
    assert (T1 : D * (tl D c i - l) < 32).
    { eapply N.le_lt_trans; [apply N.mul_le_mono_l, N.le_sub_l|]. pose proof (tlb i). lia. }
    assert (T2 : D * l < 32).
    { eapply N.le_lt_trans; [apply N.mul_le_mono_l, Hl|]. pose proof (tlb i). lia. }
    rewrite numCellsInLevel_Some by exact T1. cbn [obind]. rewrite firstCellOfLevel_Some by exact T2. cbn [obind].
    rewrite (proj2 (N.ltb_ge _ _)) by apply Hin.
    set (desc := 2 ^ (D * (tl D c i - l))). set (loc := A - fc D l).
    assert (Hd : 0 < desc) by apply pow2_pos.
    assert (Hloc : loc < 2 ^ (D * l)). { unfold loc. destruct Hin as [H1 H2]. rewrite fc_succ in H2 by exact HD. lia. }
    assert (Htot : 2 ^ (D * tl D c i) = 2 ^ (D * l) * desc).
    { unfold desc. rewrite <- N.pow_add_r. f_equal. rewrite <- N.mul_add_distr_l. f_equal. lia. }
    assert (Hup : loc * desc + desc <= 2 ^ (D * tl D c i)) by (rewrite Htot; nia).
    assert (H29 : 2 ^ (D * tl D c i) <= 2 ^ 29) by (apply N.pow_le_mono_r; [lia|apply tlb]).
    assert (K29 : 2 ^ 29 = 536870912) by reflexivity. assert (K32 : 2 ^ 32 = 4294967296) by reflexivity.
    rewrite !w32_small by (rewrite K32; lia || (rewrite w32_small by (rewrite K32; lia); lia)).
    pose proof (fcell_mono D c (S i) (p_layers P) Hi) as HM. cbn [fcell] in HM. fold M in HM.
    assert (HQ : forall x, x <= M -> nth_error arr (N.to_nat x) = Some (N.of_nat (length (filter (fun v => cell_id v <? x) (map mk ord))))).
    { intros x Hx. rewrite (HA (N.to_nat x)) by lia. f_equal. f_equal. rewrite filter_length_map. f_equal. apply filter_ext.
      intros v. destruct (Nat.ltb_spec (N.to_nat (cell_id v)) (N.to_nat x)), (N.ltb_spec (cell_id v) x); auto; lia. }
    cbn [obind]. rewrite HQ by lia. cbn [obind].
    replace (fcell D c i + (loc * desc + desc - 1 + 1)) with (fcell D c i + loc * desc + desc) by lia. rewrite HQ by lia. cbn [obind].
    eexists. eexists. split; [reflexivity|]. rewrite !Nat2N.id. rewrite (slice_sorted cell_id) by (try exact HS; lia).
    f_equal. rewrite filter_map_comm. f_equal. apply filter_ext_in. intros u Hu.
    apply (Permutation_in _ HP) in Hu. apply in_seq in Hu. apply (range_iff u i A l); auto. lia.
  Qed.

  Lemma map_mk_perm L : Permutation (map mk (seq 0 n)) L -> exists ord, L = map mk ord /\ Permutation ord (seq 0 n).
  Proof.
    intros H. exists (map index L).
    assert (Hi : forall v, In v L -> mk (index v) = v).
    { intros v Hv. apply (Permutation_in _ (Permutation_sym H)) in Hv. apply in_map_iff in Hv as (u & <- & _). reflexivity. }
    split.
    - rewrite map_map. rewrite <- (map_id L) at 1. apply map_ext_in. intros v Hv. symmetry. now apply Hi.
    - apply Permutation_sym. assert (E1 : seq 0 n = map index (map mk (seq 0 n))).
      { rewrite map_map. cbn [index mk]. now rewrite map_id. }
      rewrite E1. now apply Permutation_map.
  Qed.

  Theorem build_ok omp_max : (1 <= omp_max <= 2 ^ 17 + 1)%nat ->
    exists t ord, tree_spec t ord /\ tree_outcome E cfg D ws ps omp_max (Some t) /\
      forall o, tree_outcome E cfg D ws ps omp_max o -> o = Some t.
  Proof.
    intros Ho.
    assert (HM : M < 2 ^ 32). { pose proof M_lt. change (2 ^ 31) with 2147483648 in *. change (2 ^ 32) with 4294967296. lia. }
    assert (Hk : forall x, In x (map mk (seq 0 n)) -> cell_id x < M).
    { intros x Hx. apply in_map_iff in Hx as (u & <- & Hu). apply in_seq in Hu. apply mk_lt. lia. }
    assert (Hpre : (do P <- tree_params E D ws;
         do fcl <- first_cells D (p_c P) (p_layers P) 0 0;
         do M <- nth_error fcl (p_layers P);
         do nodes <- classify_all E cfg D P fcl ws ps;
         Some (P, fcl, M, nodes)) = Some (P, map (fcell D c) (seq 0 (S (p_layers P))), M, map mk (seq 0 n))).
    { rewrite (no_params _ _ _ _ NO). cbn [obind].
      rewrite (first_cells_eq D c HD (no_c _ _ _ _ NO)) by (try reflexivity; pose proof (no_layers _ _ _ _ NO); lia). cbn [obind].
      rewrite (map_nth_error _ (p_layers P) (seq 0 (S (p_layers P))) (nth_error_seq 0 (S (p_layers P)) (p_layers P) ltac:(lia))). cbn [obind].
      rewrite classify_eq. reflexivity. }
    assert (Hsort : forall buf, length buf = length (map mk (seq 0 n)) ->
      (exists o, intsort_outcome 8 cell_id M omp_max (map mk (seq 0 n)) buf o) /\
      forall o, intsort_outcome 8 cell_id M omp_max (map mk (seq 0 n)) buf o -> exists out, o = Some out /\ is_stable_sort cell_id (map mk (seq 0 n)) out).
    { intros buf Hb. apply C15_radix_sort_sorts; auto; lia. }
    destruct (Hsort (map mk (seq 0 n)) eq_refl) as [[so Hso] Hall]. destruct (Hall so Hso) as (sorted & -> & Hst).
    pose proof Hst as (Hperm & Hss & _). destruct (map_mk_perm sorted Hperm) as (ord & -> & Hord).
    assert (Hlen : length ord = n) by (rewrite (Permutation_length Hord); apply seq_length).
    assert (Hidx : forall t1 t2, (1 <= t1)%nat -> (1 <= t2)%nat ->
      (exists o, index_outcome (map (fun v => N.to_nat (cell_id v)) (map mk ord)) (N.to_nat M) t1 t2 o) /\
      forall o, index_outcome (map (fun v => N.to_nat (cell_id v)) (map mk ord)) (N.to_nat M) t1 t2 o ->
        exists arr, o = Some arr /\ is_prefix_index (map (fun v => N.to_nat (cell_id v)) (map mk ord)) (N.to_nat M) arr).
    { intros t1 t2 H1 H2. apply C18_cell_index; auto.
      - clear -Hss. induction Hss as [|a l S IH F]; cbn [map]; constructor; auto.
        rewrite Forall_forall in *. intros x Hx. apply in_map_iff in Hx as (v & <- & Hv). specialize (F v Hv). lia.
      - intros x Hx. apply in_map_iff in Hx as (v & <- & Hv). apply (Permutation_in _ (Permutation_sym Hperm)) in Hv.
        specialize (Hk v Hv). lia.
      - rewrite !map_length, Hlen. apply n_pos.
      - rewrite !map_length, Hlen. change (2 ^ 31) with 2147483648 in Hn. change (2 ^ 32) with 4294967296. lia. }
    destruct (Hidx 1%nat 1%nat ltac:(lia) ltac:(lia)) as [[io Hio] Hiall]. destruct (Hiall io Hio) as (arr & -> & Harr).
    exists {| tP := P; tfcl := map (fcell D c) (seq 0 (S (p_layers P))); tnodes := map mk ord; tfirst := arr |}, ord.
    split; [now apply build_queries|]. unfold tree_outcome. rewrite Hpre. split.
    - exists (map mk (seq 0 n)), (Some (map mk ord)). split; [reflexivity|]. split; [exact Hso|].
      exists 1%nat, 1%nat, (Some arr). repeat split; try lia. exact Hio.
    - intros o (buf & so & Hbuf & Hs & Hrest). destruct (proj2 (Hsort buf Hbuf) so Hs) as (out & -> & Hst2).
      rewrite <- (is_stable_sort_unique cell_id _ _ _ Hst Hst2) in Hrest.
      destruct Hrest as (t1 & t2 & io & H1 & H2 & Hi & ->).
      destruct (proj2 (Hidx t1 t2 ltac:(lia) ltac:(lia)) io Hi) as (arr2 & -> & Harr2).
      assert (arr2 = arr).
      { destruct Harr as [L1 Q1], Harr2 as [L2 Q2]. apply list_eq_nth; [lia|]. intros j Hj. rewrite Q1, Q2 by lia. reflexivity. }
      subst arr2. reflexivity.
  Qed.
End Build.
