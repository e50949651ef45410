(** The constructor of HyperbolicTree over an arbitrary arithmetic.  If the arithmetic puts every point into the layer and the cells in which
    exact arithmetic puts a slightly different point, and computes the right comparison levels, then the tree is the exact tree of the
    different points, except for the coordinates stored in the points. *)
From Coq Require Import Arith NArith ZArith List Bool Reals Permutation Lia Lra Sorted.
From Flocq Require Import Core.
From Verif Require Import Base Sched Bits_Model Bits_Proofs Coord_Model Coord_Proofs Coord_Geo IntSort_Model IntSort_Proofs IntSort_Main
  Prop_IntSort Prefix_Model Prefix_Proofs Prop_Prefix Tree_Model Cover Tree_Proofs Tree_Build Hyp_Model Hyp_Math Hyp_Angle Hyp_Levels Hyp_Build HypF_Model.
Import ListNotations.
Local Open Scope N_scope.

(** [radii'], [angles']: points that exact arithmetic treats like [M] treats [radii], [angles] *)
Record fits (M : hmath) (radii angles radii' angles' : list R) (Rd : R) : Prop := {
  ft_lenr : length radii' = length radii;
  ft_lena : length angles' = length angles;
  ft_disc : disc_input radii' angles' Rd;
  ft_nz : forall u, (u < length radii)%nat -> rad radii u <> 0%R;
  ft_num : num_layers0F M Rd = num_layers0 Rd;
  ft_levels : forall l, (l < hm Rd)%nat -> pblF M (layer_rad_minF M Rd l) (hr M (Rd - 1)) Rd = pbl (layer_rad_min Rd l) (Rd - 1) Rd;
  ft_bases : forall i j, (i < hm Rd)%nat -> (j < hm Rd)%nat ->
    pblF M (layer_rad_minF M Rd i) (layer_rad_minF M Rd j) Rd = pbl (layer_rad_min Rd i) (layer_rad_min Rd j) Rd;
  ft_layer : forall u, (u < length radii)%nat -> radius_to_layerF M Rd (rad radii u) = radius_to_layer Rd (rad radii' u);
  ft_cell : forall u l, (u < length radii)%nat -> l <= 30 -> hcellForPointF M (phi angles u) l = hcellForPoint (phi angles' u) l }.

Lemma stable_map {X Y} (kx : X -> N) (ky : Y -> N) (f : X -> Y) L L' : (forall x, In x L -> ky (f x) = kx x) ->
  is_stable_sort kx L L' -> is_stable_sort ky (map f L) (map f L').
Proof.
  intros H (P & S & F). assert (H' : forall x, In x L' -> ky (f x) = kx x).
  { intros x Hx. apply H. now apply (Permutation_in _ (Permutation_sym P)). }
  split; [now apply Permutation_map|]. split.
  - clear P F H. induction S as [|a l S IH A]; cbn [map]; constructor.
    + apply IH. intros x Hx. apply H'. now right.
    + rewrite Forall_forall in *. intros y Hy. apply in_map_iff in Hy as (x & <- & Hx). rewrite !H' by (try (now left); now right). now apply A.
  - intros k. rewrite !filter_map_comm. f_equal.
    rewrite (filter_ext_in (fun x => ky (f x) =? k) (fun x => kx x =? k) L') by (intros a Ha; now rewrite H').
    rewrite (filter_ext_in (fun x => ky (f x) =? k) (fun x => kx x =? k) L) by (intros a Ha; now rewrite H). apply F.
Qed.
Lemma slice_map {X Y} (f : X -> Y) L b e : slice (map f L) b e = option_map (map f) (slice L b e).
Proof. unfold slice. rewrite map_length. destruct (_ && _)%nat; cbn [option_map]; [|reflexivity]. now rewrite skipn_map, firstn_map. Qed.

Section BuildF.
  Variables (M : hmath) (radii angles radii' angles' : list R) (T Rd : R).
  Hypothesis FT : fits M radii angles radii' angles' Rd.
  Notation n := (length radii).
  Notation DI := (ft_disc _ _ _ _ _ _ FT).
  Notation hmk' := (hmk radii' angles' Rd).
  Notation hlay' := (hlay radii' Rd).
  Definition mkF (u : nat) : hpoint :=
    {| pid := u; pcell := pcell (hmk' u);
       invsinh_r := hr M (1 / hsinh M (rad radii u)); coth_r := hr M (hcosh M (rad radii u) / hsinh M (rad radii u));
       cos_phi := hcos M (phi angles u); sin_phi := hsin M (phi angles u) |}.
  (** the tree with other coordinates stored *)
  Definition with_points (t : htree) (ps : list hpoint) : htree :=
    {| h_R := h_R t; h_T := h_T t; h_layers := h_layers t; h_level := h_level t; h_first := h_first t; h_points := ps; h_index := h_index t |}.

  Lemma lenr : length radii' = n. Proof. apply FT. Qed.
  Lemma num_eq : num_layers0F M Rd = Some (N.of_nat (hm Rd)).
  Proof.
    rewrite (ft_num _ _ _ _ _ _ FT). destruct (hm_ceil radii' angles' Rd DI) as (Em & M1 & M2).
    unfold num_layers0, double_to_u32. rewrite rdiv1, Ztrunc_IZR. destruct (_ && _)%Z eqn:E; [f_equal; lia|].
    exfalso. apply andb_false_iff in E as [E|E]; [apply Z.leb_gt in E; lia|apply Z.ltb_ge in E; lia].
  Qed.
  Lemma levelsF_eq : level_of_layerF M Rd (hm Rd) = Some (map (lev Rd) (seq 0 (hm Rd))).
  Proof.
    apply omap_some. intros l Hl. apply in_seq in Hl. rewrite (ft_levels _ _ _ _ _ _ FT) by lia. apply (lev_ok radii' angles' Rd DI). lia.
  Qed.
  Lemma classifyF_eq : omap (hclassifyF M Rd (map (lev Rd) (seq 0 (hm Rd))) (map (hfirst Rd) (seq 0 (hm Rd)))) (combine (seq 0 n) (combine radii angles)) =
    Some (map mkF (seq 0 n)).
  Proof.
    assert (CI : combine (seq 0 n) (combine radii angles) = map (fun u => (u, (rad radii u, phi angles u))) (seq 0 n)).
    { assert (HL : length radii = length angles).
      { rewrite <- (ft_lenr _ _ _ _ _ _ FT), <- (ft_lena _ _ _ _ _ _ FT). apply DI. }
      apply list_eq_nth.
      - rewrite !combine_length, map_length, seq_length. lia.
      - intros i Hi. rewrite !combine_length, seq_length in Hi. assert (Hi' : (i < n)%nat) by lia.
        rewrite (map_nth_error _ i (seq 0 n) (nth_error_seq 0 n i Hi')).
        assert (E1 : nth_error (combine (seq 0 n) (combine radii angles)) i = Some (nth i (combine (seq 0 n) (combine radii angles)) (O, (0%R, 0%R)))).
        { apply nth_error_nth'. rewrite !combine_length, seq_length. exact Hi. }
        rewrite E1. rewrite !combine_nth by (rewrite ?combine_length, ?seq_length; lia). rewrite seq_nth by lia. reflexivity. }
    rewrite CI. transitivity (Some (map (fun x => mkF (fst x)) (map (fun u => (u, (rad radii u, phi angles u))) (seq 0 n))));
      [|rewrite map_map; reflexivity].
    apply omap_some. intros x Hx. apply in_map_iff in Hx as (u & <- & Hu). apply in_seq in Hu. assert (Hu' : (u < n)%nat) by lia.
    assert (Hu'' : (u < length radii')%nat) by (rewrite lenr; exact Hu').
    cbn [fst]. unfold hclassifyF. rewrite (ft_layer _ _ _ _ _ _ FT u Hu').
    destruct (hlay_spec radii' angles' Rd DI u Hu'') as (E & L & _). rewrite E. cbn [obind]. rewrite Nat2N.id.
    rewrite (map_nth_error _ (hlay' u) (seq 0 (hm Rd)) (nth_error_seq 0 (hm Rd) (hlay' u) L)).
    rewrite (map_nth_error _ (hlay' u) (seq 0 (hm Rd)) (nth_error_seq 0 (hm Rd) (hlay' u) L)). cbn [obind Nat.add].
    destruct (lev_ok radii' angles' Rd DI (hlay' u) L) as (_ & _ & B). rewrite (ft_cell _ _ _ _ _ _ FT u) by (auto; lia).
    rewrite hcellForPoint_eq by (try apply (phi_ok radii' angles' Rd DI); auto; lia). cbn [obind].
    unfold mk_pointF. destruct (Req_EM_T (rad radii u) 0) as [E0|_]; [now apply (ft_nz _ _ _ _ _ _ FT) in E0|].
    f_equal. unfold mkF. f_equal. cbn [pcell hmk]. apply w32_small. pose proof (hmk_cell_lt radii' angles' Rd DI u Hu'') as C. cbn [pcell hmk] in C.
    pose proof (fsum_lt radii' angles' Rd DI (hm Rd) (le_n _)) as D.
    unfold HM in C. change (2 ^ 31) with 2147483648 in D. change (2 ^ 32) with 4294967296. lia.
  Qed.

  Record htree_specF (t : htree) (ord : list nat) : Prop := {
    hf_spec : htree_spec radii' angles' T Rd (with_points t (map hmk' ord)) ord;
    hf_points : h_points t = map mkF ord }.

  Lemma baseF_eq t i j : h_R t = Rd -> (h_layers t <= hm Rd)%nat -> (i < h_layers t)%nat -> (j < h_layers t)%nat -> h_baseF M t i j = h_base t i j.
  Proof. intros E H Hi Hj. unfold h_baseF, h_base. rewrite E. rewrite (ft_bases _ _ _ _ _ _ FT) by lia. reflexivity. Qed.
  Lemma hdistF_some A B l : l < 31 -> in_lv l A -> in_lv l B -> exists d, hdistF M A B l = Some d.
  Proof. intros H1 H2 H3. unfold hdistF. rewrite (cellsBetween_eq l) by (auto; lia). cbn [obind]. rewrite shl_i32 by exact H1. cbn [obind]. eauto. Qed.
  Lemma filtersF_some T' i j l : 2 <= l <= 30 -> exists d1 d2, typeII_filtersF M T' Rd i j l =
    Some ({| f_max := hr M (1 / connectionProbRecF M T' Rd (hyp_distanceF M (layer_rad_minF M Rd i) 0 (layer_rad_minF M Rd j) d1)); f_R := Rd; f_T := T' |},
          {| f_max := hr M (1 / connectionProbRecF M T' Rd (hyp_distanceF M (layer_rad_minF M Rd i) 0 (layer_rad_minF M Rd j) d2)); f_R := Rd; f_T := T' |}).
  Proof.
    intros Hl. unfold typeII_filtersF. rewrite firstCell_Some by lia. cbn [obind].
    pose proof (pow2_lt 2 l ltac:(lia)) as P. change (2 ^ 2) with 4 in P.
    assert (H0 : in_lv l (hfc l)) by (unfold in_lv; rewrite hfc_succ; lia).
    assert (H2 : in_lv l (hfc l + 2)) by (unfold in_lv; rewrite hfc_succ; lia).
    assert (H3 : in_lv l (hfc l + 3)) by (unfold in_lv; rewrite hfc_succ; lia).
    destruct (hdistF_some (hfc l) (hfc l + 2) l ltac:(lia) H0 H2) as (d1 & ->). destruct (hdistF_some (hfc l) (hfc l + 3) l ltac:(lia) H0 H3) as (d2 & ->).
    cbn [obind]. eauto.
  Qed.
  Lemma pairsF_true t : h_R t = Rd -> (h_layers t <= hm Rd)%nat -> pairs_defined t = true -> pairs_definedF M t = true.
  Proof.
    intros E H. unfold pairs_defined, pairs_definedF. rewrite !forallb_forall. intros P [i j] Hij. specialize (P _ Hij).
    apply in_prod_iff in Hij as [Hi Hj]. apply in_seq in Hi, Hj. cbn [fst snd] in *. rewrite E in *. rewrite (ft_bases _ _ _ _ _ _ FT) by lia. exact P.
  Qed.
  Lemma filtersF_true t : h_R t = Rd -> h_levels t = lev Rd 0 + 1 -> (h_layers t <= hm Rd)%nat -> pairs_defined t = true -> filters_definedF M t = true.
  Proof.
    intros E EL H P. unfold filters_definedF. destruct (Req_EM_T (h_T t) 0); [reflexivity|]. apply forallb_forall. intros [i j] Hij.
    unfold pairs_defined in P. rewrite forallb_forall in P. specialize (P _ Hij). apply in_prod_iff in Hij as [Hi Hj]. apply in_seq in Hi, Hj. cbn [fst snd] in *.
    apply forallb_forall. intros l Hl. apply Nrange_In in Hl. rewrite baseF_eq in Hl by (auto; lia). unfold h_base in Hl.
    destruct (pbl _ _ _) as [b|] eqn:Eb in Hl; [|lia]. rewrite Eb in P. apply N.ltb_lt in P.
    destruct (hm_ceil radii' angles' Rd DI) as (_ & M1 & _). destruct (lev_ok radii' angles' Rd DI 0 ltac:(lia)) as (_ & _ & B).
    rewrite E. destruct (filtersF_some (h_T t) i j l ltac:(lia)) as (d1 & d2 & ->). reflexivity.
  Qed.

  (** the same tree for every number of threads *)
  Theorem hbuildF_det : exists t ord, htree_specF t ord /\ forall omp_max, (1 <= omp_max <= 2 ^ 17 + 1)%nat ->
      htree_outcomeF M radii angles T Rd omp_max (Some t) /\ forall o, htree_outcomeF M radii angles T Rd omp_max o -> o = Some t.
  Proof.
    pose proof (fsum_lt radii' angles' Rd DI (hm Rd) (le_n _)) as HML. fold (HM Rd) in HML. pose proof (di_n _ _ _ DI) as Hn1.
    assert (HM1 : w32 (HM Rd + 1) = HM Rd + 1).
    { apply w32_small. change (2 ^ 31) with 2147483648 in HML. change (2 ^ 32) with 4294967296. lia. }
    assert (HM2 : HM Rd + 1 < 2 ^ 32). { change (2 ^ 31) with 2147483648 in HML. change (2 ^ 32) with 4294967296. lia. }
    assert (Hk : forall x, In x (map mkF (seq 0 n)) -> pcell x < HM Rd).
    { intros x Hx. apply in_map_iff in Hx as (u & <- & Hu). apply in_seq in Hu. cbn [pcell mkF]. apply (hmk_cell_lt radii' angles' Rd DI u). rewrite lenr. lia. }
    destruct (hm_ceil radii' angles' Rd DI) as (Em & M1 & M2).
    assert (HLA : length angles = n) by (rewrite <- (ft_lena _ _ _ _ _ _ FT), <- lenr; symmetry; apply DI).
    assert (Hpre : (if (length angles <? length radii)%nat then None else
         do m <- num_layers0F M Rd;
         do levels <- level_of_layerF M Rd (N.to_nat m);
         do (firsts, Mx) <- hfirst_cells levels;
         do l0 <- nth_error levels 0;
         do points <- omap (hclassifyF M Rd levels firsts) (combine (seq 0 (length radii)) (combine radii angles));
         Some (levels, firsts, Mx, points)) = Some (map (lev Rd) (seq 0 (hm Rd)), map (hfirst Rd) (seq 0 (hm Rd)), HM Rd, map mkF (seq 0 n))).
    { rewrite HLA, Nat.ltb_irrefl. rewrite num_eq. cbn [obind]. rewrite Nat2N.id, levelsF_eq. cbn [obind].
      rewrite (firsts_eq radii' angles' Rd DI). cbn [obind].
      rewrite (map_nth_error _ 0%nat (seq 0 (hm Rd)) (nth_error_seq 0 (hm Rd) 0 ltac:(lia))). cbn [obind]. rewrite classifyF_eq. reflexivity. }
    assert (Hsort : forall omp_max, (1 <= omp_max <= 2 ^ 17 + 1)%nat -> forall buf, length buf = length (map mkF (seq 0 n)) ->
      (exists o, intsort_outcome 8 pcell (w32 (HM Rd + 1)) omp_max (map mkF (seq 0 n)) buf o) /\
      forall o, intsort_outcome 8 pcell (w32 (HM Rd + 1)) omp_max (map mkF (seq 0 n)) buf o -> exists out, o = Some out /\ is_stable_sort pcell (map mkF (seq 0 n)) out).
    { intros omp_max Ho buf Hb. rewrite HM1. apply C15_radix_sort_sorts; auto; try lia. intros x Hx. specialize (Hk x Hx). lia. }
    destruct (Hsort 1%nat (conj (le_n 1) (Nat.le_add_l 1 _)) (map mkF (seq 0 n)) eq_refl) as [[so Hso] Hall]. destruct (Hall so Hso) as (sorted & -> & Hst).
    pose proof Hst as (Hperm & Hss & _).
    assert (Hex : exists ord, sorted = map mkF ord /\ Permutation ord (seq 0 n)).
    { exists (map pid sorted). assert (Hi : forall v, In v sorted -> mkF (pid v) = v).
      { intros v Hv. apply (Permutation_in _ (Permutation_sym Hperm)) in Hv. apply in_map_iff in Hv as (u & <- & _). reflexivity. }
      split.
      - rewrite map_map. rewrite <- (map_id sorted) at 1. apply map_ext_in. intros v Hv. symmetry. now apply Hi.
      - apply Permutation_sym. assert (E1 : seq 0 n = map pid (map mkF (seq 0 n))).
        { rewrite map_map. cbn [pid mkF]. now rewrite map_id. }
        rewrite E1. now apply Permutation_map. }
    destruct Hex as (ord & -> & Hord).
    assert (Hlen : length ord = n) by (rewrite (Permutation_length Hord); apply seq_length).
    assert (Hm : forall L, map hmk' L = map (fun p => hmk' (pid p)) (map mkF L)) by (intros L; rewrite map_map; reflexivity).
    assert (Hst' : is_stable_sort pcell (map hmk' (seq 0 n)) (map hmk' ord)).
    { rewrite !Hm. apply (stable_map pcell pcell); [|exact Hst]. intros x Hx. apply in_map_iff in Hx as (u & <- & _). reflexivity. }
    assert (Hkeys : forall L, map (fun v => N.to_nat (pcell v)) (map mkF L) = map (fun v => N.to_nat (pcell v)) (map hmk' L)).
    { intros L. rewrite !map_map. apply map_ext. reflexivity. }
    destruct ord as [|u0 ord']; [cbn in Hlen; rewrite lenr in Hn1; lia|].
    assert (Hu0 : (u0 < n)%nat). { assert (I : In u0 (u0 :: ord')) by now left. apply (Permutation_in _ Hord) in I. apply in_seq in I. lia. }
    assert (Hu0' : (u0 < length radii')%nat) by (rewrite lenr; exact Hu0).
    assert (Hmin : forall v, In v (u0 :: ord') -> pcell (hmk' u0) <= pcell (hmk' v)).
    { intros v [<-|Hv]; [lia|]. cbn [map] in Hss. apply StronglySorted_inv in Hss as [_ F]. rewrite Forall_forall in F. apply (F (mkF v)). now apply in_map. }
    set (ord := u0 :: ord') in *.
    assert (Hpr : (do p0 <- nth_error (map mkF ord) 0; prune (map (hfirst Rd) (seq 0 (hm Rd))) (pcell p0)) = Some (S (hlay' u0))).
    { cbn [map ord nth_error obind]. pose proof (prune_eq radii' angles' Rd DI u0 (hm Rd) Hu0' (le_n _) ltac:(lia)) as E. rewrite Nat.sub_diag, Nat.sub_0_r in E. exact E. }
    assert (Hidx : forall t1 t2, (1 <= t1)%nat -> (1 <= t2)%nat ->
      (exists o, index_outcome (map (fun v => N.to_nat (pcell v)) (map mkF ord)) (N.to_nat (HM Rd)) t1 t2 o) /\
      forall o, index_outcome (map (fun v => N.to_nat (pcell v)) (map mkF ord)) (N.to_nat (HM Rd)) t1 t2 o ->
        exists arr, o = Some arr /\ is_prefix_index (map (fun v => N.to_nat (pcell v)) (map mkF ord)) (N.to_nat (HM Rd)) arr).
    { intros t1 t2 H1 H2. apply C18_cell_index; auto.
      - clear -Hss. induction Hss as [|a l S IH F]; cbn [map]; constructor; auto.
        rewrite Forall_forall in *. intros x Hx. apply in_map_iff in Hx as (v & <- & Hv). specialize (F v Hv). lia.
      - intros x Hx. apply in_map_iff in Hx as (v & <- & Hv). apply (Permutation_in _ (Permutation_sym Hperm)) in Hv.
        specialize (Hk v Hv). lia.
      - rewrite !map_length, Hlen. rewrite lenr in Hn1. exact Hn1.
      - rewrite !map_length, Hlen. pose proof (di_n31 _ _ _ DI) as Hn. rewrite lenr in Hn. change (2 ^ 31) with 2147483648 in Hn. change (2 ^ 32) with 4294967296. lia. }
    destruct (Hidx 1%nat 1%nat ltac:(lia) ltac:(lia)) as [[io Hio] Hiall]. destruct (Hiall io Hio) as (arr & -> & Harr).
    set (t := {| h_R := Rd; h_T := T; h_layers := S (hlay' u0); h_level := map (lev Rd) (seq 0 (hm Rd)); h_first := map (hfirst Rd) (seq 0 (hm Rd));
                  h_points := map mkF ord; h_index := arr |}).
    assert (HSP' : htree_spec radii' angles' T Rd (with_points t (map hmk' ord)) ord).
    { unfold with_points, t. cbn [h_R h_T h_layers h_level h_first h_index]. apply (hbuild_queries radii' angles' T Rd DI).
      - rewrite lenr. exact Hord.
      - rewrite lenr. exact Hst'.
      - apply Hst'.
      - rewrite <- Hkeys. exact Harr.
      - exists u0. split; [now left|]. split; [reflexivity|exact Hmin]. }
    assert (HSP : htree_specF t ord) by (constructor; [exact HSP'|reflexivity]).
    assert (HP1 : pairs_definedF M t = true).
    { apply pairsF_true; [reflexivity|exact (hs_layers _ _ _ _ _ _ HSP')|exact (hs_pairs _ _ _ _ _ _ HSP')]. }
    assert (HP2 : filters_definedF M t = true).
    { apply filtersF_true; [reflexivity|exact (hs_levels _ _ _ _ _ _ HSP')|exact (hs_layers _ _ _ _ _ _ HSP')|exact (hs_pairs _ _ _ _ _ _ HSP')]. }
    exists t, ord. split; [exact HSP|]. intros omp_max Ho. unfold htree_outcomeF. rewrite Hpre. split.
    - destruct (Hsort omp_max Ho (map mkF (seq 0 n)) eq_refl) as [[so' Hso'] Hall']. destruct (Hall' so' Hso') as (out & -> & Hst2).
      rewrite <- (is_stable_sort_unique pcell _ _ _ Hst Hst2) in Hso'.
      exists (map mkF (seq 0 n)), (Some (map mkF ord)). split; [reflexivity|]. split; [exact Hso'|]. rewrite Hpr.
      exists 1%nat, 1%nat, (Some arr). split; [lia|]. split; [lia|]. split; [exact Hio|]. cbn [obind]. cbv zeta. fold t.
      rewrite HP1, HP2. reflexivity.
    - intros o (buf & so & Hbuf & Hs & Hrest). destruct (proj2 (Hsort omp_max Ho buf Hbuf) so Hs) as (out & -> & Hst2).
      rewrite <- (is_stable_sort_unique pcell _ _ _ Hst Hst2) in Hrest. rewrite Hpr in Hrest.
      destruct Hrest as (t1 & t2 & io & H1 & H2 & Hi & ->).
      destruct (proj2 (Hidx t1 t2 ltac:(lia) ltac:(lia)) io Hi) as (arr2 & -> & Harr2).
      assert (arr2 = arr).
      { destruct Harr as [L1 Q1], Harr2 as [L2 Q2]. apply list_eq_nth; [lia|]. intros j Hj. rewrite Q1, Q2 by lia. reflexivity. }
      subst arr2. cbn [obind]. cbv zeta. fold t. rewrite HP1, HP2. reflexivity.
  Qed.
  Theorem hbuildF_ok omp_max : (1 <= omp_max <= 2 ^ 17 + 1)%nat ->
    exists t ord, htree_specF t ord /\ htree_outcomeF M radii angles T Rd omp_max (Some t) /\
      forall o, htree_outcomeF M radii angles T Rd omp_max o -> o = Some t.
  Proof. intros Ho. destruct hbuildF_det as (t & ord & TS & H). exists t, ord. split; [exact TS|]. now apply H. Qed.
End BuildF.
