(** The constructor of HyperbolicTree: every schedule leaves the same, correct data structure. *)
From Coq Require Import Arith NArith ZArith List Bool Reals Permutation Lia Lra Sorted.
From Flocq Require Import Core.
From Verif Require Import Base Sched Bits_Model Bits_Proofs Coord_Model Coord_Proofs Coord_Geo IntSort_Model IntSort_Proofs IntSort_Main
  Prop_IntSort Prefix_Model Prefix_Proofs Prop_Prefix Tree_Model Cover Tree_Proofs Tree_Build Hyp_Model Hyp_Math Hyp_Angle Hyp_Levels.
Import ListNotations.
Local Open Scope N_scope.
Global Opaque pbl.

(** The inputs for which the hyperbolic generator's theorems are stated. *)
Record disc_input (radii angles : list R) (Rd : R) : Prop := {
  di_len : length radii = length angles;
  di_n : (1 <= length radii)%nat;
  di_n31 : N.of_nat (length radii) < 2 ^ 31;
  di_R : (2 / 3 <= Rd <= 40)%R;
  di_r : Forall (fun r => 0 < r <= Rd)%R radii;
  di_phi : Forall (fun phi => 0 <= phi < 2 * PI)%R angles;
  di_thin : (4 / 3 <= Rd \/ Rd <= 1 \/ Forall (fun r => Rd - 1 < r) radii)%R }.

Lemma omap_some {X Y} (f : X -> option Y) (g : X -> Y) l : (forall x, In x l -> f x = Some (g x)) -> omap f l = Some (map g l).
Proof.
  induction l as [|a l IH]; intros H; [reflexivity|]. cbn [omap map]. rewrite (H a) by now left. cbn [obind].
  rewrite IH by (intros; apply H; now right). reflexivity.
Qed.

Lemma rdiv1 x : (x / 1 = x)%R.
Proof. field. Qed.
Section Build.
  Variables (radii angles : list R) (T Rd : R).
  Hypothesis DI : disc_input radii angles Rd.
  Notation n := (length radii).
  Definition rad (u : nat) : R := nth u radii 0%R.
  Definition phi (u : nat) : R := nth u angles 0%R.
  Definition hm : nat := Z.to_nat (Zceil Rd).
  Definition hlay (u : nat) : nat := Z.to_nat (Zfloor (Rd - rad u)).
  Definition cel (l : N) (u : nat) : N := hcel l (phi u).

  Lemma HR : (2 / 3 <= Rd <= 40)%R. Proof. apply DI. Qed.
  Lemma rad_ok u : (u < n)%nat -> (0 < rad u <= Rd)%R.
  Proof. intros H. pose proof (di_r _ _ _ DI) as F. rewrite Forall_forall in F. apply F. now apply nth_In. Qed.
  Lemma phi_ok u : (u < n)%nat -> ang (phi u).
  Proof. intros H. pose proof (di_phi _ _ _ DI) as F. rewrite Forall_forall in F. apply F. apply nth_In. rewrite <- (di_len _ _ _ DI). exact H. Qed.
  Lemma hm_ceil : Z.of_nat hm = Zceil Rd /\ (1 <= hm)%nat /\ (hm <= 40)%nat.
  Proof.
    pose proof HR as H. pose proof (Zceil_ub Rd) as U. assert (L : (0 < Zceil Rd)%Z) by (apply lt_IZR; lra).
    assert (Zceil Rd <= 40)%Z by (apply Zceil_glb; lra). unfold hm. lia.
  Qed.
  Lemma lt_hm l : (l < hm)%nat -> (INR l < Rd)%R.
  Proof.
    intros H. destruct hm_ceil as (E & _). pose proof (Zceil_lb Rd) as L. rewrite INR_IZR_INZ. assert (K : (IZR (Z.of_nat l + 1) <= IZR (Zceil Rd))%R) by (apply IZR_le; lia).
    rewrite plus_IZR in K. lra.
  Qed.
  Lemma hlay_spec u : (u < n)%nat -> radius_to_layer Rd (rad u) = Some (N.of_nat (hlay u)) /\ (hlay u < hm)%nat /\
    (rmin Rd (hlay u) < rad u <= layer_rad_max Rd (hlay u))%R.
  Proof.
    intros Hu. destruct (rad_ok u Hu) as [H1 H2]. pose proof HR as H3. destruct hm_ceil as (Em & M1 & M2).
    assert (F0 : (0 <= Zfloor (Rd - rad u))%Z) by (apply Zfloor_lub; lra).
    assert (F1 : (Zfloor (Rd - rad u) < Zceil Rd)%Z).
    { apply lt_IZR. pose proof (Zfloor_lb (Rd - rad u)). pose proof (Zceil_ub Rd). lra. }
    assert (Eh : Z.of_nat (hlay u) = Zfloor (Rd - rad u)) by (unfold hlay; lia).
    split; [|split; [lia|]].
    - unfold radius_to_layer, double_to_u32. rewrite rdiv1. rewrite Ztrunc_floor by lra.
      destruct (_ && _)%Z eqn:E; [f_equal; unfold hlay; lia|]. exfalso. apply andb_false_iff in E as [E|E]; [apply Z.leb_gt in E; lia|apply Z.ltb_ge in E; lia].
    - rewrite rmin_eq. unfold layer_rad_max. rewrite INR_IZR_INZ, Eh. pose proof (Zfloor_lb (Rd - rad u)). pose proof (Zfloor_ub (Rd - rad u)). lra.
  Qed.

  (** *** levels and first cells *)
  Lemma lev_ok l : (l < hm)%nat -> pbl (layer_rad_min Rd l) (Rd - 1) Rd = Some (lev Rd l) /\
    (pow2R (lev Rd l) <= 5 / 3 * exp ((Rd - INR l) / 2))%R /\ lev Rd l <= 30.
  Proof. intros H. apply (lev_spec Rd l HR). now apply lt_hm. Qed.
  Lemma levels_eq : level_of_layer Rd hm = Some (map (lev Rd) (seq 0 hm)).
  Proof. apply omap_some. intros l Hl. apply in_seq in Hl. apply lev_ok. lia. Qed.
  (** number of cells of the last k layers *)
  Fixpoint fsum (k : nat) : N := match k with O => 0 | S k' => fsum k' + 2 ^ lev Rd (hm - S k') end.
  Definition hfirst (i : nat) : N := fsum (hm - S i).
  Definition HM : N := fsum hm.
  Lemma fsum_mono a b : (a <= b)%nat -> fsum a <= fsum b.
  Proof. induction 1; cbn [fsum]; lia. Qed.
  Lemma hfirst_next i : (i < hm)%nat -> fsum (hm - i) = hfirst i + 2 ^ lev Rd i.
  Proof. intros H. unfold hfirst. replace (hm - i)%nat with (S (hm - S i)) by lia. cbn [fsum].
    now replace (hm - S (hm - S i))%nat with i by lia. Qed.
  Lemma fsum_bound k : (k <= hm)%nat -> (IZR (Z.of_N (fsum k)) <= 43 / 10 * exp ((Rd - INR (hm - k)) / 2))%R.
  Proof.
    induction k as [|k IH]; intros Hk.
    - cbn [fsum Z.of_N]. pose proof (exp_pos ((Rd - INR (hm - 0)) / 2)). lra.
    - cbn [fsum]. specialize (IH ltac:(lia)). destruct (lev_ok (hm - S k) ltac:(lia)) as (_ & B & _). unfold pow2R in B.
      rewrite N2Z.inj_add, plus_IZR. set (j := (hm - S k)%nat) in *. replace (hm - k)%nat with (S j) in IH by (unfold j; lia).
      rewrite S_INR in IH. set (X := exp ((Rd - INR j) / 2)) in *.
      assert (E : (exp ((Rd - (INR j + 1)) / 2) * exp (1 / 2) = X)%R) by (unfold X; rewrite <- exp_plus; f_equal; field).
      assert (H1 : (exp (1 / 2) * exp (1 / 2) = exp 1)%R) by (rewrite <- exp_plus; f_equal; field).
      pose proof e_bounds as [H2 _]. pose proof (exp_pos (1 / 2)) as H3. assert (H4 : (1647 / 1000 < exp (1 / 2))%R) by nra.
      pose proof (exp_pos ((Rd - (INR j + 1)) / 2)) as H5. nra.
  Qed.
  Lemma fsum_lt k : (k <= hm)%nat -> fsum k < 2 ^ 31 - 2.
  Proof.
    intros Hk. pose proof (fsum_bound k Hk) as B. pose proof exp_20 as E. pose proof HR as H. pose proof (pos_INR (hm - k)) as P.
    pose proof (exp_le ((Rd - INR (hm - k)) / 2) 20 ltac:(lra)) as X.
    assert (L : (IZR (Z.of_N (fsum k)) < IZR (2 ^ 31 - 2))%R) by lra. apply lt_IZR in L. lia.
  Qed.
  Lemma hfirst_cells_eq k : (k <= hm)%nat ->
    hfirst_cells (map (lev Rd) (seq (hm - k) k)) = Some (map hfirst (seq (hm - k) k), fsum k).
  Proof.
    induction k as [|k IH]; intros Hk; [reflexivity|]. cbn [seq map hfirst_cells].
    replace (S (hm - S k)) with (hm - k)%nat by lia. rewrite IH by lia. cbn [obind].
    destruct (lev_ok (hm - S k) ltac:(lia)) as (_ & _ & B). rewrite numCells_Some by lia. cbn [obind].
    f_equal. f_equal; [unfold hfirst; now replace (hm - S (hm - S k))%nat with k by lia|]. pose proof (fsum_lt (S k) Hk) as L. cbn [fsum] in L |- *.
    apply w32_small. change (2 ^ 31) with 2147483648 in L. change (2 ^ 32) with 4294967296. lia.
  Qed.
  Lemma firsts_eq : hfirst_cells (map (lev Rd) (seq 0 hm)) = Some (map hfirst (seq 0 hm), HM).
  Proof. pose proof (hfirst_cells_eq hm (le_n _)) as H. rewrite Nat.sub_diag in H. exact H. Qed.

  (** *** the points *)
  Definition hmk (u : nat) : hpoint :=
    {| pid := u; pcell := hfirst (hlay u) + hidx (lev Rd (hlay u)) (phi u);
       invsinh_r := 1 / sinh (rad u); coth_r := cosh (rad u) / sinh (rad u); cos_phi := cos (phi u); sin_phi := sin (phi u) |}.
  Lemma hidx_ok u : (u < n)%nat -> hidx (lev Rd (hlay u)) (phi u) < 2 ^ lev Rd (hlay u).
  Proof. intros H. apply hidx_lt. now apply phi_ok. Qed.
  Lemma combine_index : combine (seq 0 n) (combine radii angles) = map (fun u => (u, (rad u, phi u))) (seq 0 n).
  Proof.
    pose proof (di_len _ _ _ DI) as HL. apply list_eq_nth.
    - rewrite !combine_length, map_length, seq_length. lia.
    - intros i Hi. rewrite !combine_length, seq_length in Hi. assert (Hi' : (i < n)%nat) by lia.
      rewrite (map_nth_error _ i (seq 0 n) (nth_error_seq 0 n i Hi')).
      assert (E1 : nth_error (combine (seq 0 n) (combine radii angles)) i = Some (nth i (combine (seq 0 n) (combine radii angles)) (O, (0%R, 0%R)))).
      { apply nth_error_nth'. rewrite !combine_length, seq_length. exact Hi. }
      rewrite E1. rewrite !combine_nth by (rewrite ?combine_length, ?seq_length; lia). rewrite seq_nth by lia. reflexivity.
  Qed.
  Lemma hmk_cell_lt u : (u < n)%nat -> pcell (hmk u) < HM.
  Proof.
    intros Hu. cbn [pcell hmk]. destruct (hlay_spec u Hu) as (_ & L & _). pose proof (hidx_ok u Hu) as B.
    pose proof (hfirst_next (hlay u) L) as E. pose proof (fsum_mono (hm - hlay u) hm ltac:(lia)). unfold HM. lia.
  Qed.
  Lemma hclassify_eq : omap (hclassify Rd (map (lev Rd) (seq 0 hm)) (map hfirst (seq 0 hm))) (combine (seq 0 n) (combine radii angles)) =
    Some (map hmk (seq 0 n)).
  Proof.
    rewrite combine_index. transitivity (Some (map (fun x => hmk (fst x)) (map (fun u => (u, (rad u, phi u))) (seq 0 n))));
      [|rewrite map_map; reflexivity].
    apply omap_some. intros x Hx. apply in_map_iff in Hx as (u & <- & Hu). apply in_seq in Hu. assert (Hu' : (u < n)%nat) by lia.
    cbn [fst]. unfold hclassify. destruct (hlay_spec u Hu') as (E & L & _). rewrite E. cbn [obind]. rewrite Nat2N.id.
    rewrite (map_nth_error _ (hlay u) (seq 0 hm) (nth_error_seq 0 hm (hlay u) L)).
    rewrite (map_nth_error _ (hlay u) (seq 0 hm) (nth_error_seq 0 hm (hlay u) L)). cbn [obind Nat.add].
    destruct (lev_ok (hlay u) L) as (_ & _ & B). rewrite hcellForPoint_eq by (try apply phi_ok; auto; lia). cbn [obind].
    unfold mk_point. destruct (Req_EM_T (rad u) 0) as [E0|_]; [pose proof (rad_ok u Hu'); lra|].
    f_equal. unfold hmk. f_equal. apply w32_small. pose proof (hmk_cell_lt u Hu') as C. cbn [pcell hmk] in C. pose proof (fsum_lt hm (le_n _)) as D.
    unfold HM in C. change (2 ^ 31) with 2147483648 in D. change (2 ^ 32) with 4294967296. lia.
  Qed.

  Lemma layer_inv a b x : (a < hm)%nat -> (b < hm)%nat -> x < 2 ^ lev Rd a -> hfirst b <= hfirst a + x < hfirst b + 2 ^ lev Rd b -> a = b.
  Proof.
    intros Ha Hb Hx H. rewrite <- (hfirst_next b Hb) in H. pose proof (hfirst_next a Ha) as E.
    destruct (lt_eq_lt_dec a b) as [[L|L]|L]; [|exact L|]; exfalso.
    - pose proof (fsum_mono (hm - b) (hm - S a) ltac:(lia)) as Mo. fold (hfirst a) in Mo. lia.
    - pose proof (fsum_mono (hm - a) (hm - S b) ltac:(lia)) as Mo. fold (hfirst b) in Mo. lia.
  Qed.
  (** a cell's range of numbers on the insertion level *)
  Lemma hrange_iff u i A l : (u < n)%nat -> (i < hm)%nat -> l <= lev Rd i -> in_lv l A ->
    (let lo := hfirst i + (A - hfc l) * 2 ^ (lev Rd i - l) in
     (lo <=? pcell (hmk u)) && (pcell (hmk u) <? lo + 2 ^ (lev Rd i - l))) = (hlay u =? i)%nat && (cel l u =? A).
  Proof.
    intros Hu Hi Hl HA. cbv zeta. set (desc := 2 ^ (lev Rd i - l)). set (loc := A - hfc l).
    assert (Hd : 0 < desc) by apply pow2_pos.
    assert (Hloc : loc < 2 ^ l). { unfold loc. destruct HA as [H1 H2]. rewrite hfc_succ in H2. lia. }
    assert (Htot : 2 ^ lev Rd i = 2 ^ l * desc).
    { unfold desc. rewrite <- N.pow_add_r. f_equal. lia. }
    assert (Hup : loc * desc + desc <= 2 ^ lev Rd i) by (rewrite Htot; nia).
    pose proof (hidx_ok u Hu) as Hc. destruct (hlay_spec u Hu) as (_ & HLu & _).
    cbn [pcell hmk]. set (x := hidx (lev Rd (hlay u)) (phi u)) in *.
    destruct (Nat.eqb_spec (hlay u) i) as [Ei|Ei].
    - subst i. cbn [andb].
      assert (Ex : hidx l (phi u) = x / desc).
      { unfold x, desc. pose proof (hidx_ancestor (phi u) (N.to_nat (lev Rd (hlay u) - l)) l (phi_ok u Hu)) as H.
        rewrite N2Nat.id in H. replace (l + (lev Rd (hlay u) - l)) with (lev Rd (hlay u)) in H by lia. exact H. }
      unfold cel, hcel. rewrite Ex.
      assert (EA : A = hfc l + loc) by (unfold loc; destruct HA; lia).
      pose proof (N.div_mod x desc ltac:(lia)) as Hdm. pose proof (N.mod_lt x desc ltac:(lia)) as Hml.
      set (q := x / desc) in *. set (r := x mod desc) in *. clearbody q r.
      destruct (N.eqb_spec (hfc l + q) A) as [Eq|Eq].
      + assert (q = loc) by lia. subst q. apply andb_true_intro. split; [apply N.leb_le|apply N.ltb_lt]; nia.
      + apply andb_false_iff. destruct (N.lt_trichotomy q loc) as [L|[L|L]]; [left; apply N.leb_gt|lia|right; apply N.ltb_ge]; nia.
    - cbn [andb]. apply andb_false_iff.
      destruct (N.leb_spec (hfirst i + loc * desc) (hfirst (hlay u) + x)) as [L1|L1]; [|now left]. right. apply N.ltb_ge.
      destruct (N.le_gt_cases (hfirst i + loc * desc + desc) (hfirst (hlay u) + x)) as [L2|L2]; [exact L2|]. exfalso. apply Ei.
      apply (layer_inv (hlay u) i x HLu Hi Hc). lia.
  Qed.

  Record htree_spec (t : htree) (ord : list nat) : Prop := {
    hs_R : h_R t = Rd; hs_T : h_T t = T;
    hs_levels : h_levels t = lev Rd 0 + 1;
    hs_layers : (h_layers t <= hm)%nat;
    hs_lay : forall u, (u < n)%nat -> (hlay u < h_layers t)%nat;
    hs_disc : disc_ok Rd (h_layers t);
    hs_perm : Permutation ord (seq 0 n);
    hs_nodes : h_points t = map hmk ord;
    hs_stable : is_stable_sort pcell (map hmk (seq 0 n)) (map hmk ord);
    hs_pairs : pairs_defined t = true;
    hs_filters : filters_defined t = true;
    hs_iter : forall i A l, (i < h_layers t)%nat -> l <= lev Rd i -> in_lv l A ->
      exists b e, hcellIterators t i A l = Some (b, e) /\
        slice (h_points t) b e = Some (map hmk (filter (fun u => (hlay u =? i)%nat && (cel l u =? A)) ord));
    hs_level : h_level t = map (lev Rd) (seq 0 hm);
    hs_first : h_first t = map hfirst (seq 0 hm);
    hs_index : is_prefix_index (map (fun v => N.to_nat (pcell v)) (h_points t)) (N.to_nat HM) (h_index t) }.

  Lemma prune_eq u k : (u < n)%nat -> (k <= hm)%nat -> (hm - k <= hlay u)%nat ->
    prune (map hfirst (seq (hm - k) k)) (pcell (hmk u)) = Some (S (hlay u - (hm - k)))%nat.
  Proof.
    intros Hu. destruct (hlay_spec u Hu) as (_ & HLu & _). pose proof (hidx_ok u Hu) as Hc.
    pose proof (hfirst_next (hlay u) HLu) as En.
    induction k as [|k IH]; intros Hk Hl; [lia|]. cbn [seq map prune]. replace (S (hm - S k)) with (hm - k)%nat by lia.
    cbn [pcell hmk] in *. set (x := hidx (lev Rd (hlay u)) (phi u)) in *.
    destruct (Nat.eq_dec (hm - S k) (hlay u)) as [E|E].
    - rewrite E, Nat.sub_diag. rewrite (proj2 (N.ltb_ge _ _)) by lia. reflexivity.
    - assert (L : hfirst (hlay u) + x < hfirst (hm - S k)).
      { pose proof (fsum_mono (hm - hlay u) (hm - S (hm - S k)) ltac:(lia)) as Mo. fold (hfirst (hm - S k)) in Mo. lia. }
      rewrite (proj2 (N.ltb_lt _ _) L). rewrite IH by lia. cbn [obind]. f_equal. lia.
  Qed.

  Lemma base_ok t i j : h_R t = Rd -> disc_ok Rd (h_layers t) -> (h_layers t <= hm)%nat -> (i < h_layers t)%nat -> (j < h_layers t)%nat ->
    pbl (layer_rad_min (h_R t) i) (layer_rad_min (h_R t) j) (h_R t) = Some (base Rd i j) /\
    base Rd i j <= lev Rd i /\ base Rd i j <= lev Rd j /\ base Rd i j <= lev Rd 0 /\ h_base t i j = base Rd i j.
  Proof.
    intros E HD HL Hi Hj. rewrite E. destruct (base_spec Rd (h_layers t) i j HR HD ltac:(apply lt_hm; lia) Hi Hj) as (B1 & B2 & B3 & B4).
    split; [exact B1|]. split; [exact B2|]. split; [exact B3|]. split; [exact B4|]. unfold h_base. rewrite E. unfold rmin in B1. rewrite B1. reflexivity.
  Qed.
  Lemma Nrange_In a b x : In x (Nrange a b) <-> a <= x <= b.
  Proof.
    unfold Nrange. rewrite in_map_iff. split.
    - intros (k & <- & Hk). apply in_seq in Hk. lia.
    - intros H. exists (N.to_nat (x - a)). split; [lia|]. apply in_seq. lia.
  Qed.
  Lemma filters_some T' i j l : 2 <= l <= 30 -> exists fs, typeII_filters T' Rd i j l = Some fs.
  Proof.
    intros Hl. unfold typeII_filters. rewrite firstCell_Some by lia. cbn [obind].
    pose proof (pow2_lt 2 l ltac:(lia)) as P. change (2 ^ 2) with 4 in P.
    assert (H0 : in_lv l (hfc l)) by (unfold in_lv; rewrite hfc_succ; lia).
    assert (H2 : in_lv l (hfc l + 2)) by (unfold in_lv; rewrite hfc_succ; lia).
    assert (H3 : in_lv l (hfc l + 3)) by (unfold in_lv; rewrite hfc_succ; lia).
    rewrite !hdist_eq by (auto; lia). cbn [obind]. eauto.
  Qed.

  Lemma hbuild_queries ord arr k : Permutation ord (seq 0 n) -> is_stable_sort pcell (map hmk (seq 0 n)) (map hmk ord) ->
    StronglySorted (fun a b => pcell a <= pcell b) (map hmk ord) ->
    is_prefix_index (map (fun v => N.to_nat (pcell v)) (map hmk ord)) (N.to_nat HM) arr ->
    (exists u, In u ord /\ S (hlay u) = k /\ forall v, In v ord -> pcell (hmk u) <= pcell (hmk v)) ->
    htree_spec {| h_R := Rd; h_T := T; h_layers := k; h_level := map (lev Rd) (seq 0 hm); h_first := map hfirst (seq 0 hm);
                  h_points := map hmk ord; h_index := arr |} ord.
  Proof.
    intros HP HST HS [HAl HA] (u0 & Hu0 & Hk & Hmin).
    assert (Ho : forall v, In v ord <-> (v < n)%nat).
    { intros v. split; intros H.
      - apply (Permutation_in _ HP) in H. apply in_seq in H. lia.
      - apply (Permutation_in _ (Permutation_sym HP)). apply in_seq. lia. }
    destruct hm_ceil as (_ & M1 & _).
    assert (Hlay : forall v, (v < n)%nat -> (hlay v < k)%nat).
    { intros v Hv. pose proof (proj1 (Ho u0) Hu0) as Hu. specialize (Hmin v (proj2 (Ho v) Hv)). cbn [pcell hmk] in Hmin.
      destruct (hlay_spec v Hv) as (_ & Lv & _). destruct (hlay_spec u0 Hu) as (_ & Lu & _). pose proof (hidx_ok v Hv) as Bv.
      destruct (le_lt_dec k (hlay v)) as [L|L]; [|lia]. exfalso. pose proof (hfirst_next (hlay v) Lv) as E.
      pose proof (fsum_mono (hm - hlay v) (hm - S (hlay u0)) ltac:(lia)) as Mo. fold (hfirst (hlay u0)) in Mo. lia. }
    assert (Hdisc : disc_ok Rd k).
    { destruct (di_thin _ _ _ DI) as [H|[H|H]]; [now left|now right; left|]. right. right.
      rewrite Forall_forall in H. pose proof (proj1 (Ho u0) Hu0) as Hu. specialize (H (rad u0) (nth_In _ _ Hu)).
      destruct (rad_ok u0 Hu). assert (Zfloor (Rd - rad u0) < 1)%Z.
      { apply lt_IZR. pose proof (Zfloor_lb (Rd - rad u0)). lra. } unfold hlay in Hk. lia. }
    assert (Hkm : (k <= hm)%nat).
    { pose proof (proj1 (Ho u0) Hu0) as Hu. destruct (hlay_spec u0 Hu) as (_ & L & _). lia. }
    assert (Hlv : match map (lev Rd) (seq 0 hm) with l0 :: _ => l0 + 1 | [] => 0 end = lev Rd 0 + 1).
    { destruct hm as [|m']; [lia|]. reflexivity. }
    constructor; cbn [h_R h_T h_levels h_layers h_points h_level]; auto.
    - (* pairs *)
      unfold pairs_defined. apply forallb_forall. intros [i j] Hij. apply in_prod_iff in Hij as [Hi Hj].
      cbn [h_layers] in Hi, Hj. apply in_seq in Hi, Hj. cbn [fst snd].
      match goal with |- context [h_levels ?t] => set (tt := t) end.
      destruct (base_ok tt i j eq_refl Hdisc Hkm ltac:(cbn; lia) ltac:(cbn; lia)) as (B1 & _ & _ & B4 & _).
      rewrite B1. apply N.ltb_lt. unfold h_levels, tt. cbn [h_level]. rewrite Hlv. lia.
    - (* filters *)
      unfold filters_defined. cbn [h_T h_R h_layers]. destruct (Req_EM_T T 0); [reflexivity|]. apply forallb_forall. intros [i j] Hij.
      apply in_prod_iff in Hij as [Hi Hj]. apply in_seq in Hi, Hj. apply forallb_forall. intros l Hl. cbn [fst snd] in *.
      match type of Hl with context [h_base ?t] => set (tt := t) in Hl end.
      destruct (base_ok tt i j eq_refl Hdisc Hkm ltac:(cbn; lia) ltac:(cbn; lia)) as (_ & _ & _ & B4 & B5).
      rewrite B5 in Hl. apply Nrange_In in Hl. destruct (lev_ok 0 ltac:(lia)) as (_ & _ & B).
      destruct (filters_some T i j l ltac:(lia)) as (fs & ->). reflexivity.
    - (* iterators *)
      intros i A l Hi Hl Hin. assert (Him : (i < hm)%nat) by lia.
      unfold hcellIterators. cbn [h_layers h_first h_level h_index]. rewrite (proj2 (Nat.leb_gt _ _) Hi).
      rewrite (map_nth_error _ i (seq 0 hm) (nth_error_seq 0 hm i Him)). cbn [obind Nat.add].
      rewrite (map_nth_error _ i (seq 0 hm) (nth_error_seq 0 hm i Him)). cbn [obind Nat.add].
      unfold hlevelledCell. rewrite (proj2 (N.ltb_ge _ _) Hl). destruct (lev_ok i Him) as (_ & _ & B30).
      rewrite numCells_Some by lia. cbn [obind]. rewrite firstCell_Some by lia. cbn [obind].
      rewrite (proj2 (N.ltb_ge _ _)) by apply Hin.
      set (desc := 2 ^ (lev Rd i - l)). set (loc := A - hfc l).
      assert (Hd : 0 < desc) by apply pow2_pos.
      assert (Hloc : loc < 2 ^ l). { unfold loc. destruct Hin as [H1 H2]. rewrite hfc_succ in H2. lia. }
      assert (Htot : 2 ^ lev Rd i = 2 ^ l * desc).
      { unfold desc. rewrite <- N.pow_add_r. f_equal. lia. }
      assert (Hup : loc * desc + desc <= 2 ^ lev Rd i) by (rewrite Htot; nia).
      pose proof (hfirst_next i Him) as HN. pose proof (fsum_mono (hm - i) hm ltac:(lia)) as HM'. fold HM in HM'.
      pose proof (fsum_lt hm (le_n _)) as HML. fold HM in HML. change (2 ^ 31) with 2147483648 in HML.
      rewrite !w32_small by (change (2 ^ 32) with 4294967296; lia || (rewrite w32_small by (change (2 ^ 32) with 4294967296; lia); lia)).
      assert (HQ : forall x, x <= HM -> nth_error arr (N.to_nat x) = Some (N.of_nat (length (filter (fun v => pcell v <? x) (map hmk ord))))).
      { intros x Hx. rewrite (HA (N.to_nat x)) by lia. f_equal. f_equal. rewrite filter_length_map. f_equal. apply filter_ext.
        intros v. destruct (Nat.ltb_spec (N.to_nat (pcell v)) (N.to_nat x)), (N.ltb_spec (pcell v) x); auto; lia. }
      cbn [obind]. rewrite HQ by lia. cbn [obind].
      replace (hfirst i + (loc * desc + desc - 1 + 1)) with (hfirst i + loc * desc + desc) by lia. rewrite HQ by lia. cbn [obind].
      eexists. eexists. split; [reflexivity|]. rewrite !Nat2N.id. rewrite (slice_sorted pcell) by (try exact HS; lia).
      f_equal. rewrite filter_map_comm. f_equal. apply filter_ext_in. intros u Hu.
      apply (hrange_iff u i A l); auto. now apply Ho.
    - (* index *) cbn [h_index]. split; assumption.
  Qed.

  Lemma hmap_mk_perm L : Permutation (map hmk (seq 0 n)) L -> exists ord, L = map hmk ord /\ Permutation ord (seq 0 n).
  Proof.
    intros H. exists (map pid L).
    assert (Hi : forall v, In v L -> hmk (pid v) = v).
    { intros v Hv. apply (Permutation_in _ (Permutation_sym H)) in Hv. apply in_map_iff in Hv as (u & <- & _). reflexivity. }
    split.
    - rewrite map_map. rewrite <- (map_id L) at 1. apply map_ext_in. intros v Hv. symmetry. now apply Hi.
    - apply Permutation_sym. assert (E1 : seq 0 n = map pid (map hmk (seq 0 n))).
      { rewrite map_map. cbn [pid hmk]. now rewrite map_id. }
      rewrite E1. now apply Permutation_map.
  Qed.

  Theorem hbuild_ok omp_max : (1 <= omp_max <= 2 ^ 17 + 1)%nat ->
    exists t ord, htree_spec t ord /\ htree_outcome radii angles T Rd omp_max (Some t) /\
      forall o, htree_outcome radii angles T Rd omp_max o -> o = Some t.
  Proof.
    intros Ho. pose proof (fsum_lt hm (le_n _)) as HML. fold HM in HML. pose proof (di_n _ _ _ DI) as Hn1.
    assert (HM1 : w32 (HM + 1) = HM + 1).
    { apply w32_small. change (2 ^ 31) with 2147483648 in HML. change (2 ^ 32) with 4294967296. lia. }
    assert (HM2 : HM + 1 < 2 ^ 32). { change (2 ^ 31) with 2147483648 in HML. change (2 ^ 32) with 4294967296. lia. }
    assert (Hk : forall x, In x (map hmk (seq 0 n)) -> pcell x < HM).
    { intros x Hx. apply in_map_iff in Hx as (u & <- & Hu). apply in_seq in Hu. apply hmk_cell_lt. lia. }
    destruct hm_ceil as (Em & M1 & M2).
    assert (Hpre : (if (length angles <? length radii)%nat then None else
         do m <- num_layers0 Rd;
         do levels <- level_of_layer Rd (N.to_nat m);
         do (firsts, M) <- hfirst_cells levels;
         do l0 <- nth_error levels 0;
         do points <- omap (hclassify Rd levels firsts) (combine (seq 0 (length radii)) (combine radii angles));
         Some (levels, firsts, M, points)) = Some (map (lev Rd) (seq 0 hm), map hfirst (seq 0 hm), HM, map hmk (seq 0 n))).
    { rewrite (di_len _ _ _ DI), Nat.ltb_irrefl. rewrite <- (di_len _ _ _ DI).
      assert (E : num_layers0 Rd = Some (N.of_nat hm)).
      { unfold num_layers0, double_to_u32. rewrite rdiv1, Ztrunc_IZR. destruct (_ && _)%Z eqn:E; [f_equal; lia|].
        exfalso. apply andb_false_iff in E as [E|E]; [apply Z.leb_gt in E; lia|apply Z.ltb_ge in E; lia]. }
      rewrite E. cbn [obind]. rewrite Nat2N.id, levels_eq. cbn [obind]. rewrite firsts_eq. cbn [obind].
      rewrite (map_nth_error _ 0%nat (seq 0 hm) (nth_error_seq 0 hm 0 ltac:(lia))). cbn [obind]. rewrite hclassify_eq. reflexivity. }
    assert (Hsort : forall buf, length buf = length (map hmk (seq 0 n)) ->
      (exists o, intsort_outcome 8 pcell (w32 (HM + 1)) omp_max (map hmk (seq 0 n)) buf o) /\
      forall o, intsort_outcome 8 pcell (w32 (HM + 1)) omp_max (map hmk (seq 0 n)) buf o -> exists out, o = Some out /\ is_stable_sort pcell (map hmk (seq 0 n)) out).
    { intros buf Hb. rewrite HM1. apply C15_radix_sort_sorts; auto; try lia. intros x Hx. specialize (Hk x Hx). lia. }
    destruct (Hsort (map hmk (seq 0 n)) eq_refl) as [[so Hso] Hall]. destruct (Hall so Hso) as (sorted & -> & Hst).
    pose proof Hst as (Hperm & Hss & _). destruct (hmap_mk_perm sorted Hperm) as (ord & -> & Hord).
    assert (Hlen : length ord = n) by (rewrite (Permutation_length Hord); apply seq_length).
    destruct ord as [|u0 ord']; [cbn in Hlen; lia|].
    assert (Hu0 : (u0 < n)%nat). { assert (I : In u0 (u0 :: ord')) by now left. apply (Permutation_in _ Hord) in I. apply in_seq in I. lia. }
    assert (Hmin : forall v, In v (u0 :: ord') -> pcell (hmk u0) <= pcell (hmk v)).
    { intros v [<-|Hv]; [lia|]. cbn [map] in Hss. apply StronglySorted_inv in Hss as [_ F]. rewrite Forall_forall in F. apply F. now apply in_map. }
    set (ord := u0 :: ord') in *.
    assert (Hpr : (do p0 <- nth_error (map hmk ord) 0; prune (map hfirst (seq 0 hm)) (pcell p0)) = Some (S (hlay u0))).
    { cbn [map ord nth_error obind]. pose proof (prune_eq u0 hm Hu0 (le_n _) ltac:(lia)) as E. rewrite Nat.sub_diag, Nat.sub_0_r in E. exact E. }
    assert (Hidx : forall t1 t2, (1 <= t1)%nat -> (1 <= t2)%nat ->
      (exists o, index_outcome (map (fun v => N.to_nat (pcell v)) (map hmk ord)) (N.to_nat HM) t1 t2 o) /\
      forall o, index_outcome (map (fun v => N.to_nat (pcell v)) (map hmk ord)) (N.to_nat HM) t1 t2 o ->
        exists arr, o = Some arr /\ is_prefix_index (map (fun v => N.to_nat (pcell v)) (map hmk ord)) (N.to_nat HM) arr).
    { intros t1 t2 H1 H2. apply C18_cell_index; auto.
      - clear -Hss. induction Hss as [|a l S IH F]; cbn [map]; constructor; auto.
        rewrite Forall_forall in *. intros x Hx. apply in_map_iff in Hx as (v & <- & Hv). specialize (F v Hv). lia.
      - intros x Hx. apply in_map_iff in Hx as (v & <- & Hv). apply (Permutation_in _ (Permutation_sym Hperm)) in Hv.
        specialize (Hk v Hv). lia.
      - rewrite !map_length, Hlen. exact Hn1.
      - rewrite !map_length, Hlen. pose proof (di_n31 _ _ _ DI) as Hn. change (2 ^ 31) with 2147483648 in Hn. change (2 ^ 32) with 4294967296. lia. }
    destruct (Hidx 1%nat 1%nat ltac:(lia) ltac:(lia)) as [[io Hio] Hiall]. destruct (Hiall io Hio) as (arr & -> & Harr).
    assert (HSP : htree_spec {| h_R := Rd; h_T := T; h_layers := S (hlay u0); h_level := map (lev Rd) (seq 0 hm); h_first := map hfirst (seq 0 hm);
                  h_points := map hmk ord; h_index := arr |} ord).
    { apply hbuild_queries; auto. exists u0. repeat split; auto. now left. }
    eexists _, ord. split; [exact HSP|]. unfold htree_outcome. rewrite Hpre. split.
    - exists (map hmk (seq 0 n)), (Some (map hmk ord)). split; [reflexivity|]. split; [exact Hso|]. rewrite Hpr.
      exists 1%nat, 1%nat, (Some arr). split; [lia|]. split; [lia|]. split; [exact Hio|]. cbn [obind]. cbv zeta.
      rewrite (hs_pairs _ _ HSP), (hs_filters _ _ HSP). reflexivity.
    - intros o (buf & so & Hbuf & Hs & Hrest). destruct (proj2 (Hsort buf Hbuf) so Hs) as (out & -> & Hst2).
      rewrite <- (is_stable_sort_unique pcell _ _ _ Hst Hst2) in Hrest. rewrite Hpr in Hrest.
      destruct Hrest as (t1 & t2 & io & H1 & H2 & Hi & ->).
      destruct (proj2 (Hidx t1 t2 ltac:(lia) ltac:(lia)) io Hi) as (arr2 & -> & Harr2).
      assert (arr2 = arr).
      { destruct Harr as [L1 Q1], Harr2 as [L2 Q2]. apply list_eq_nth; [lia|]. intros j Hj. rewrite Q1, Q2 by lia. reflexivity. }
      subst arr2. cbn [obind]. cbv zeta. rewrite (hs_pairs _ _ HSP), (hs_filters _ _ HSP). reflexivity.
  Qed.
End Build.
