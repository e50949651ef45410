(** Property C65: a debug build of girgs::generateEdges never fails an assertion, and computes what the model of C01-C14 computes.
    [girg_debug] (GirgDbg_Model) is the program of Girg_Model with every assert() executed; [None] = failed assertion or undefined behaviour. *)
From Coq Require Import Arith NArith ZArith List Bool Reals Lia Lra Permutation.
From Flocq Require Import Core.
From Verif Require Import Base Sched Bits_Model Bits_Proofs Coord_Model Coord_Proofs Coord_Geo Coord_Torus Prop_Coord IntSort_Model IntSort_Proofs IntSort_Main
  Prop_IntSort Prefix_Model Prop_Prefix Tree_Model Cover Tree_Proofs Tree_Build Tree_Plan Tree_Run Girg_Model Girg_Proofs Girg_Num Prop_Girg Dbg_Base GirgDbg_Model GirgDbg_Proofs.
Import ListNotations.
Local Open Scope nat_scope.

(** ** C65: unless the sum of the weights is exactly a power of two times the square of the smallest weight - and, in four dimensions, as long
    as it is below 2^30 times that square - no assertion can fail: the debug build has exactly the outcomes of the program without assertions,
    and none of them is undefined behaviour *)
Theorem C65_no_assertion_fails : forall cfg rg D ws ps alpha seed omp_max team,
  ndebug cfg = false -> girg_input D ws ps seed omp_max team -> good_rng rg ->
  (forall w (k : Z), In w ws -> (forall w', In w' ws -> w <= w')%R -> sumR ws <> (bpow radix2 k * (w * w))%R) ->
  (D = 4%N -> forall w, In w ws -> (sumR ws < 2 ^ 30 * (w * w))%R) ->
  ~ girg_debug ideal_env cfg rg ws ps alpha seed omp_max team None /\
  forall o, girg_debug ideal_env cfg rg ws ps alpha seed omp_max team o <-> girg_outcome ideal_env cfg rg ws ps alpha seed omp_max team o.
Proof.
  intros cfg rg D ws ps alpha seed omp_max team Hd HI GG H2 H4.
  assert (E30 : b2 30 = (2 ^ 30)%R) by (change (b2 30) with (IZR (2 ^ 30)); rewrite pow_IZR; reflexivity). rewrite <- E30 in H4.
  pose proof (girg_debug_iff cfg rg D ws ps alpha seed omp_max team Hd HI GG H2 H4) as K. split; [|exact K].
  intros H. apply K in H. exact (proj1 (C13_no_undefined_behaviour cfg rg D ws ps alpha seed omp_max team HI GG) H).
Qed.

(** the assertions on the volumes, the cell ids, the order of the nodes, the index and the input never need the two conditions *)
Theorem C65_constructor_never_fails : forall cfg D ws ps seed omp_max team,
  girg_input D ws ps seed omp_max team ->
  ~ tree_debug ideal_env cfg D ws ps omp_max None /\
  forall o, tree_debug ideal_env cfg D ws ps omp_max o <-> tree_outcome ideal_env cfg D ws ps omp_max o.
Proof.
  intros cfg D ws ps seed omp_max team HI. destruct (use_num HI) as (P & NO & IP). destruct (use_build HI cfg P NO) as (t & ord & TS & HO & HU).
  destruct (build_asserts HI cfg P NO IP t ord TS) as [A1 A2].
  assert (K : forall ot, tree_debug ideal_env cfg D ws ps omp_max ot <-> tree_outcome ideal_env cfg D ws ps omp_max ot).
  { intros ot. unfold tree_debug. split.
    - intros (ot' & Q1 & ->). rewrite (HU _ Q1), A1. cbn [obind]. rewrite A2. cbn [obind]. exact HO.
    - intros H. exists ot. split; [exact H|]. rewrite (HU _ H), A1. cbn [obind]. rewrite A2. reflexivity. }
  split; [|exact K]. intros H. apply K, HU in H. discriminate.
Qed.

(** ** the conditions are needed *)
(** a call that always fails makes every run of the sampling fail *)
Lemma drun_calls_none E cfg D t alpha rg x xs : In x xs -> (forall g, drun_call E cfg D t alpha rg x g = None) ->
  forall g, drun_calls E cfg D t alpha rg xs g = None.
Proof.
  intros Hx N. induction xs as [|y xs IH]; intros g; [destruct Hx|]. cbn [drun_calls]. destruct Hx as [<-|Hx].
  - rewrite N. reflexivity.
  - destruct (drun_call E cfg D t alpha rg y g); [|reflexivity]. cbn [obind]. rewrite (IH Hx). reflexivity.
Qed.
Lemma omap_none {A B} (f : A -> option B) L a : In a L -> f a = None -> omap f L = None.
Proof.
  intros H N. induction L as [|b L IH]; [destruct H|]. cbn [omap]. destruct H as [<-|H].
  - rewrite N. reflexivity.
  - rewrite (IH H). destruct (f b); reflexivity.
Qed.
Lemma in_combine_ex {A B} (L : list A) (M : list B) a : length L <= length M -> In a L -> exists b, In (a, b) (combine L M).
Proof.
  revert M. induction L as [|x L IH]; intros [|y M] Hl H; cbn [length] in Hl; try destruct H; try lia.
  - subst. exists y. now left.
  - destruct (IH M ltac:(lia) H) as (b & Hb). exists b. now right.
Qed.
Lemma edges_debug_none cfg D n t alpha rg seed omp_max team x :
  executed cfg D (tP t) alpha omp_max team x -> (forall g, drun_call ideal_env cfg D t alpha rg x g = None) ->
  edges_debug ideal_env cfg D n t alpha rg seed omp_max team None /\
  forall o, edges_debug ideal_env cfg D n t alpha rg seed omp_max team o -> o = None.
Proof.
  intros (calls & Ec & Hx) N. apply in_concat in Hx as (xs & Hxs & Hx).
  assert (K : forall gens, drun_threads ideal_env cfg D t alpha rg calls gens = None).
  { intros gens. unfold drun_threads. destruct (Nat.ltb_spec (length gens) (length calls)); [reflexivity|].
    destruct (in_combine_ex calls gens xs ltac:(lia) Hxs) as (g & Hg). apply (omap_none _ _ (xs, g) Hg). cbn [fst snd]. now apply (drun_calls_none _ _ _ _ _ _ x). }
  unfold edges_debug. destruct (seeds_defined seed omp_max); [|split; auto]. rewrite Ec. cbn [obind]. split.
  - assert (G : exists gens, gens_ok rg seed omp_max gens).
    { unfold gens_ok. destruct (0 <=? seed)%Z; [eauto|]. exists (map (rseed rg) (repeat 0%Z omp_max)), (repeat 0%Z omp_max). split; [apply repeat_length|reflexivity]. }
    destruct G as (gens & G). exists gens. split; [exact G|]. rewrite K. reflexivity.
  - intros o (gens & _ & ->). rewrite K. reflexivity.
Qed.
Lemma girg_debug_none cfg rg D ws ps alpha seed omp_max team : girg_input D ws ps seed omp_max team ->
  (forall t, tree_outcome ideal_env cfg D ws ps omp_max (Some t) -> exists x, executed cfg D (tP t) alpha omp_max team x /\
     forall g, drun_call ideal_env cfg D t alpha rg x g = None) ->
  girg_debug ideal_env cfg rg ws ps alpha seed omp_max team None /\
  forall o, girg_debug ideal_env cfg rg ws ps alpha seed omp_max team o -> o = None.
Proof.
  intros HI H. destruct (use_num HI) as (P & NO & IP). destruct (use_build HI cfg P NO) as (t & ord & TS & HO & HU).
  destruct (C65_constructor_never_fails cfg D ws ps seed omp_max team HI) as [_ K].
  destruct (H t HO) as (x & Hx & Nx). destruct (edges_debug_none cfg D (length ws) t alpha rg seed omp_max team x Hx Nx) as [E1 E2].
  unfold girg_debug. destruct ps as [|p0 ps'] eqn:Eps; [split; auto|]. cbv zeta. rewrite <- Eps in *.
  assert (ED : N.of_nat (length p0) = D). { pose proof (gi_pos _ _ _ _ _ _ HI) as F. rewrite Eps in F. inversion_clear F as [|? ? [V1 _] _]. rewrite V1. apply N2Nat.id. }
  rewrite ED. pose proof (gi_dim _ _ _ _ _ _ HI) as HD. rewrite (proj2 (N.leb_le 1 D) ltac:(lia)), (proj2 (N.leb_le D 5) ltac:(lia)). cbn [andb]. split.
  - exists (Some t). split; [apply K; exact HO|]. exists None. split; [exact E1|reflexivity].
  - intros o (ot & Ht & Q). apply K in Ht. rewrite (HU _ Ht) in Q. destruct Q as (ors & Q1 & Q2). apply E2 in Q1. subst ors. exact Q2.
Qed.

(** 16 nodes of weight 1 at k/16 on the circle, one thread: the assertion w_upper_bound < dist_lower_bound (SpatialTree.inl:245) fails in every
    debug run, though the input is valid for a release build (C13) *)
Theorem C65_power_of_two_refuted : forall cfg rg alpha, ndebug cfg = false ->
  girg_input 1 ex_ws ex_ps 0 1 1 /\ sumR ex_ws = (2 ^ 4 * (1 * 1))%R /\
  girg_debug ideal_env cfg rg ex_ws ex_ps alpha 0 1 1 None /\
  forall o, girg_debug ideal_env cfg rg ex_ws ex_ps alpha 0 1 1 o -> o = None.
Proof.
  intros cfg rg alpha Hdbg. destruct (C14_strict_assertion_refuted cfg alpha Hdbg) as (HI & t & A & B & l & i & j & ra & rb & wub & dlb & Ht & Hx & Ha & Hb & Na & Nb & Ew & Ed & Hw).
  split; [exact HI|]. split; [rewrite ex_sum; lra|]. apply (girg_debug_none cfg rg 1 ex_ws ex_ps alpha 0 1 1 HI).
  destruct (use_num HI) as (P & NO & IP). destruct (use_build HI cfg P NO) as (t0 & ord & TS & HO & HU).
  intros t' Ht'. assert (t' = t) as -> by (apply HU in Ht, Ht'; congruence). exists (CallII A B l i j). split; [exact Hx|]. intros g.
  cbn [drun_call]. unfold dsampleTypeII. destruct (dbase_level _ _ _ _ _); [|reflexivity]. cbn [obind]. destruct (dassert (l <=? n)%N); [|reflexivity]. cbn [obind].
  assert (K : forall i A l, dnodes_in 1 t i A l = None \/ dnodes_in 1 t i A l = nodes_in 1 t i A l).
  { intros i0 A0 l0. unfold dnodes_in, dcellIterators, nodes_in. destruct (dlevelledCell _ _ _ _); [|left; reflexivity]. cbn [obind].
    destruct (cellIterators 1 t i0 A0 l0) as [[b e]|]; [|left; reflexivity]. cbn [obind]. destruct (dassert (b <=? e)); [right|left]; reflexivity. }
  destruct (K i A l) as [->| ->]; [reflexivity|]. destruct (K j B l) as [->| ->]; [rewrite Ha; reflexivity|]. rewrite Ha, Hb. cbn [obind].
  destruct ra as [|a ra]; [contradiction|]. destruct rb as [|b rb]; [contradiction|]. rewrite Ew, Ed. cbn [obind]. cbv zeta.
  assert (F : Rltb wub dlb = false) by (apply Rltb_false; lra). rewrite F. reflexivity.
Qed.

(** four dimensions and a sum of the weights of at least 2^30 times the square of the smallest weight: the tree has 8 levels, and the assertion of
    WeightLayer.h:108 computes the first cell of level 8 with the shift 1u << 32 *)
Theorem C65_four_dimensions_refuted : forall cfg rg ws ps alpha seed omp_max team w,
  girg_input 4 ws ps seed omp_max team -> In w ws -> (2 ^ 30 * (w * w) <= sumR ws)%R ->
  girg_debug ideal_env cfg rg ws ps alpha seed omp_max team None /\
  forall o, girg_debug ideal_env cfg rg ws ps alpha seed omp_max team o -> o = None.
Proof.
  intros cfg rg ws ps alpha seed omp_max team w HI Hw HW. apply (girg_debug_none cfg rg 4 ws ps alpha seed omp_max team HI).
  destruct (use_num HI) as (P & NO & IP). destruct (use_build HI cfg P NO) as (t & ord & TS & HO & HU).
  intros t' Ht'. assert (t' = t) as -> by (apply HU in Ht'; congruence). clear Ht'.
  pose proof (gi_dim _ _ _ _ _ _ HI) as HD. pose proof (gi_len _ _ _ _ _ _ HI) as HL. pose proof (gi_n _ _ _ _ _ _ HI) as Hn.
  pose proof (ip_pos _ _ IP) as P0. destruct (ip_min _ _ IP) as [I0 M0].
  assert (E30 : b2 30 = (2 ^ 30)%R) by (change (b2 30) with (IZR (2 ^ 30)); rewrite pow_IZR; reflexivity).
  assert (W30 : (b2 30 * (p_w0 P * p_w0 P) <= p_W P)%R).
  { rewrite (ip_W _ _ IP). eapply Rle_trans; [|exact HW]. rewrite E30. apply Rmult_le_compat_l; [apply pow_le; lra|]. specialize (M0 w Hw). nra. }
  assert (HC : p_c P = 30%Z).
  { pose proof (no_c _ _ _ _ NO) as C1. pose proof (ip_cu _ _ IP) as C2. destruct (Z.le_gt_cases 30 (p_c P)) as [C|C]; [lia|]. exfalso.
    assert (b2 (Z.max (p_c P) 0 + 1) <= b2 30)%R by (apply bpow_le; lia). assert (0 < p_w0 P * p_w0 P)%R by nra. nra. }
  assert (B7 : base_level 4 (p_c P) 0 0 = 7%N) by (rewrite HC; reflexivity).
  apply In_nth_error in I0 as (u & Eu). assert (Hu : u < length ws) by (apply nth_error_Some; congruence).
  assert (Wu : wt ws u = p_w0 P) by (unfold wt; rewrite (nth_error_nth _ _ _ Eu); reflexivity).
  destruct (lay_spec ideal_env 4 ws P NO u Hu) as [Lu Lu2].
  assert (L0 : lay ideal_env ws P u = 0).
  { rewrite Wu in Lu. assert (I0 : In (p_w0 P) ws) by (apply nth_error_In in Eu; exact Eu).
    assert (Q : layer_index ideal_env (p_w0 P) (p_w0 P) = Some 0).
    { apply (ip_layer _ _ IP _ 0 I0). cbn [Z.of_nat]. change (b2 0) with 1%R. change (b2 (0 + 1)) with 2%R. lra. }
    congruence. }
  pose proof (plan0_total ideal_env cfg 4 ws ps P HD NO HL (use_vp HI) Hn t ord TS u u Hu Hu) as T.
  assert (X : exists x, In x (plan cfg 4 P (N.to_nat (p_levels P - 1)) 0 0 0) /\ S_call (lay ideal_env ws P) (cel cfg 4 ps) u u x <> 0).
  { revert T. unfold total. generalize (plan cfg 4 P (N.to_nat (p_levels P - 1)) 0 0 0). induction l as [|x l IH]; cbn [map list_sum fold_right]; [discriminate|].
    intros T. destruct (Nat.eq_dec (S_call (lay ideal_env ws P) (cel cfg 4 ps) u u x) 0) as [E0|E0]; [|exists x; split; [now left|exact E0]].
    rewrite E0 in T. destruct (IH T) as (y & Hy & Ny). exists y. split; [now right|exact Ny]. }
  destruct X as (x & Hx & Nx). pose proof (plan0_ok _ _ _ _ _ _ HD NO HL Hn t ord TS x Hx) as Ok.
  assert (X : exists A, x = CallI A A 7 0 0 /\ in_level 4 7 A).
  { destruct x as [A B l i j|A B l i j].
    - pose proof Ok as (HA & _ & Hi & Hj & El). cbn [S_call] in Nx.
      assert (E : A = B /\ i = 0 /\ j = 0).
      { destruct (N.eqb_spec A B) as [EA|EA], (Nat.eqb_spec i j) as [Ei|Ei]; cbn [andb] in Nx; unfold two, inV in Nx; rewrite L0 in Nx;
          destruct (Nat.eqb_spec 0 i), (Nat.eqb_spec 0 j), (N.eqb_spec (cel cfg 4 ps l u) A), (N.eqb_spec (cel cfg 4 ps l u) B); cbn in Nx; subst; try lia; try congruence; auto. }
      destruct E as (<- & -> & ->). rewrite B7 in El. subst l. exists A. auto.
    - exfalso. pose proof (call_II_ne _ _ _ _ _ _ HD NO HL Hn t ord TS A B l i j Ok) as NE. apply NE. cbn [S_call] in Nx. unfold two, inV in Nx.
      destruct (N.eqb_spec (cel cfg 4 ps l u) A), (N.eqb_spec (cel cfg 4 ps l u) B); subst; auto; cbn in Nx; rewrite ?Nat.mul_0_r in Nx; cbn in Nx; congruence. }
  destruct X as (A & -> & HA). exists (CallI A A 7 0 0). split.
  - rewrite (ts_P _ _ _ _ _ _ _ _ TS). pose proof (levels_eq _ cfg _ _ ps _ NO t ord TS) as HLE.
    destruct (thread_calls_ok cfg 4 P alpha HD (no_c _ _ _ _ NO) HLE ideal_env omp_max team (use_fpl HI) (gi_team _ _ _ _ _ _ HI)) as (calls & E1 & _ & P1).
    exists calls. split; [exact E1|]. apply (Permutation_in _ (Permutation_sym P1)). unfold full_plan. apply filter_In. split; [exact Hx|reflexivity].
  - intros g. cbn [drun_call]. unfold dsampleTypeI. destruct (dbase_level _ _ _ _ _); [|reflexivity]. cbn [obind]. destruct (touching _ _ _ _ _); [|reflexivity]. cbn [obind].
    destruct (dassert _); [|reflexivity]. cbn [obind]. assert (Q : dnodes_in 4 t 0 A 7 = None); [|rewrite Q; reflexivity].
    unfold dnodes_in, dcellIterators, dlevelledCell. destruct (dassert (7 <=? _)%N); [|reflexivity]. cbn [obind].
    destruct (firstCellOfLevel 4 7); [|reflexivity]. cbn [obind]. assert (F8 : firstCellOfLevel 4 (7 + 1) = None) by reflexivity. rewrite F8. reflexivity.
Qed.
(** two nodes of weight 2^-29 are such an input, and a release build accepts it (C13) *)
Example C65_four_dimensions_input : girg_input 4 [b2 (-29); b2 (-29)] [[0; 0; 0; 0]; [1/2; 0; 1/4; 3/4]]%R 7 2 2 /\
  (2 ^ 30 * (b2 (-29) * b2 (-29)) <= sumR [b2 (-29); b2 (-29)])%R.
Proof.
  assert (E30 : b2 30 = (2 ^ 30)%R) by (change (b2 30) with (IZR (2 ^ 30)); rewrite pow_IZR; reflexivity).
  assert (S : sumR [b2 (-29); b2 (-29)] = b2 (-28)).
  { unfold sumR. cbn [fold_right]. replace (b2 (-28)) with (b2 (-29) * b2 1)%R by (rewrite <- bpow_plus; reflexivity). change (b2 1) with 2%R. lra. }
  split.
  - constructor; try reflexivity; try lia.
    + constructor; [discriminate| |].
      * intros w [<-|[<-|[]]]; split; apply bpow_le; lia.
      * intros w [<-|[<-|[]]]; rewrite S, <- !bpow_plus; apply bpow_lt; lia.
    + repeat constructor; lra.
  - rewrite S, <- E30, <- !bpow_plus. apply bpow_le. lia.
Qed.

(** ** what only a release build tolerates: more positions than weights, and more coordinates than the first position has.
    A release build computes the graph of the truncated input; a debug build refuses. *)
Definition truncated (ws : list R) (ps : list (list R)) : list (list R) :=
  map (firstn (length (hd [] ps))) (firstn (length ws) ps).
Lemma combine_firstn_r {A B} (l : list A) (m : list B) : combine l (firstn (length l) m) = combine l m.
Proof. revert m. induction l as [|a l IH]; intros [|b m]; cbn; try reflexivity. now rewrite IH. Qed.
Lemma omap_map {A B C} (f : B -> option C) (h : A -> B) L : omap f (map h L) = omap (fun x => f (h x)) L.
Proof. induction L as [|a L IH]; cbn [map omap]; [reflexivity|]. rewrite IH. reflexivity. Qed.
Theorem C65_surplus_input : forall E cfg rg ws ps alpha seed omp_max team,
  1 <= length ws <= length ps -> 1 <= length (hd [] ps) <= 5 -> Forall (fun p => length (hd [] ps) <= length p) ps ->
  (forall o, girg_outcome E cfg rg ws ps alpha seed omp_max team o <-> girg_outcome E cfg rg ws (truncated ws ps) alpha seed omp_max team o) /\
  (ps <> truncated ws ps -> forall o, girg_debug E cfg rg ws ps alpha seed omp_max team o -> o = None).
Proof.
  intros E cfg rg ws ps alpha seed omp_max team Hl HD HF. destruct ps as [|p0 ps']; [cbn in Hl; lia|]. cbn [hd] in HD, HF.
  set (ps := p0 :: ps') in *. set (D := N.of_nat (length p0)). assert (ND : N.to_nat D = length p0) by (unfold D; lia).
  assert (HD' : ((1 <=? D) && (D <=? 5))%N = true) by (apply andb_true_intro; split; apply N.leb_le; unfold D; lia).
  destruct ws as [|w0 ws'] eqn:Ews; [cbn in Hl; lia|]. rewrite <- Ews in *. split.
  - assert (ET : exists r, truncated ws ps = p0 :: r).
    { unfold truncated. rewrite Ews. unfold ps. cbn [length hd firstn map]. rewrite firstn_all. eauto. }
    destruct ET as (r & ET). unfold girg_outcome. rewrite ET. unfold ps at 1. cbv zeta. fold D. rewrite HD', <- ET.
    assert (K : forall ot, tree_outcome E cfg D ws ps omp_max ot <-> tree_outcome E cfg D ws (truncated ws ps) omp_max ot).
    { intros ot. assert (C : forall P fcl, classify_all E cfg D P fcl ws ps = classify_all E cfg D P fcl ws (truncated ws ps)).
      { intros P fcl. unfold classify_all, truncated. rewrite map_length, firstn_length, Nat.min_l by lia. rewrite Nat.ltb_irrefl.
        destruct (Nat.ltb_spec (length ps) (length ws)); [lia|]. cbn [hd]. unfold ps at 2. cbn [hd].
        assert (EC : combine ws (map (firstn (length p0)) (firstn (length ws) ps)) = map (fun x => (fst x, firstn (length p0) (snd x))) (combine ws ps)).
        { rewrite <- (combine_firstn_r ws ps). clear. generalize ps. generalize ws. induction ws0 as [|a l IH]; intros m; [reflexivity|]. destruct m as [|b m]; [reflexivity|].
          cbn [length firstn map combine fst snd]. f_equal. apply IH. }
        rewrite EC. assert (EC2 : forall (s : list nat) (m : list (R * list R)), combine s (map (fun x => (fst x, firstn (length p0) (snd x))) m) =
            map (fun x => (fst x, (fst (snd x), firstn (length p0) (snd (snd x))))) (combine s m)).
        { clear. induction s as [|a s IH]; intros m; [reflexivity|]. destruct m as [|b m]; [reflexivity|]. cbn [map combine fst snd]. f_equal. apply IH. }
        rewrite EC2, omap_map. apply omap_ext_in. intros [i [w p]] Hip. cbn [fst snd classify].
        assert (Hp : length p0 <= length p).
        { apply in_combine_r, in_combine_r in Hip. rewrite Forall_forall in HF. now apply HF. }
        rewrite ND. rewrite firstn_length, Nat.min_l by exact Hp. rewrite Nat.ltb_irrefl. destruct (Nat.ltb_spec (length p) (length p0)); [lia|].
        rewrite firstn_firstn, Nat.min_id. reflexivity. }
      unfold tree_outcome. destruct (tree_params E D ws) as [P|]; [|reflexivity]. cbn [obind]. destruct (first_cells D (p_c P) (p_layers P) 0 0) as [fcl|]; [|reflexivity].
      cbn [obind]. destruct (nth_error fcl (p_layers P)); [|reflexivity]. cbn [obind]. rewrite C. reflexivity. }
    intros o. split; intros (ot & Q & X); exists ot; (split; [now apply K|exact X]).
  - intros Hne o. unfold girg_debug. unfold ps at 1. cbv zeta. fold D. rewrite HD'. intros (ot & (ot' & _ & ->) & Q).
    assert (A : input_asserts D ws ps = false); [|rewrite A in Q; exact Q].
    unfold input_asserts. destruct (Nat.eqb_spec (length ws) (length ps)) as [EL|]; [|reflexivity]. cbn [andb].
    destruct (forallb (fun p => length p =? N.to_nat D) ps) eqn:F; [|rewrite andb_false_r; reflexivity]. exfalso. apply Hne.
    unfold truncated. rewrite EL, firstn_all. unfold ps at 2. cbn [hd]. rewrite forallb_forall in F. rewrite <- (map_id ps) at 1. apply map_ext_in.
    intros p Hp. specialize (F p Hp). apply Nat.eqb_eq in F. rewrite <- ND, <- F, firstn_all. reflexivity.
Qed.
Example C65_surplus_case : let ws := [1; 3]%R in let ps := [[0; 1/2]; [3/4; 7/8; 1/3]; [1/5; 1/5]]%R in
  (1 <= length ws <= length ps /\ 1 <= length (hd [] ps) <= 5 /\ Forall (fun p => length (hd [] ps) <= length p) ps) /\
  truncated ws ps = [[0; 1/2]; [3/4; 7/8]]%R /\ girg_input 2 ws (truncated ws ps) 12 4 4.
Proof. cbv zeta. split; [cbn; repeat split; try lia; repeat constructor|]. split; [reflexivity|exact ex_input2]. Qed.

(** non-vacuous: the 2-dimensional example with the weights 1 and 3 is a power of two (4 = 2^2); the weights 1, 1 and 3 are not *)
Example C65_case : let ws := [1; 1; 3]%R in
  girg_input 2 ws [[0; 1/2]; [3/4; 7/8]; [1/3; 1/3]]%R 12 4 4 /\
  forall w (k : Z), In w ws -> (forall w', In w' ws -> w <= w')%R -> sumR ws <> (bpow radix2 k * (w * w))%R.
Proof.
  cbv zeta. split.
  - constructor; try reflexivity; try lia.
    + constructor; [discriminate| |].
      * assert (b2 (-1100) <= 1)%R by (change 1%R with (b2 0); apply bpow_le; lia).
        assert (4 <= b2 1100)%R by (change 4%R with (b2 2); apply bpow_le; lia). intros w [<-|[<-|[<-|[]]]]; lra.
      * change (b2 31) with (IZR 2147483648). unfold sumR. cbn. intros w [<-|[<-|[<-|[]]]]; lra.
    + repeat constructor; lra.
  - intros w k Hw Hm. assert (w = 1)%R as ->. { specialize (Hm 1%R (or_introl eq_refl)). destruct Hw as [<-|[<-|[<-|[]]]]; lra. }
    unfold sumR. cbn [fold_right]. intros E. assert (E5 : b2 k = 5%R) by lra.
    destruct (Z.le_gt_cases k 2) as [K|K]; [assert (b2 k <= b2 2)%R by (apply bpow_le; exact K); change (b2 2) with 4%R in *; lra|].
    assert (b2 3 <= b2 k)%R by (apply bpow_le; lia). change (b2 3) with 8%R in *. lra.
Qed.

Print Assumptions C65_no_assertion_fails.
Print Assumptions C65_power_of_two_refuted.
Print Assumptions C65_four_dimensions_refuted.
Print Assumptions C65_surplus_input.
