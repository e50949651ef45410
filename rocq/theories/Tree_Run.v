(** Running the calls of the recursion on a correctly built tree: what every call decides. *)
From Coq Require Import Arith NArith ZArith List Bool Reals Permutation Lia Lra.
From Flocq Require Import Core.
From Verif Require Import Base Sched Bits_Model Bits_Proofs Coord_Model Coord_Proofs Coord_Geo IntSort_Model IntSort_Proofs Prefix_Model
  Tree_Model Cover Tree_Proofs Tree_Build Tree_Plan.
Import ListNotations.
Local Open Scope N_scope.

(** What the proofs assume of the random distributions: the ranges the C++ standard prescribes; a geometric draw of 2^63 or more
    (probability below 2^-2^20 for the parameters in use) would make the unsigned skip counter wrap around. *)
Record good_rng (rg : rng) : Prop := {
  gu01 : forall g, (0 <= fst (u01 rg g) < 1)%R;
  guni : forall p g, (0 < p <= 1)%R -> (0 <= fst (uni0 rg p g) < p)%R;
  ggeo : forall p g, (0 < p <= 1)%R -> fst (geo rg p g) < 2 ^ 63 }.

(** ** counting *)
Definition pair_dec : forall x y : nat * nat, {x = y} + {x <> y}.
Proof. decide equality; apply Nat.eq_dec. Defined.
Notation cnt := (count_occ pair_dec).
(** occurrences of the unordered pair *)
Definition cnt2 (L : list (nat * nat)) (u v : nat) : nat := (cnt L (u, v) + cnt L (v, u))%nat.
Definition le_count (a b : list (nat * nat)) : Prop := forall x, (cnt a x <= cnt b x)%nat.

Lemma le_count_app a b a' b' : le_count a b -> le_count a' b' -> le_count (a ++ a') (b ++ b').
Proof. intros H H' x. rewrite !count_occ_app. specialize (H x). specialize (H' x). lia. Qed.
Lemma le_count_incl a b x : le_count a b -> In x a -> In x b.
Proof. intros H Hx. apply (count_occ_In pair_dec) in Hx. apply (count_occ_In pair_dec). specialize (H x). lia. Qed.
Lemma NoDup_le_count a b : NoDup a -> (forall x, In x a -> In x b) -> le_count a b.
Proof.
  intros Ha Hi x. destruct (in_dec pair_dec x a) as [H|H].
  - pose proof (proj1 (NoDup_count_occ pair_dec a) Ha x). apply Hi in H. apply (count_occ_In pair_dec) in H. lia.
  - apply (count_occ_not_In pair_dec) in H. lia.
Qed.
Lemma cnt2_app a b u v : cnt2 (a ++ b) u v = (cnt2 a u v + cnt2 b u v)%nat.
Proof. unfold cnt2. rewrite !count_occ_app. lia. Qed.
Lemma cnt2_flat_map {A} (f : A -> list (nat * nat)) L u v : cnt2 (flat_map f L) u v = list_sum (map (fun x => cnt2 (f x) u v) L).
Proof. induction L as [|a L IH]; [reflexivity|]. cbn [flat_map map list_sum fold_right]. rewrite cnt2_app, IH. reflexivity. Qed.

Lemma cnt_map_pair a L u v : cnt (map (fun b => (a, b)) L) (u, v) = if Nat.eq_dec a u then count_occ Nat.eq_dec L v else O.
Proof.
  induction L as [|b L IH]; [now destruct (Nat.eq_dec a u)|]. cbn [map count_occ].
  destruct (pair_dec (a, b) (u, v)) as [E|E], (Nat.eq_dec a u) as [E1|E1], (Nat.eq_dec b v) as [E2|E2]; rewrite IH; auto; try congruence.
Qed.
Lemma cnt_prod LA LB u v : cnt (list_prod LA LB) (u, v) = (count_occ Nat.eq_dec LA u * count_occ Nat.eq_dec LB v)%nat.
Proof.
  induction LA as [|a LA IH]; [reflexivity|]. cbn [list_prod count_occ]. rewrite count_occ_app, IH, cnt_map_pair.
  destruct (Nat.eq_dec a u); lia.
Qed.

(** the pairs of a list, each once *)
Fixpoint uptri {T} (L : list T) : list (T * T) := match L with [] => [] | a :: r => map (fun b => (a, b)) r ++ uptri r end.
Lemma pairsI_same {T} (L : list T) : pairsI true 0 L L = uptri L.
Proof.
  enough (H : forall (S : list T) pre, pairsI true (length pre) S (pre ++ S) = uptri S) by apply (H L []).
  induction S as [|a S IH]; intros pre; cbn [pairsI uptri]; auto. f_equal.
  - f_equal. replace (length pre + 1)%nat with (length (pre ++ [a])) by (rewrite app_length; cbn; lia).
    change (a :: S) with ([a] ++ S). rewrite app_assoc, skipn_app, skipn_all, Nat.sub_diag. reflexivity.
  - specialize (IH (pre ++ [a])). rewrite app_length, <- app_assoc in IH. cbn [length app] in IH.
    rewrite Nat.add_1_r in IH. exact IH.
Qed.
Lemma pairsI_prod {T} (LA LB : list T) : forall k, pairsI false k LA LB = list_prod LA LB.
Proof. induction LA as [|a LA IH]; intros k; cbn [pairsI list_prod]; auto. now rewrite IH. Qed.
Lemma cnt2_uptri L u v : u <> v -> cnt2 (uptri L) u v = (count_occ Nat.eq_dec L u * count_occ Nat.eq_dec L v)%nat.
Proof.
  intros Hne. induction L as [|a L IH]; [reflexivity|]. cbn [uptri count_occ]. rewrite cnt2_app, IH. unfold cnt2. rewrite !cnt_map_pair.
  destruct (Nat.eq_dec a u), (Nat.eq_dec a v); subst; try contradiction; lia.
Qed.
Lemma uptri_In {T} (L : list T) a b : In (a, b) (uptri L) -> In a L /\ In b L.
Proof.
  induction L as [|x L IH]; intros H; [destruct H|]. cbn [uptri] in H. apply in_app_or in H as [H|H].
  - apply in_map_iff in H as (y & [= <- <-] & Hy). split; [now left|now right].
  - destruct (IH H). split; now right.
Qed.
Lemma uptri_irrefl {T} (L : list T) a : NoDup L -> ~ In (a, a) (uptri L).
Proof.
  induction 1 as [|x L Hx Hn IH]; [intros []|]. cbn [uptri]. intros H. apply in_app_or in H as [H|H]; [|tauto].
  apply in_map_iff in H as (y & [= -> ->] & Hy). contradiction.
Qed.
Lemma uptri_length {T} (L : list T) : (2 * Z.of_nat (length (uptri L)) = Z.of_nat (length L) * (Z.of_nat (length L) - 1))%Z.
Proof. induction L as [|a L IH]; [reflexivity|]. cbn [uptri length]. rewrite app_length, map_length. lia. Qed.
Lemma uptri_map {T U} (f : T -> U) L : uptri (map f L) = map (fun ab => (f (fst ab), f (snd ab))) (uptri L).
Proof. induction L as [|a L IH]; [reflexivity|]. cbn [uptri map]. rewrite map_app, !map_map, IH. reflexivity. Qed.
Lemma prod_map {T U} (f : T -> U) LA LB : list_prod (map f LA) (map f LB) = map (fun ab => (f (fst ab), f (snd ab))) (list_prod LA LB).
Proof. induction LA as [|a LA IH]; [reflexivity|]. cbn [list_prod map]. rewrite map_app, !map_map, IH. reflexivity. Qed.

(** ** symmetry of the decision *)
Lemma axis_distance_sym E x y : good_rnd E -> axis_distance E x y = axis_distance E y x.
Proof.
  intros G. unfold axis_distance. replace (x - y)%R with (- (y - x))%R by ring. rewrite (gr_odd E G), Rabs_Ropp. reflexivity.
Qed.
Lemma coord_distance_sym E : good_rnd E -> forall xs ys r, coord_distance E r xs ys = coord_distance E r ys xs.
Proof.
  intros G. induction xs as [|x xs IH]; intros [|y ys] r; cbn [coord_distance]; auto. rewrite (axis_distance_sym E x y G). apply IH.
Qed.

(** ** one call *)
Lemma decideI_spec E D W alpha rg : good_rng rg -> forall ps g,
  let r := decideI E D W alpha rg ps g in
  flat_map event_pairs (fst r) = map (fun ab => (index (fst ab), index (snd ab))) ps /\
  le_count (flat_map event_edges (fst r)) (flat_map event_pairs (fst r)) /\
  (alpha = AInf -> flat_map event_edges (fst r) =
     map (fun ab => (index (fst ab), index (snd ab))) (filter (fun ab => Rltb (d_term E D (fst ab) (snd ab)) (w_term E W (fst ab) (snd ab))) ps)) /\
  ((forall a b x, (0 <= x < 1)%R -> xlt x (conn_prob E D W alpha a b) = true) -> is_inf alpha = false ->
     flat_map event_edges (fst r) = flat_map event_pairs (fst r)).
Proof.
  intros GG. induction ps as [|[a b] ps IH]; intros g; cbn [decideI fst]; [repeat split; auto; intros x; apply Nat.le_refl|].
  set (q := match alpha with AInf => _ | AFin _ => _ end). destruct q as [hit g1] eqn:Eq. subst q.
  specialize (IH g1). destruct (decideI E D W alpha rg ps g1) as [es g2] eqn:Ed. cbn [fst] in *.
  destruct IH as (I1 & I2 & I3 & I4). cbn [flat_map map fst snd event_pairs event_edges filter]. split; [now rewrite I1|]. split; [|split].
  - apply le_count_app; auto. intros x. destruct hit; [apply Nat.le_refl|cbn; lia].
  - intros Ha. rewrite (I3 Ha). subst alpha. injection Eq as <- <-. destruct (Rltb _ _); reflexivity.
  - intros HA Hi. rewrite (I4 HA Hi). destruct alpha as [|al]; [discriminate|].
    destruct (u01 rg g) as [x g'] eqn:Eu. pose proof (gu01 rg GG g) as H. rewrite Eu in H. specialize (HA a b x H).
    assert (Eh : hit = xlt x (conn_prob E D W (AFin al) a b)) by congruence. rewrite Eh, HA. reflexivity.
Qed.

Lemma w64_small x : x < 2 ^ 64 -> w64 x = x.
Proof. intros H. unfold w64. rewrite N.land_ones. now apply N.mod_small. Qed.

Lemma skip_loop_ok E D W alpha rg p ra rb : good_rng rg -> (0 < p <= 1)%R -> NoDup (map index ra) -> NoDup (map index rb) ->
  N.of_nat (length ra * length rb) < 2 ^ 62 ->
  forall fuel r g, N.of_nat (length ra * length rb) <= r + N.of_nat fuel ->
  exists hits g', skip_loop E D W alpha rg p ra rb fuel r g = Some (hits, g') /\ NoDup hits /\
    forall h, In h hits -> exists q a b, r <= q /\ q < N.of_nat (length ra * length rb) /\
    nth_error ra (N.to_nat (q mod N.of_nat (length ra))) = Some a /\ nth_error rb (N.to_nat (q / N.of_nat (length ra))) = Some b /\ h = (index a, index b).
Proof.
  intros GG Hp Na Nb Hnum. set (num := N.of_nat (length ra * length rb)) in *.
  induction fuel as [|f IH]; intros r g Hf; cbn [skip_loop]; fold num; destruct (N.leb_spec num r) as [L|L].
  - exists [], g. repeat split; [constructor|intros h []].
  - lia.
  - exists [], g. repeat split; [constructor|intros h []].
  - assert (La : 0 < N.of_nat (length ra)) by (unfold num in L; lia).
    pose proof (N.mod_lt r (N.of_nat (length ra)) ltac:(lia)) as Hm.
    assert (Hq : r / N.of_nat (length ra) < N.of_nat (length rb)).
    { apply N.div_lt_upper_bound; [lia|]. unfold num in L. rewrite Nat2N.inj_mul in L. exact L. }
    destruct (nth_error ra (N.to_nat (r mod N.of_nat (length ra)))) as [a|] eqn:Ea; [|apply nth_error_None in Ea; lia].
    destruct (nth_error rb (N.to_nat (r / N.of_nat (length ra)))) as [b|] eqn:Eb; [|apply nth_error_None in Eb; lia].
    cbn [obind]. destruct (uni0 rg p g) as [x g1]. destruct (geo rg p g1) as [k g2] eqn:Eg.
    assert (Hk : k < 2 ^ 63) by (pose proof (ggeo rg GG p g1 Hp) as H; now rewrite Eg in H).
    assert (K1 : 2 ^ 62 = 4611686018427387904) by reflexivity. assert (K2 : 2 ^ 63 = 9223372036854775808) by reflexivity.
    assert (K3 : 2 ^ 64 = 18446744073709551616) by reflexivity.
    rewrite (w64_small (1 + k)) by lia. rewrite w64_small by lia.
    destruct (IH (r + (1 + k)) g2 ltac:(lia)) as (hits & g' & E1 & E2 & E3). rewrite E1. cbn [obind].
    eexists. eexists. split; [reflexivity|]. split.
    + destruct (xlt x (conn_prob E D W alpha a b)); [|exact E2]. cbn [app]. constructor; auto. intros Hin.
      destruct (E3 _ Hin) as (q & a' & b' & Hrq & Hqn & Ha' & Hb' & Heq). injection Heq as Hia Hib.
      assert (P1 : N.to_nat (q mod N.of_nat (length ra)) = N.to_nat (r mod N.of_nat (length ra))).
      { apply (proj1 (NoDup_nth_error (map index ra)) Na).
        - rewrite map_length. apply nth_error_Some. congruence.
        - rewrite (map_nth_error _ _ _ Ha'), (map_nth_error _ _ _ Ea). congruence. }
      assert (P2 : N.to_nat (q / N.of_nat (length ra)) = N.to_nat (r / N.of_nat (length ra))).
      { apply (proj1 (NoDup_nth_error (map index rb)) Nb).
        - rewrite map_length. apply nth_error_Some. congruence.
        - rewrite (map_nth_error _ _ _ Hb'), (map_nth_error _ _ _ Eb). congruence. }
      pose proof (N.div_mod r (N.of_nat (length ra)) ltac:(lia)) as D1. pose proof (N.div_mod q (N.of_nat (length ra)) ltac:(lia)) as D2.
      apply N2Nat.inj in P1, P2. rewrite P1, P2 in D2. lia.
    + intros h Hh. apply in_app_or in Hh as [Hh|Hh].
      * destruct (xlt x (conn_prob E D W alpha a b)); [|destruct Hh]. destruct Hh as [<-|[]]. exists r, a, b. repeat split; auto; lia.
      * destruct (E3 _ Hh) as (q & a' & b' & Hrq & H). exists q, a', b'. split; [lia|exact H].
Qed.

Section Run.
  Variables (E : fenv) (cfg : config) (D : N) (ws : list R) (ps : list (list R)) (P : tparams).
  Hypotheses (GR : good_rnd E) (HD : dim_ok D) (NO : num_ok E D ws P) (HL : length ws = length ps)
             (VP : Forall (valid_pos E D) ps) (Hn : N.of_nat (length ws) < 2 ^ 31).
  Variables (t : tree) (ord : list nat) (TS : tree_spec E cfg D ws ps P t ord).
  Variables (alpha : alphaT) (rg : rng) (GG : good_rng rg).
  Notation n := (length ws).
  Notation c := (p_c P).
  Notation lay := (lay E ws P).
  Notation cel := (cel cfg D ps).
  Notation mk := (mk E cfg D ws ps P).

  Definition V (i : nat) (A l : N) : list nat := filter (fun u => (lay u =? i)%nat && (cel l u =? A)) ord.
  Lemma ord_NoDup : NoDup ord.
  Proof. apply (Permutation_NoDup (Permutation_sym (ts_perm _ _ _ _ _ _ _ _ TS))), seq_NoDup. Qed.
  Lemma ord_In u : In u ord <-> (u < n)%nat.
  Proof.
    split; intros H.
    - apply (Permutation_in _ (ts_perm _ _ _ _ _ _ _ _ TS)) in H. apply in_seq in H. lia.
    - apply (Permutation_in _ (Permutation_sym (ts_perm _ _ _ _ _ _ _ _ TS))). apply in_seq. lia.
  Qed.
  Lemma V_In u i A l : In u (V i A l) <-> (u < n)%nat /\ lay u = i /\ cel l u = A.
  Proof.
    unfold V. rewrite filter_In, ord_In, andb_true_iff, Nat.eqb_eq, N.eqb_eq. reflexivity.
  Qed.
  Lemma V_NoDup i A l : NoDup (V i A l).
  Proof. apply NoDup_filter, ord_NoDup. Qed.
  Lemma V_count u i A l : (u < n)%nat -> count_occ Nat.eq_dec (V i A l) u = inV lay cel u i A l.
  Proof.
    intros Hu. unfold inV. pose proof (proj1 (NoDup_count_occ Nat.eq_dec _) (V_NoDup i A l) u) as H1.
    destruct (in_dec Nat.eq_dec u (V i A l)) as [Hin|Hin].
    - pose proof Hin as H2. apply (count_occ_In Nat.eq_dec) in H2. apply V_In in Hin as (_ & -> & ->).
      rewrite Nat.eqb_refl, N.eqb_refl. cbn. lia.
    - pose proof (proj1 (count_occ_not_In Nat.eq_dec _ _) Hin) as H2. rewrite H2. rewrite V_In in Hin.
      destruct (Nat.eqb_spec (lay u) i), (N.eqb_spec (cel l u) A); cbn; auto. tauto.
  Qed.
  Lemma V_length i A l : (length (V i A l) <= n)%nat.
  Proof.
    transitivity (length ord); [|rewrite (Permutation_length (ts_perm _ _ _ _ _ _ _ _ TS)), seq_length; auto].
    unfold V. generalize ord. intros L. induction L as [|a L IH]; cbn [filter length]; auto. destruct (_ && _); cbn [length]; lia.
  Qed.
  Lemma nodes_in_eq i A l : (i < p_layers P)%nat -> l <= tl D c i -> in_level D l A ->
    nodes_in D t i A l = Some (map mk (V i A l)).
  Proof.
    intros Hi Hl HA. destruct (ts_iter _ _ _ _ _ _ _ _ TS i A l Hi Hl HA) as (b & e & E1 & E2).
    unfold nodes_in. rewrite E1. cbn [obind]. exact E2.
  Qed.
  Lemma levels_eq : p_levels P = base_level D c 0 0 + 1.
  Proof.
    pose proof (no_params _ _ _ _ NO) as H. unfold tree_params in H.
    destruct (min_elem ws); [|discriminate]. cbn [obind] in H. destruct (max_elem ws); [|discriminate]. cbn [obind] in H.
    destruct (double_to_int _); [|discriminate]. cbn [obind] in H. destruct (double_to_u32 _); [|discriminate]. cbn [obind] in H.
    injection H as <-. reflexivity.
  Qed.

  (** *** calls made by the recursion *)
  Definition call_ok (x : call) : Prop :=
    match x with
    | CallI A B l i j => in_level D l A /\ in_level D l B /\ (i < p_layers P)%nat /\ (j < p_layers P)%nat /\ l = base_level D c i j
    | CallII A B l i j => in_level D l A /\ in_level D l B /\ (i < p_layers P)%nat /\ (j < p_layers P)%nat /\ l <= base_level D c i j /\
                          touching cfg D A B l = Some false
    end.
  Lemma gpairs_In i j l : In (i, j) (gpairs (p_layers P) (base_level D c) l) -> (i < p_layers P)%nat /\ (j < p_layers P)%nat /\ base_level D c i j = l.
  Proof.
    unfold gpairs. rewrite filter_In, in_prod_iff, !in_seq. cbn [fst snd]. rewrite N.eqb_eq. lia.
  Qed.
  Lemma plan_ok : forall k A B l, l < p_levels P -> k = N.to_nat (p_levels P - 1 - l) -> in_level D l A -> in_level D l B ->
    forall x, In x (plan cfg D P k A B l) -> call_ok x.
  Proof.
    assert (Hfar : forall A B l, l < p_levels P -> in_level D l A -> in_level D l B -> touchb cfg D A B l = false ->
       forall x, In x (gfar (p_layers P) (p_levels P) (base_level D c) A B l) -> call_ok x).
    { intros A B l Hl HA HB Ht x Hx. unfold gfar in Hx. apply in_flat_map in Hx as (l' & Hl' & Hx). apply Nrange_In in Hl'.
      apply in_map_iff in Hx as ([i j] & <- & Hij). apply gpairs_In in Hij as (Hi & Hj & Hb). cbn [fst snd call_ok].
      rewrite (touching_Some cfg D P HD (no_c _ _ _ _ NO) levels_eq A B l Hl HA HB), Ht. repeat split; auto; try apply HA; try apply HB. lia. }
    assert (Hnear : forall A B l, in_level D l A -> in_level D l B ->
       forall x, In x (gnear (p_layers P) (base_level D c) A B l) -> call_ok x).
    { intros A B l HA HB x Hx. unfold gnear in Hx. apply in_flat_map in Hx as ([i j] & Hij & Hx). apply gpairs_In in Hij as (Hi & Hj & Hb).
      destruct (negb _ || _); [|destruct Hx]. destruct Hx as [<-|[]]. cbn [fst snd call_ok]. repeat split; auto; try apply HA; try apply HB. }
    induction k as [|k IH]; intros A B l Hl Hk HA HB x; unfold plan; cbn [gplan]; destruct (touchb cfg D A B l) eqn:Et; cbn [negb]; intros Hx;
      try (revert Hx; apply (Hfar A B l Hl HA HB Et)); apply in_app_or in Hx as [Hx|Hx]; try (revert Hx; apply Hnear; assumption); try (destruct Hx; fail).
    apply in_flat_map in Hx as (ab & Hab & Hx).
    destruct (child_pairs_In D P HD (no_c _ _ _ _ NO) levels_eq A B l ab ltac:(lia) HA HB Hab) as [Ha Hb].
    revert Hx. apply IH; auto; lia.
  Qed.

  (** *** which pairs a call decides *)
  Definition call_pairs (x : call) : list (nat * nat) :=
    match x with
    | CallI A B l i j => if (A =? B) && (i =? j)%nat then uptri (V i A l) else list_prod (V i A l) (V j B l)
    | CallII A B l i j => list_prod (V i A l) (V j B l)
    end.
  Definition hitw (u v : nat) : bool := Rltb (d_term E D (mk u) (mk v)) (w_term E (p_W P) (mk u) (mk v)).
  Lemma hitw_sym u v : hitw u v = hitw v u.
  Proof.
    unfold hitw, d_term, w_term, node_distance. rewrite (coord_distance_sym E GR (coord (mk u))). rewrite (Rmult_comm (weight (mk u))). reflexivity.
  Qed.

  Lemma far_bound (FO : far_ok E ws P) A B l i j u v : call_ok (CallII A B l i j) -> In u (V i A l) -> In v (V j B l) -> hitw u v = false.
  Proof.
    intros (HA & HB & Hi & Hj & Hl & Ht) Hu Hv. apply V_In in Hu as (Hun & Hlu & Hcu). apply V_In in Hv as (Hvn & Hlv & Hcv).
    assert (Hlev : l < p_levels P). { rewrite levels_eq. pose proof (base_le_00 D c HD i j). lia. }
    destruct (level_bound D P HD (no_c _ _ _ _ NO) levels_eq l Hlev) as [Hb1 Hb2].
    assert (Hl2 : 2 <= l).
    { destruct (N.le_gt_cases l 1) as [L|L]; [|lia]. rewrite (touching_low cfg D l A B HD L ltac:(lia) HA HB) in Ht. discriminate. }
    pose proof (base_pos D c HD i j l ltac:(lia) Hl) as Hc.
    unfold hitw. apply Rltb_false.
    destruct (lay_spec E D ws P NO u Hun) as [Eu _]. destruct (lay_spec E D ws P NO v Hvn) as [Ev _].
    apply Rle_trans with (1 / pow2R (D * l))%R.
    - unfold w_term. cbn [weight Tree_Build.mk]. eapply (FO _ _ _ _ (D * l)); eauto using wt_In.
      rewrite Hlu, Hlv. lia.
    - unfold d_term. apply pow_to_the_ge; auto; [lia|]. unfold node_distance. cbn [coord Tree_Build.mk].
      destruct (cell_dist_nontouching E cfg D l A B HD GR ltac:(lia) ltac:(lia) HA HB Ht) as (d & Ed & Hd).
      destruct (cell_dist_le_distance E cfg D l (pos ps u) (pos ps v) HD GR ltac:(lia) ltac:(lia)
        (pos_valid E D ws ps HL VP Hn u Hun) (pos_valid E D ws ps HL VP Hn v Hvn)) as (d' & Ed' & Hd').
      change (cell_of cfg D l (pos ps u)) with (cel l u) in Ed'. change (cell_of cfg D l (pos ps v)) with (cel l v) in Ed'.
      rewrite Hcu, Hcv, Ed in Ed'. injection Ed' as <-. lra.
  Qed.

  Lemma call_pairs_cnt2 x u v : (u < n)%nat -> (v < n)%nat -> u <> v -> cnt2 (call_pairs x) u v = S_call lay cel u v x.
  Proof.
    intros Hu Hv Hne. destruct x as [A B l i j|A B l i j]; cbn [call_pairs S_call].
    - destruct (N.eqb_spec A B) as [<-|HAB]; cbn [andb]; [destruct (Nat.eqb_spec i j) as [<-|Hij]; cbn [andb]|].
      + rewrite cnt2_uptri by exact Hne. now rewrite !V_count.
      + unfold cnt2, two. rewrite !cnt_prod, !V_count by assumption. reflexivity.
      + unfold cnt2, two. rewrite !cnt_prod, !V_count by assumption. reflexivity.
    - unfold cnt2, two. rewrite !cnt_prod, !V_count by assumption. reflexivity.
  Qed.
  Lemma call_pairs_In x u v : In (u, v) (call_pairs x) -> (u < n)%nat /\ (v < n)%nat.
  Proof.
    destruct x as [A B l i j|A B l i j]; cbn [call_pairs]; [destruct ((A =? B) && (i =? j)%nat)|]; intros H;
      try apply uptri_In in H as [H1 H2]; try (apply in_prod_iff in H as [H1 H2]);
      apply V_In in H1, H2; tauto.
  Qed.
  Lemma touching_self' A l : in_level D l A -> l < p_levels P -> touching cfg D A A l = Some true.
  Proof. intros HA Hl. destruct (level_bound D P HD (no_c _ _ _ _ NO) levels_eq l Hl). apply touching_self; auto; lia. Qed.
  Lemma base_levels i j : base_level D c i j < p_levels P.
  Proof. rewrite levels_eq. pose proof (base_le_00 D c HD i j). lia. Qed.
  Lemma call_II_ne A B l i j : call_ok (CallII A B l i j) -> A <> B.
  Proof.
    intros (HA & _ & _ & _ & Hl & Ht) <-. rewrite touching_self' in Ht; [discriminate|exact HA|]. pose proof (base_levels i j). lia.
  Qed.
  Lemma call_pairs_irrefl x u : call_ok x -> ~ In (u, u) (call_pairs x).
  Proof.
    destruct x as [A B l i j|A B l i j]; intros Hok; cbn [call_pairs].
    - destruct (N.eqb_spec A B) as [<-|HAB]; cbn [andb]; [destruct (Nat.eqb_spec i j) as [<-|Hij]; cbn [andb]|].
      + apply uptri_irrefl, V_NoDup.
      + rewrite in_prod_iff, !V_In. intuition congruence.
      + rewrite in_prod_iff, !V_In. intuition congruence.
    - pose proof (call_II_ne A B l i j Hok). rewrite in_prod_iff, !V_In. intuition congruence.
  Qed.

  (** conclusions about one call (or several calls run by one thread) *)
  Record decided (r : result (G rg)) (pairs : list (nat * nat)) : Prop := {
    de_pairs : pairs_of r = pairs;
    de_edges : le_count (edges_of r) (pairs_of r);
    de_checks : (type1 r + type2 r = 2 * Z.of_nat (length (pairs_of r)))%Z;
    de_inf : far_ok E ws P -> alpha = AInf -> edges_of r = filter (fun uv => hitw (fst uv) (snd uv)) (pairs_of r);
    de_zero : (forall x, xpow E x alpha = XFin 1) -> edges_of r = pairs_of r }.

  Lemma map_index L : map index (map mk L) = L.
  Proof. rewrite map_map. cbn [index Tree_Build.mk]. apply map_id. Qed.
  Lemma map_index2 L : map (fun ab : node * node => (index (fst ab), index (snd ab))) (map (fun ab => (mk (fst ab), mk (snd ab))) L) = L.
  Proof. rewrite map_map. cbn [index Tree_Build.mk fst snd]. rewrite <- (map_id L) at 2. apply map_ext. intros [a b]. reflexivity. Qed.
  Lemma filter_map_mk L : map (fun ab : node * node => (index (fst ab), index (snd ab)))
      (filter (fun ab => Rltb (d_term E D (fst ab) (snd ab)) (w_term E (p_W P) (fst ab) (snd ab))) (map (fun ab => (mk (fst ab), mk (snd ab))) L))
    = filter (fun uv => hitw (fst uv) (snd uv)) L.
  Proof.
    induction L as [|[u v] L IH]; [reflexivity|]. cbn [map filter fst snd]. unfold hitw at 1.
    destruct (Rltb _ _); cbn [map fst snd index Tree_Build.mk]; now rewrite IH.
  Qed.

  Lemma prod_nil_r {X Y} (L : list X) : list_prod L (@nil Y) = [].
  Proof. induction L; cbn; auto. Qed.
  Lemma decided_nil g : decided {| evs := []; type1 := 0; type2 := 0; gen := g |} [].
  Proof. constructor; cbn; auto; try tauto. intros x. apply Nat.le_refl. Qed.

  Lemma typeI_ok A B l i j g : in_level D l A -> in_level D l B -> (i < p_layers P)%nat -> (j < p_layers P)%nat -> l <= base_level D c i j ->
    exists r, sampleTypeI E D t alpha rg A B l i j g = Some r /\
      decided r (if (A =? B) && (i =? j)%nat then uptri (V i A l) else list_prod (V i A l) (V j B l)).
  Proof.
    intros HA HB Hi Hj Hl. unfold sampleTypeI.
    rewrite nodes_in_eq; auto; [|etransitivity; [exact Hl|apply base_le_target; exact HD]]. cbn [obind].
    rewrite nodes_in_eq; auto; [|etransitivity; [exact Hl|rewrite base_sym; apply base_le_target; exact HD]]. cbn [obind].
    set (same := (A =? B) && (i =? j)%nat).
    assert (Hs : same = true -> V i A l = V j B l).
    { unfold same. intros H. apply andb_prop in H as [H1%N.eqb_eq H2%Nat.eqb_eq]. now subst. }
    set (va := V i A l) in *. set (vb := V j B l) in *.
    set (pairs := if same then uptri va else list_prod va vb).
    assert (Hp : pairsI same 0 (map mk va) (map mk vb) = map (fun ab => (mk (fst ab), mk (snd ab))) pairs).
    { unfold pairs. destruct same.
      - rewrite <- (Hs eq_refl), pairsI_same. apply uptri_map.
      - rewrite pairsI_prod. apply prod_map. }
    destruct va as [|a0 va'] eqn:Eva; [|destruct vb as [|b0 vb'] eqn:Evb].
    - cbn [map]. eexists. split; [reflexivity|]. assert (pairs = []) as -> by (unfold pairs; destruct same; reflexivity). apply decided_nil.
    - cbn [map]. eexists. split; [reflexivity|].
      assert (pairs = []) as ->. { unfold pairs. destruct same; [specialize (Hs eq_refl); discriminate|apply prod_nil_r]. } apply decided_nil.
    - rewrite <- Eva, <- Evb in *. destruct (map mk va) as [|a1 ra'] eqn:Era; [rewrite Eva in Era; discriminate|].
      destruct (map mk vb) as [|b1 rb'] eqn:Erb; [rewrite Evb in Erb; discriminate|]. rewrite <- Era, <- Erb in *.
      rewrite Hp. rewrite (ts_P _ _ _ _ _ _ _ _ TS).
      pose proof (decideI_spec E D (p_W P) alpha rg GG (map (fun ab => (mk (fst ab), mk (snd ab))) pairs) g) as HS. cbv zeta in HS.
      destruct (decideI E D (p_W P) alpha rg (map (fun ab => (mk (fst ab), mk (snd ab))) pairs) g) as [es g'] eqn:Ed. cbn [fst] in HS.
      destruct HS as (S1 & S2 & S3 & S4). eexists. split; [reflexivity|]. rewrite map_index2 in S1.
      constructor; unfold pairs_of, edges_of; cbn [evs type1 type2].
      + exact S1.
      + exact S2.
      + rewrite S1, !map_length. unfold pairs. destruct same eqn:Es.
        * rewrite uptri_length, Eva. lia.
        * rewrite prod_length, Eva, Evb. lia.
      + intros _ Ha. now rewrite (S3 Ha), S1, filter_map_mk.
      + intros H0. apply S4.
        * intros a b x Hx. unfold conn_prob. rewrite H0. cbn [xlt]. apply Rltb_true. lra.
        * destruct alpha; [|reflexivity]. exfalso. specialize (H0 XInf). discriminate.
  Qed.

  Lemma rnd_fifth : (rnd E (1 / 5) < 1)%R.
  Proof.
    assert (H : (rnd E (1 / 5) <= rnd E (1 / pow2R 2))%R) by (apply (gr_mono E GR); unfold pow2R; cbn; lra).
    rewrite (gr_dyadic E GR 1 2) in H by (cbn; lia). unfold pow2R in H. cbn in H. lra.
  Qed.
  Lemma rnd_micro : (0 < rnd E (1 / 1000000))%R.
  Proof.
    assert (H : (rnd E (1 / pow2R 20) <= rnd E (1 / 1000000))%R) by (apply (gr_mono E GR); unfold pow2R; cbn; lra).
    rewrite (gr_dyadic E GR 1 20) in H by (cbn; lia). unfold pow2R in H. cbn in H. lra.
  Qed.

  Lemma typeII_ok A B l i j g : call_ok (CallII A B l i j) ->
    exists r, sampleTypeII E cfg D t alpha rg A B l i j g = Some r /\ decided r (list_prod (V i A l) (V j B l)).
  Proof.
    intros Hok. pose proof Hok as (HA & HB & Hi & Hj & Hl & Ht). pose proof (call_II_ne _ _ _ _ _ Hok) as HAB.
    destruct (typeI_ok A B l i j g HA HB Hi Hj Hl) as (rI & EI & DI).
    assert (Hs : (A =? B) && (i =? j)%nat = false) by (destruct (N.eqb_spec A B); [contradiction|reflexivity]). rewrite Hs in DI.
    assert (Hlev : l < p_levels P). { pose proof (base_levels i j). lia. }
    destruct (level_bound D P HD (no_c _ _ _ _ NO) levels_eq l Hlev) as [Hb1 Hb2].
    assert (Hl2 : 2 <= l).
    { destruct (N.le_gt_cases l 1) as [L|L]; [|lia]. rewrite (touching_low cfg D l A B HD L ltac:(lia) HA HB) in Ht. discriminate. }
    pose proof (base_pos D c HD i j l ltac:(lia) Hl) as Hc. pose proof (no_c _ _ _ _ NO) as Hc30.
    unfold sampleTypeII.
    rewrite nodes_in_eq; auto; [|etransitivity; [exact Hl|apply base_le_target; exact HD]]. cbn [obind].
    rewrite nodes_in_eq; auto; [|etransitivity; [exact Hl|rewrite base_sym; apply base_le_target; exact HD]]. cbn [obind].
    destruct (V i A l) as [|a0 va'] eqn:Eva; [|destruct (V j B l) as [|b0 vb'] eqn:Evb].
    { cbn [map]. eexists. split; [reflexivity|]. apply decided_nil. }
    { cbn [map]. eexists. split; [reflexivity|]. rewrite prod_nil_r. apply decided_nil. }
    rewrite <- Eva, <- Evb in *.
    destruct (map mk (V i A l)) as [|a1 ra'] eqn:Era; [rewrite Eva in Era; discriminate|].
    destruct (map mk (V j B l)) as [|b1 rb'] eqn:Erb; [rewrite Evb in Erb; discriminate|]. rewrite <- Era, <- Erb in *. clear a1 ra' Era b1 rb' Erb.
    set (ra := map mk (V i A l)). set (rb := map mk (V j B l)).
    rewrite (ts_P _ _ _ _ _ _ _ _ TS). unfold w_upper_bound.
    rewrite !shl1_i32_Some by lia. cbn [obind].
    destruct (cell_dist_nontouching E cfg D l A B HD GR ltac:(lia) ltac:(lia) HA HB Ht) as (d & Ed & Hd).
    unfold dist_lower_bound. rewrite Ed. cbn [obind].
    set (wub := rnd E (_ / p_W P)). set (dlb := pow_to_the E D d). set (p := max_connection_prob E alpha wub dlb).
    set (checks := (2 * Z.of_nat (length ra) * Z.of_nat (length rb))%Z).
    assert (Hch : checks = (2 * Z.of_nat (length (list_prod (V i A l) (V j B l))))%Z).
    { unfold checks, ra, rb. rewrite prod_length, !map_length. lia. }
    assert (Hfar : far_ok E ws P -> forall u v, In (u, v) (list_prod (V i A l) (V j B l)) -> hitw u v = false).
    { intros FO u v H. apply in_prod_iff in H as [Hu Hv]. eapply far_bound; eauto. }
    assert (Hix : flat_map event_pairs [EBlock (map index ra) (map index rb) []] = list_prod (V i A l) (V j B l)).
    { cbn [flat_map event_pairs]. rewrite app_nil_r. unfold ra, rb. now rewrite !map_index. }
    assert (H0p : (forall x, xpow E x alpha = XFin 1) -> p = 1%R).
    { intros H. unfold p, max_connection_prob. rewrite H. cbn. apply Rmin_left. lra. }
    assert (Hinfp : alpha = AInf -> p = 1%R \/ p = 0%R).
    { intros Ha. unfold p, max_connection_prob, xpow. rewrite Ha. destruct (xdiv E wub dlb); [now left|].
      destruct (Rlt_dec r 1); [right; cbn; apply Rmin_left; lra|]. destruct (Rlt_dec 1 r); left; cbn; auto. apply Rmin_left. lra. }
    pose proof rnd_fifth as R5. pose proof rnd_micro as R6.
    destruct (Rltb (rnd E (1 / 5)) p) eqn:Ep5; [exists rI; split; [exact EI|exact DI]|]. apply Rltb_false in Ep5.
    assert (Hp1 : (p <= 1)%R). { lra. }
    assert (Hne1 : p <> 1%R) by lra.
    destruct (Rltb (rnd E (rnd E (INR (length ra * length rb)) * p)) (rnd E (1 / 1000000))) eqn:Eexp.
    { eexists. split; [reflexivity|]. constructor; unfold pairs_of, edges_of; cbn [evs type1 type2].
      - exact Hix.
      - intros x. cbn. lia.
      - rewrite Hix, <- Hch. lia.
      - intros FO _. rewrite Hix. cbn [flat_map event_edges app]. symmetry. apply filter_none. intros [u v] H1. apply (Hfar FO u v H1).
      - intros H. exfalso. apply Hne1. now apply H0p. }
    apply Rltb_false in Eexp.
    assert (Hpp : (0 < p)%R).
    { destruct (Rlt_dec 0 p) as [|Hnp]; auto. exfalso.
      assert (H : (rnd E (rnd E (INR (length ra * length rb)) * p) <= rnd E 0)%R).
      { apply (gr_mono E GR). pose proof (pos_INR (length ra * length rb)) as PI. apply (gr_mono E GR) in PI. rewrite rnd_0 in PI by exact GR. nra. }
      rewrite (rnd_0 E GR) in H. lra. }
    destruct (geo rg p g) as [r0 g1].
    assert (Hnum : N.of_nat (length ra * length rb) < 2 ^ 62).
    { unfold ra, rb. rewrite !map_length. pose proof (V_length i A l) as L1. pose proof (V_length j B l) as L2.
      change (2 ^ 31) with 2147483648 in Hn. change (2 ^ 62) with (2147483648 * 2147483648). rewrite Nat2N.inj_mul.
      apply N.mul_lt_mono; lia. }
    assert (Nra : NoDup (map index ra)) by (unfold ra; rewrite map_index; apply V_NoDup).
    assert (Nrb : NoDup (map index rb)) by (unfold rb; rewrite map_index; apply V_NoDup).
    destruct (skip_loop_ok E D (p_W P) alpha rg p ra rb GG ltac:(lra) Nra Nrb Hnum (length ra * length rb) r0 g1 ltac:(lia)) as (hits & g2 & E1 & E2 & E3).
    rewrite E1. cbn [obind]. eexists. split; [reflexivity|].
    assert (Hix' : flat_map event_pairs [EBlock (map index ra) (map index rb) hits] = list_prod (V i A l) (V j B l)).
    { cbn [flat_map event_pairs]. rewrite app_nil_r. unfold ra, rb. now rewrite !map_index. }
    constructor; unfold pairs_of, edges_of; cbn [evs type1 type2].
    - exact Hix'.
    - rewrite Hix'. cbn [flat_map event_edges]. rewrite app_nil_r. apply NoDup_le_count; auto.
      intros h Hh. destruct (E3 h Hh) as (q & a & b & _ & _ & Ha & Hb & ->).
      apply nth_error_In in Ha, Hb. unfold ra, rb in Ha, Hb. apply in_map_iff in Ha as (u & <- & Hu), Hb as (v & <- & Hv).
      cbn [index Tree_Build.mk]. now apply in_prod.
    - rewrite Hix', <- Hch. lia.
    - intros _ Ha. exfalso. destruct (Hinfp Ha); lra.
    - intros H. exfalso. apply Hne1. now apply H0p.
  Qed.

  Lemma call_decided x g : call_ok x -> exists r, run_call E cfg D t alpha rg x g = Some r /\ decided r (call_pairs x).
  Proof.
    destruct x as [A B l i j|A B l i j]; intros Hok; cbn [run_call call_pairs].
    - destruct Hok as (HA & HB & Hi & Hj & Hl). apply typeI_ok; auto. lia.
    - now apply typeII_ok.
  Qed.

  Lemma decided_app r1 r2 p1 p2 g : decided r1 p1 -> decided r2 p2 ->
    decided {| evs := evs r1 ++ evs r2; type1 := type1 r1 + type1 r2; type2 := type2 r1 + type2 r2; gen := g |} (p1 ++ p2).
  Proof.
    intros [A1 A2 A3 A4 A5] [B1 B2 B3 B4 B5]. unfold pairs_of, edges_of in *.
    constructor; unfold pairs_of, edges_of; cbn [evs type1 type2]; rewrite ?flat_map_app.
    - now rewrite A1, B1.
    - now apply le_count_app.
    - rewrite app_length. lia.
    - intros FO Ha. now rewrite filter_app, (A4 FO Ha), (B4 FO Ha).
    - intros H. now rewrite (A5 H), (B5 H).
  Qed.
  Lemma calls_decided xs : (forall x, In x xs -> call_ok x) -> forall g,
    exists r, run_calls E cfg D t alpha rg xs g = Some r /\ decided r (flat_map call_pairs xs).
  Proof.
    induction xs as [|x xs IH]; intros Hok g; cbn [run_calls flat_map].
    - eexists. split; [reflexivity|]. apply decided_nil.
    - destruct (call_decided x g (Hok x (or_introl eq_refl))) as (r1 & E1 & D1). rewrite E1. cbn [obind].
      destruct (IH ltac:(intros; apply Hok; now right) (gen r1)) as (r2 & E2 & D2). rewrite E2. cbn [obind].
      eexists. split; [reflexivity|]. now apply decided_app.
  Qed.
  Lemma threads_decided : forall calls gens, (length calls <= length gens)%nat -> (forall x, In x (concat calls) -> call_ok x) ->
    exists rs, run_threads E cfg D t alpha rg calls gens = Some rs /\ Forall2 (fun xs r => decided r (flat_map call_pairs xs)) calls rs.
  Proof.
    intros calls gens HLen Hok. unfold run_threads. rewrite (proj2 (Nat.ltb_ge _ _) HLen).
    revert gens HLen Hok. induction calls as [|xs calls IH]; intros gens HLen Hok; [exists []; split; [reflexivity|constructor]|].
    destruct gens as [|g gens]; [cbn in HLen; lia|]. cbn [combine omap fst snd].
    destruct (calls_decided xs ltac:(intros x Hx; apply Hok; cbn [concat]; apply in_or_app; now left) g) as (r & E1 & D1).
    rewrite E1. cbn [obind]. destruct (IH gens ltac:(cbn in HLen; lia)) as (rs & E2 & D2).
    { intros x Hx. apply Hok. cbn [concat]. apply in_or_app. now right. }
    rewrite E2. cbn [obind]. exists (r :: rs). split; [reflexivity|]. now constructor.
  Qed.

  (** *** everything the recursion decides *)
  Notation plan0 := (plan cfg D P (N.to_nat (p_levels P - 1)) 0 0 0).
  Lemma plan0_ok x : In x plan0 -> call_ok x.
  Proof.
    intros Hx. assert (0 < p_levels P) by (rewrite levels_eq; lia). pose proof (root_level D P HD levels_eq) as HR.
    apply (plan_ok (N.to_nat (p_levels P - 1)) 0 0 0); auto. lia.
  Qed.
  Lemma plan0_total u v : (u < n)%nat -> (v < n)%nat -> total lay cel plan0 u v = 1%nat.
  Proof.
    intros Hu Hv. destruct (lay_spec E D ws P NO u Hu) as [_ Lu]. destruct (lay_spec E D ws P NO v Hv) as [_ Lv].
    pose proof levels_eq as HLE. pose proof (no_c _ _ _ _ NO) as Hc.
    unfold plan. rewrite (cover_total (p_layers P) (p_levels P) (base_level D c) (touchb cfg D) (kidsb D) (child_pairs D) (in_level D)); auto.
    - destruct (N.ltb_spec (base_level D c (lay u) (lay v)) 0); [lia|]. unfold pairind. rewrite N.eqb_refl.
      assert (H0 : forall x, (x < n)%nat -> cel 0 x = 0).
      { intros x Hx. unfold Tree_Build.cel. pose proof (cell_of_in_level cfg E D 0 (pos ps x) HD (pos_valid E D ws ps HL VP Hn x Hx) ltac:(lia)) as H1.
        destruct H1 as [_ H1]. change (0 + 1) with (0 + 1) in H1. rewrite fc_succ, fc_0, N.mul_0_r in H1 by exact HD. cbn in H1. lia. }
      rewrite !H0 by assumption. reflexivity.
    - intros i j. apply base_sym.
    - intros i j _ _. apply base_levels.
    - intros A l HA Hl. unfold touchb. now rewrite touching_self'.
    - intros A B l HA HB Hl. apply (child_pairs_perm D P HLE).
    - intros A l HA Hl. apply Nrange_NoDup.
    - intros A l a HA Hl Ha. apply (child_in_level D l A a HD HA). now apply (kids_In D P HD Hc HLE A l a Hl HA).
    - intros A B l a HA HB Hl H1 H2. apply (kids_In D P HD Hc HLE A l a Hl HA) in H1. apply (kids_In D P HD Hc HLE B l a Hl HB) in H2.
      apply is_child_iff in H1 as [_ H1], H2 as [_ H2]; auto. congruence.
    - intros x l A Hx HA Hl _. rewrite (kids_In D P HD Hc HLE A l _ Hl HA).
      destruct (level_bound D P HD Hc HLE _ Hl) as [Hb _].
      assert (Hxn : (x < n)%nat) by (destruct Hx; subst; assumption).
      pose proof (cell_of_child cfg E D l (pos ps x) HD (pos_valid E D ws ps HL VP Hn x Hxn) ltac:(lia)) as Hch.
      change (cell_of cfg D l (pos ps x)) with (cel l x) in Hch. change (cell_of cfg D (l + 1) (pos ps x)) with (cel (l + 1) x) in Hch.
      split; intros H.
      + apply is_child_iff in H as [_ H], Hch as [_ Hch]; auto. congruence.
      + now rewrite <- H.
    - apply (root_level D P HD levels_eq).
    - apply (root_level D P HD levels_eq).
    - rewrite levels_eq. lia.
    - lia.
  Qed.
  Lemma plan0_pairs u v : (u < n)%nat -> (v < n)%nat -> u <> v -> cnt2 (flat_map call_pairs plan0) u v = 1%nat.
  Proof.
    intros Hu Hv Hne. rewrite cnt2_flat_map. rewrite <- (plan0_total u v Hu Hv). unfold total. f_equal. apply map_ext_in.
    intros x _. now apply call_pairs_cnt2.
  Qed.
End Run.
