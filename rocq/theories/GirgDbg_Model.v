(** Model of a debug build (NDEBUG not defined) of the GIRG generator: the program of Tree_Model and Girg_Model with every assert().
    [None] = undefined behaviour or a failed assertion.  The configuration of a debug build has [ndebug cfg = false]. *)
From Coq Require Import Arith NArith ZArith List Bool Reals.
From Flocq Require Import Core.
From Verif Require Import Base Sched Bits_Model Coord_Model IntSort_Model Prefix_Model Tree_Model Girg_Model Dbg_Base.
Import ListNotations.
Local Open Scope N_scope.

Section Debug.
  Variables (E : fenv) (cfg : config) (D : N).

  (** SpatialTree.inl:308-311, 329-332: the two assertions on the volume of the cells of level [result]; the exponents are small
      integers, computed exactly *)
  Definition level_asserts (result : N) (v : R) : bool :=
    (Rleb v (fpow E 2 (IZR (- (Z.of_N result * Z.of_N D)))) || Rleb 1 v) &&
    Rltb (fpow E 2 (IZR (- ((Z.of_N result + 1) * Z.of_N D)))) v.
  (** SpatialTree.inl:296-312 weightLayerTargetLevel with 305-311 (the layer and the result are never negative) *)
  Definition dtarget_level (P : tparams) (layer : nat) : option N :=
    let result := target_level D (p_c P) layer in
    let v := rnd E (rnd E (rnd E (p_w0 P * p_w0 P) * fpow E 2 (IZR (Z.of_nat layer + 1))) / p_W P) in
    do _ <- dassert ((layer <? p_layers P)%nat && (result <=? p_levels P) && level_asserts result v);
    Some result.
  (** SpatialTree.inl:315-336 partitioningBaseLevel with 326-332 *)
  Definition dbase_level (P : tparams) (i j : nat) : option N :=
    let result := base_level D (p_c P) i j in
    let v := rnd E (rnd E (rnd E (rnd E (p_w0 P * fpow E 2 (IZR (Z.of_nat i + 1))) * p_w0 P) * fpow E 2 (IZR (Z.of_nat j + 1))) / p_W P) in
    do _ <- dassert ((i <? p_layers P)%nat && (j <? p_layers P)%nat && level_asserts result v);
    Some result.

  (** BitManipulationGeneric.inl:135, 154-156, 183: bounds of the coordinates (only in the generic implementation; none for D = 1 and
      for the dimensions without a specialisation) *)
  Definition deposit_asserts (cs : list N) : bool :=
    if use_bmi2 cfg then true else
    match D with
    | 2 => forallb (fun x => x <=? 65535) cs
    | 3 => (nth 0 cs 0 <=? 2047) && (nth 1 cs 0 <=? 2047) && (nth 2 cs 0 <=? 1023)
    | 4 => forallb (fun x => x <=? 255) cs
    | _ => true
    end.
  (** SpatialTreeCoordinateHelper.inl:48-57 cellForPoint, with these *)
  Definition dcellForPoint (position : list R) (level : N) : option N :=
    do side <- shl1_i32 level;
    do coords <- omap (fun x => double_to_u32 (rnd E (x * IZR (Z.of_N side)))) position;
    do _ <- dassert (deposit_asserts coords);
    Some (deposit (use_bmi2 cfg) D coords).

  (** ** The constructor.  All assertions can be evaluated on the finished structure (its parts are final when they are asserted); as a
      failed assertion and undefined behaviour are both [None], the order does not matter. *)
  Definition isS {X} (o : option X) : bool := match o with Some _ => true | None => false end.
  (** SpatialTree.inl:22-23, 342, Node.h:24 *)
  Definition input_asserts (ws : list R) (ps : list (list R)) : bool :=
    (length ws =? length ps)%nat && negb (length ps =? 0)%nat && forallb (fun p => (length p =? N.to_nat D)%nat) ps.
  (** SpatialTree.inl:20, 28-31: the levels of the pairs of layers; 353, 468: the insertion levels of the layers *)
  Definition layer_asserts (P : tparams) : bool :=
    isS (dbase_level P 0 0) &&
    forallb (fun ij => isS (dbase_level P (fst ij) (snd ij))) (list_prod (seq 0 (p_layers P)) (seq 0 (p_layers P))) &&
    forallb (fun l => isS (dtarget_level P l)) (seq 0 (p_layers P)).
  (** SpatialTree.inl:367-374: the classification of one node *)
  Definition node_asserts (P : tparams) (M : N) (v : node) : bool :=
    match (do layer <- layer_index E (p_w0 P) (weight v); do level <- dtarget_level P layer; dcellForPoint (coord v) level) with
    | Some _ => cell_id v <? M
    | None => false
    end.
  (** IntSort.h:35-36, SpatialTree.inl:385 and 443-459; max_cell_id is the last index of m_first_in_cell *)
  Definition index_asserts (t : tree) : bool :=
    let M := (length (tfirst t) - 1)%nat in
    ilog2_asserts (N.of_nat M) &&
    is_sorted (map cell_id (tnodes t)) &&
    (match nth_error (tnodes t) (length (tnodes t) - 1) with Some v => cell_id v <? N.of_nat M | None => false end) &&
    (match nth_error (tfirst t) 0 with Some x => x =? 0 | None => false end) &&
    (match nth_error (tfirst t) M with Some x => x =? N.of_nat (length (tnodes t)) | None => false end) &&
    is_sorted (tfirst t) &&
    forallb (fun cid => match nth_error (tfirst t) cid, nth_error (tfirst t) (S cid) with
                        | Some b, Some e => match slice (tnodes t) (N.to_nat b) (N.to_nat e) with
                                            | Some vs => forallb (fun v => cell_id v =? N.of_nat cid) vs
                                            | None => false end
                        | _, _ => false end) (seq 0 M).
  (** SpatialTree.inl:10-39, 339-473 *)
  Definition tree_debug (ws : list R) (ps : list (list R)) (omp_max : nat) (o : option tree) : Prop :=
    exists ot, tree_outcome E cfg D ws ps omp_max ot /\
      o = (do _ <- dassert (input_asserts ws ps);
           do t <- ot;
           do _ <- dassert (layer_asserts (tP t) && forallb (node_asserts (tP t) (N.of_nat (length (tfirst t) - 1))) (tnodes t) && index_asserts t);
           Some t).

  (** ** WeightLayer.h *)
  (** WeightLayer.h:106-121 with 107-108, 118 *)
  Definition dlevelledCell (target cell level : N) : option (N * N) :=
    do _ <- dassert (level <=? target);
    do f <- firstCellOfLevel D level; do f1 <- firstCellOfLevel D (level + 1);
    do _ <- dassert ((f <=? cell) && (cell <? f1));
    do (b, e) <- levelledCell D target cell level;
    do _ <- dassert (b <=? e);
    Some (b, e).
  (** WeightLayer.h:96-102 with 100 *)
  Definition dcellIterators (t : tree) (i : nat) (cell level : N) : option (nat * nat) :=
    do _ <- dlevelledCell (target_level D (p_c (tP t)) i) cell level;
    do (b, e) <- cellIterators D t i cell level;
    do _ <- dassert (b <=? e)%nat;
    Some (b, e).
  Definition dnodes_in (t : tree) (i : nat) (cell level : N) : option (list node) :=
    do (b, e) <- dcellIterators t i cell level; slice (tnodes t) b e.
  (** WeightLayer.h:78-81 *)
  Definition dkthPoint (t : tree) (i : nat) (cell level : N) (k : nat) : option node :=
    do _ <- dlevelledCell (target_level D (p_c (tP t)) i) cell level;
    kthPoint D t i cell level k.

  (** ** Sampling *)
  (** SpatialTree.inl:203-204, 279-280 *)
  Definition dlayer_is (P : tparams) (i : nat) (v : node) : option unit :=
    do l <- double_to_u32 (flog2 E (rnd E (weight v / p_w0 P))); dassert (N.of_nat i =? l).
  (** SpatialTree.inl:199-200 (unsigned subtraction) *)
  Definition dcell_is (cell level : N) (v : node) : option unit :=
    do f <- firstCellOfLevel D level; do c <- dcellForPoint (coord v) level;
    dassert (w32 (cell + 2 ^ 32 - f) =? c).
  (** SpatialTree.inl:195-206: one pair of sampleTypeI, with the positions of both nodes in their ranges *)
  Definition dpairI (t : tree) (A B level : N) (i j : nat) (ka : nat) (a : node) (kb : nat) (b : node) : option unit :=
    do pa <- dkthPoint t i A level ka; do _ <- dassert (index a =? index pa)%nat;
    do pb <- dkthPoint t j B level kb; do _ <- dassert (index b =? index pb)%nat;
    do _ <- dcell_is A level a; do _ <- dcell_is B level b;
    do _ <- dlayer_is (tP t) i a; do _ <- dlayer_is (tP t) j b;
    dassert (negb (index a =? index b)%nat).
  (** SpatialTree.inl:182-219 *)
  Fixpoint ddecideI (t : tree) (alpha : alphaT) (rg : rng) (A B level : N) (i j : nat) (ps : list ((nat * node) * (nat * node))) (g : G rg)
    : option (list event * G rg) :=
    match ps with
    | [] => Some ([], g)
    | ((ka, a), (kb, b)) :: r =>
      do _ <- dpairI t A B level i j ka a kb b;
      let '(hit, g1) := match alpha with
                        | AInf => (Rltb (d_term E D a b) (w_term E (p_W (tP t)) a b), g)
                        | AFin _ => let (x, g') := u01 rg g in (xlt x (conn_prob E D (p_W (tP t)) alpha a b), g')
                        end in
      do (es, g2) <- ddecideI t alpha rg A B level i j r g1;
      Some (EPair (index a) (index b) hit :: es, g2)
    end.
  Definition numbered (l : list node) : list (nat * node) := combine (seq 0 (length l)) l.
  (** SpatialTree.inl:159-221 sampleTypeI with 161 *)
  Definition dsampleTypeI (t : tree) (alpha : alphaT) (rg : rng) (A B level : N) (i j : nat) (g : G rg) : option (result (G rg)) :=
    do bl <- dbase_level (tP t) i j;
    do tch <- touching cfg D A B level;
    do _ <- dassert ((bl =? level) || negb tch);
    do ra <- dnodes_in t i A level;
    do rb <- dnodes_in t j B level;
    match ra, rb with
    | [], _ | _, [] => Some {| evs := []; type1 := 0; type2 := 0; gen := g |}
    | _, _ =>
      let same := (A =? B) && (i =? j)%nat in
      do (es, g') <- ddecideI t alpha rg A B level i j (pairsI same 0 (numbered ra) (numbered rb)) g;
      let a := Z.of_nat (length ra) in let b := Z.of_nat (length rb) in
      Some {| evs := es; type1 := (if same then a * (a - 1) else a * b * 2)%Z; type2 := 0; gen := g' |}
    end.

  (** SpatialTree.inl:266-290 with 279-280, 289-290 *)
  Fixpoint dskip_loop (t : tree) (alpha : alphaT) (rg : rng) (i j : nat) (wub dlb p : R) (ra rb : list node) (fuel : nat) (r : N) (g : G rg)
    : option (list (nat * nat) * G rg) :=
    if (N.of_nat (length ra * length rb) <=? r) then Some ([], g) else
    match fuel with
    | O => None
    | S f =>
      do a <- nth_error ra (N.to_nat (r mod N.of_nat (length ra)));
      do b <- nth_error rb (N.to_nat (r / N.of_nat (length ra)));
      do _ <- dlayer_is (tP t) i a; do _ <- dlayer_is (tP t) j b;
      let (x, g1) := uni0 rg p g in
      do _ <- dassert (Rltb (w_term E (p_W (tP t)) a b) wub);
      do _ <- dassert (Rleb dlb (d_term E D a b));
      let hit := xlt x (conn_prob E D (p_W (tP t)) alpha a b) in
      let (k, g2) := geo rg p g1 in
      do (hits, g3) <- dskip_loop t alpha rg i j wub dlb p ra rb f (w64 (r + w64 (1 + k))) g2;
      Some ((if hit then [(index a, index b)] else []) ++ hits, g3)
    end.
  (** SpatialTree.inl:224-293 sampleTypeII with 229, 245 *)
  Definition dsampleTypeII (t : tree) (alpha : alphaT) (rg : rng) (A B level : N) (i j : nat) (g : G rg) : option (result (G rg)) :=
    do bl <- dbase_level (tP t) i j;
    do _ <- dassert (level <=? bl);
    do ra <- dnodes_in t i A level;
    do rb <- dnodes_in t j B level;
    match ra, rb with
    | [], _ | _, [] => Some {| evs := []; type1 := 0; type2 := 0; gen := g |}
    | _, _ =>
      do wub <- w_upper_bound E (tP t) i j;
      do dlb <- dist_lower_bound E cfg D A B level;
      let p := max_connection_prob E alpha wub dlb in
      do _ <- dassert (Rltb wub dlb);
      let num_pairs := (length ra * length rb)%nat in
      let expected_samples := rnd E (rnd E (INR num_pairs) * p) in
      if Rltb (rnd E (1 / 5)) p then dsampleTypeI t alpha rg A B level i j g else
      let checks := (2 * Z.of_nat (length ra) * Z.of_nat (length rb))%Z in
      if Rltb expected_samples (rnd E (1 / 1000000)) then
        Some {| evs := [EBlock (map index ra) (map index rb) []]; type1 := 0; type2 := checks; gen := g |}
      else
        let (r0, g1) := geo rg p g in
        do (hits, g2) <- dskip_loop t alpha rg i j wub dlb p ra rb num_pairs r0 g1;
        Some {| evs := [EBlock (map index ra) (map index rb) hits]; type1 := 0; type2 := checks; gen := g2 |}
    end.
  (** a call of sampleTypeI or sampleTypeII, and the calls of one thread (as in Tree_Model) *)
  Definition drun_call (t : tree) (alpha : alphaT) (rg : rng) (x : call) (g : G rg) : option (result (G rg)) :=
    match x with
    | CallI A B l i j => dsampleTypeI t alpha rg A B l i j g
    | CallII A B l i j => dsampleTypeII t alpha rg A B l i j g
    end.
  Fixpoint drun_calls (t : tree) (alpha : alphaT) (rg : rng) (xs : list call) (g : G rg) : option (result (G rg)) :=
    match xs with
    | [] => Some {| evs := []; type1 := 0; type2 := 0; gen := g |}
    | x :: r => do r1 <- drun_call t alpha rg x g;
                do r2 <- drun_calls t alpha rg r (gen r1);
                Some {| evs := evs r1 ++ evs r2; type1 := type1 r1 + type1 r2; type2 := type2 r1 + type2 r2; gen := gen r2 |}
    end.
  Definition drun_threads (t : tree) (alpha : alphaT) (rg : rng) (calls : list (list call)) (gens : list (G rg))
    : option (list (result (G rg))) :=
    if (length gens <? length calls)%nat then None else
    omap (fun cg => drun_calls t alpha rg (fst cg) (snd cg)) (combine calls gens).
  (** SpatialTree.inl:61, 82; m_n is the number of weights *)
  Definition total_assert {X} (n : nat) (rs : list (result X)) : option unit :=
    dassert (fold_right Z.add 0%Z (map (fun r => (type1 r + type2 r)%Z) rs) =? Z.of_nat n * (Z.of_nat n - 1))%Z.
  (** SpatialTree.inl:42-82 generateEdges *)
  Definition edges_debug (n : nat) (t : tree) (alpha : alphaT) (rg : rng) (seed : Z) (num_threads team : nat)
    (o : option (list (result (G rg)))) : Prop :=
    if seeds_defined seed num_threads then
      exists gens, gens_ok rg seed num_threads gens /\
        o = (do calls <- thread_calls E cfg D (tP t) alpha num_threads team;
             do rs <- drun_threads t alpha rg calls gens;
             do _ <- total_assert n rs; Some rs)
    else o = None.
End Debug.

(** ** girgs::generateEdges of a debug build (Generator.cpp:73-119, which has no assertions of its own) *)
Definition girg_debug (E : fenv) (cfg : config) (rg : rng) (ws : list R) (ps : list (list R)) (alpha : alphaT) (seed : Z)
  (omp_max team : nat) (o : option (list (nat * nat))) : Prop :=
  match ps with
  | [] => o = None (* positions.front() *)
  | p0 :: _ =>
    let D := N.of_nat (length p0) in
    if ((1 <=? D) && (D <=? 5))%N then
      exists ot, tree_debug E cfg D ws ps omp_max ot /\
        match ot with
        | None => o = None
        | Some t =>
          exists ors, edges_debug E cfg D (length ws) t alpha rg seed omp_max team ors /\
            match ors with
            | None => o = None
            | Some rs => collect (2 ^ 20) omp_max (map edges_of rs) o
            end
        end
    else o = Some []
  end.
