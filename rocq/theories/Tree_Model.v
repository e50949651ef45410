(** Model of girgs/SpatialTree.{h,inl} and girgs/WeightLayer.h.
    Cells and levels are [N] (unsigned int), weight layers are [nat] (indices of m_weight_layers), the base level constant is [Z] (int).
    [None] = undefined behaviour.  [E] is the arithmetic of doubles. *)
From Coq Require Import Arith NArith ZArith List Bool Reals.
From Flocq Require Import Core.
From Verif Require Import Base Sched Bits_Model Coord_Model IntSort_Model Prefix_Model.
Import ListNotations.
Open Scope N_scope.

(** [a, a+1, ..., b] : the loops  for(x = a; x <= b; ++x)  *)
Definition Nrange (a b : N) : list N := map (fun k => a + N.of_nat k) (seq 0 (N.to_nat (b + 1 - a))).

(** static_cast<int>(double) *)
Definition double_to_int (x : R) : option Z :=
  let z := Ztrunc x in if ((- 2^31 <=? z) && (z <? 2^31))%Z then Some z else None.

(** ** Constructor: SpatialTree.inl:10-39 *)
Record tparams := { p_w0 : R; p_wn : R; p_W : R; p_c : Z; p_layers : nat; p_levels : N }.

(** SpatialTree.inl:296-312 weightLayerTargetLevel (C++ '/' on ints truncates: Z.quot; ints cannot overflow here since the base
    two logarithm of a quotient of doubles is below 2^12 in absolute value) *)
Definition target_level (D : N) (c : Z) (layer : nat) : N :=
  Z.to_N (Z.max (Z.quot (c - Z.of_nat layer - 1) (Z.of_N D)) 0).
(** SpatialTree.inl:315-336 partitioningBaseLevel *)
Definition base_level (D : N) (c : Z) (i j : nat) : N :=
  Z.to_N (Z.max (Z.quot (c - Z.of_nat i - Z.of_nat j - 2) (Z.of_N D)) 0).

(** std::min_element / std::max_element / std::accumulate (left to right, rounding after each addition) *)
Definition min_elem (ws : list R) : option R := match ws with [] => None | w :: r => Some (fold_left Rmin r w) end.
Definition max_elem (ws : list R) : option R := match ws with [] => None | w :: r => Some (fold_left Rmax r w) end.
Definition sum_elems (E : fenv) (ws : list R) : R := fold_left (fun s w => rnd E (s + w)) ws 0%R.

(** SpatialTree.inl:15-20 the member initialisers *)
Definition tree_params (E : fenv) (D : N) (ws : list R) : option tparams :=
  do w0 <- min_elem ws;
  do wn <- max_elem ws;
  let W := sum_elems E ws in
  do c <- double_to_int (flog2 E (rnd E (rnd E (W / w0) / w0)));
  do m <- double_to_u32 (IZR (Zfloor (flog2 E (rnd E (wn / w0)))));
  Some {| p_w0 := w0; p_wn := wn; p_W := W; p_c := c; p_layers := N.to_nat (w32 (m + 1));
          p_levels := base_level D c 0 0 + 1 |}.

(** SpatialTree.inl:27-31: m_layer_pairs[l].  The bucket index base_level(i,j) is at most base_level(0,0) = levels - 1, so the
    emplace_back's are in range; the content of bucket l in insertion order is the filtered list. *)
Definition layer_pairs (D : N) (P : tparams) (l : N) : list (nat * nat) :=
  filter (fun ij => base_level D (p_c P) (fst ij) (snd ij) =? l)
         (list_prod (seq 0 (p_layers P)) (seq 0 (p_layers P))).

(** ** buildPartition: SpatialTree.inl:339-473 *)
(** SpatialTree.inl:349-359 first_cell_of_layer: k layers remain, the next one is l *)
Fixpoint first_cells (D : N) (c : Z) (k l : nat) (sum : N) : option (list N) :=
  match k with
  | O => Some [sum]
  | S k' => do m <- numCellsInLevel D (target_level D c l);
            do r <- first_cells D c k' (S l) (w32 (sum + m)); Some (sum :: r)
  end.

(** SpatialTree.inl:344-346 weight_to_layer (a double; converted to int/size_t by truncation at its uses) *)
Definition weight_to_layer (E : fenv) (w0 w : R) : R := flog2 E (rnd E (w / w0)).
Definition layer_index (E : fenv) (w0 w : R) : option nat :=
  do z <- double_to_int (weight_to_layer E w0 w);
  if (z <? 0)%Z then None else Some (Z.to_nat z).

(** SpatialTree.inl:370-376 body of the classification loop and Node.h:16-20 (the first D coordinates are copied).
    The iterations write different elements, so the parallel loop is a map. *)
Definition classify (E : fenv) (cfg : config) (D : N) (P : tparams) (fcl : list N) (x : nat * (R * list R)) : option node :=
  let '(i, (w, p)) := x in
  do layer <- layer_index E (p_w0 P) w;
  do first <- nth_error fcl layer;
  if (length p <? N.to_nat D)%nat then None else
  let p' := firstn (N.to_nat D) p in
  do c <- cellForPoint E cfg D p' (target_level D (p_c P) layer);
  Some {| coord := p'; weight := w; index := i; cell_id := w32 (first + c) |}.

Definition classify_all (E : fenv) (cfg : config) (D : N) (P : tparams) (fcl : list N) (ws : list R) (ps : list (list R))
  : option (list node) :=
  if (length ps <? length ws)%nat then None else
  omap (classify E cfg D P fcl) (combine (seq 0 (length ws)) (combine ws ps)).

(** What the constructor leaves behind: parameters, first_cell_of_layer, m_nodes and m_first_in_cell *)
Record tree := { tP : tparams; tfcl : list N; tnodes : list node; tfirst : list N }.

(** SpatialTree.inl:10-39, 339-473.  [omp_max] is omp_get_max_threads(); every parallel region may get any team of 1..omp_max
    threads and any interleaving (see Sched, IntSort_Model, Prefix_Model).  RADIX_WIDTH is 8 (IntSort.h:280). *)
Definition tree_outcome (E : fenv) (cfg : config) (D : N) (ws : list R) (ps : list (list R)) (omp_max : nat)
  (o : option tree) : Prop :=
  match (do P <- tree_params E D ws;
         do fcl <- first_cells D (p_c P) (p_layers P) 0 0;
         do M <- nth_error fcl (p_layers P);
         do nodes <- classify_all E cfg D P fcl ws ps;
         Some (P, fcl, M, nodes)) with
  | None => o = None
  | Some (P, fcl, M, nodes) =>
      exists buf so, length buf = length nodes /\
        intsort_outcome 8 cell_id M omp_max nodes buf so /\
        match so with
        | None => o = None
        | Some sorted =>
            exists t1 t2 io, (1 <= t1 <= omp_max)%nat /\ (1 <= t2 <= omp_max)%nat /\
              index_outcome (map (fun v => N.to_nat (cell_id v)) sorted) (N.to_nat M) t1 t2 io /\
              o = (do arr <- io; Some {| tP := P; tfcl := fcl; tnodes := sorted; tfirst := arr |})
        end
  end.

(** ** WeightLayer.h *)
(** WeightLayer.h:106-121 levelledCell for a layer with insertion level [target] *)
Definition levelledCell (D target cell level : N) : option (N * N) :=
  if target <? level then None (* target - level wraps and the shift is undefined *) else
  do desc <- numCellsInLevel D (target - level);
  do first <- firstCellOfLevel D level;
  if cell <? first then None (* wraps; never reached *) else
  let b := w32 ((cell - first) * desc) in
  Some (b, w32 (b + desc - 1)).
(** WeightLayer.h:96-102 cellIterators for layer i: offsets into m_nodes.
    m_prefix_sums is m_first_in_cell.data() + first_cell_of_layer[i] (SpatialTree.inl:467). *)
Definition cellIterators (D : N) (t : tree) (i : nat) (cell level : N) : option (nat * nat) :=
  do first <- nth_error (tfcl t) i;
  do (b, e) <- levelledCell D (target_level D (p_c (tP t)) i) cell level;
  do pb <- nth_error (tfirst t) (N.to_nat (first + b));
  do pe <- nth_error (tfirst t) (N.to_nat (first + (e + 1)));
  Some (N.to_nat pb, N.to_nat pe).
(** WeightLayer.h:51-57 pointsInCell *)
Definition pointsInCell (D : N) (t : tree) (i : nat) (cell level : N) : option Z :=
  do (b, e) <- cellIterators D t i cell level; Some (Z.of_nat e - Z.of_nat b)%Z.
(** WeightLayer.h:78-81 kthPoint *)
Definition kthPoint (D : N) (t : tree) (i : nat) (cell level : N) (k : nat) : option node :=
  do (b, _) <- cellIterators D t i cell level; nth_error (tnodes t) (b + k).
(** the nodes between the two iterators *)
Definition nodes_in (D : N) (t : tree) (i : nat) (cell level : N) : option (list node) :=
  do (b, e) <- cellIterators D t i cell level; slice (tnodes t) b e.

(** ** The recursion *)
(** calls of sampleTypeI / sampleTypeII made by the recursion, in program order *)
Inductive call := CallI (A B l : N) (i j : nat) | CallII (A B l : N) (i j : nat).
Definition isI (x : call) : bool := match x with CallI _ _ _ _ _ => true | _ => false end.
Definition is_inf (a : alphaT) : bool := match a with AInf => true | AFin _ => false end.

(** SpatialTree.inl:88-95 (and 122-129) the not-touching case *)
Definition far_calls (D : N) (P : tparams) (A B level : N) : list call :=
  flat_map (fun l => map (fun ij => CallII A B level (fst ij) (snd ij)) (layer_pairs D P l))
           (Nrange level (p_levels P - 1)).
(** SpatialTree.inl:98-101 (and 132-135) the type 1 calls *)
Definition near_calls (D : N) (P : tparams) (A B level : N) : list call :=
  flat_map (fun ij => if negb (A =? B) || (fst ij <=? snd ij)%nat then [CallI A B level (fst ij) (snd ij)] else [])
           (layer_pairs D P level).
(** SpatialTree.inl:108-113 (and 141-147) the child pairs in loop order *)
Definition child_pairs (D : N) (A B : N) : list (N * N) :=
  flat_map (fun a => map (fun b => (a, b)) (Nrange (if A =? B then a else firstChild D B) (lastChild D B)))
           (Nrange (firstChild D A) (lastChild D A)).

(** SpatialTree.inl:85-115 visitCellPair; the fuel is the number of levels below *)
Fixpoint visit (cfg : config) (D : N) (P : tparams) (alpha : alphaT) (fuel : nat) (A B level : N) : option (list call) :=
  do t <- touching cfg D A B level;
  if negb t then Some (if ndebug cfg && is_inf alpha then [] else far_calls D P A B level)
  else if level =? p_levels P - 1 then Some (near_calls D P A B level)
  else match fuel with
       | O => None
       | S f => do rs <- omap (fun ab => visit cfg D P alpha f (fst ab) (snd ab) (level + 1)) (child_pairs D A B);
                Some (near_calls D P A B level ++ concat rs)
       end.
(** SpatialTree.inl:119-155 visitCellPair_sequentialStart: the calls executed and the pairs pushed, both in program order *)
Fixpoint seq_start (cfg : config) (D : N) (P : tparams) (alpha : alphaT) (fpl : N) (fuel : nat) (A B level : N)
  : option (list call * list (N * N)) :=
  do t <- touching cfg D A B level;
  if negb t then Some (if ndebug cfg && is_inf alpha then [] else far_calls D P A B level, [])
  else if level =? p_levels P - 1 then Some (near_calls D P A B level, [])
  else match fuel with
       | O => None
       | S f => do rs <- omap (fun ab => if level + 1 =? fpl then Some ([], [ab])
                                          else seq_start cfg D P alpha fpl f (fst ab) (snd ab) (level + 1)) (child_pairs D A B);
                Some (near_calls D P A B level ++ concat (map fst rs), concat (map snd rs))
       end.

(** SpatialTree.inl:67-78: the calls each of the [team] threads executes in the parallel phase.
    parallel_calls[i] holds the second components of the pushes whose first component is first_parallel_cell + i. *)
Definition par_calls (cfg : config) (D : N) (P : tparams) (alpha : alphaT) (fpl : N) (pushes : list (N * N)) (team : nat)
  : option (list (list call)) :=
  do cells <- numCellsInLevel D fpl;
  do first <- firstCellOfLevel D fpl;
  if negb (forallb (fun ab => (first <=? fst ab) && (fst ab <? first + cells)) pushes) then None else
  omap (fun blk =>
          do rs <- omap (fun i => let a := first + N.of_nat i in
                                  omap (fun ab => visit cfg D P alpha (N.to_nat (p_levels P)) a (snd ab) fpl)
                                       (filter (fun ab => fst ab =? a) pushes)) blk;
          Some (concat (concat rs)))
       (static_split (seq 0 (N.to_nat cells)) team).

(** SpatialTree.inl:67  ceil(log2(4.0 * num_threads) / D) *)
Definition first_parallel_level (E : fenv) (D : N) (num_threads : nat) : option N :=
  double_to_u32 (IZR (Zceil (rnd E (flog2 E (4 * INR num_threads) / IZR (Z.of_N D))))).

(** SpatialTree.inl:58-78: the calls executed by each thread.  The sequential start runs on thread 0, before the parallel loop.
    The loop gets a team of [team] <= num_threads threads. *)
Definition thread_calls (E : fenv) (cfg : config) (D : N) (P : tparams) (alpha : alphaT) (num_threads team : nat)
  : option (list (list call)) :=
  if (num_threads =? 1)%nat then
    do cs <- visit cfg D P alpha (N.to_nat (p_levels P)) 0 0 0; Some [cs]
  else
    do fpl <- first_parallel_level E D num_threads;
    do (cs, pushes) <- seq_start cfg D P alpha fpl (N.to_nat (p_levels P)) 0 0 0;
    do par <- par_calls cfg D P alpha fpl pushes team;
    Some (match par with [] => [cs] | p0 :: r => (cs ++ p0) :: r end).

(** ** Sampling *)
(** A random engine with the three distributions the code uses: uniform_real_distribution(0,1), uniform_real_distribution(0,p),
    geometric_distribution<unsigned long long>(p).  rseed is the engine's constructor / seed(). *)
Record rng := { G : Type; rseed : Z -> G; u01 : G -> R * G; uni0 : R -> G -> R * G; geo : R -> G -> N * G }.

(** doubles in [0, +inf] *)
Inductive xreal := XInf | XFin (r : R).
(** w / d for w > 0 (0/0 does not occur for positive weights) *)
Definition xdiv (E : fenv) (w d : R) : xreal := if Req_EM_T d 0 then XInf else XFin (rnd E (w / d)).
(** std::pow for base >= 0 (IEEE special cases: pow(x,inf), pow(inf,y), pow(x,0) = 1) *)
Definition xpow (E : fenv) (x : xreal) (a : alphaT) : xreal :=
  match a, x with
  | AInf, XInf => XInf
  | AInf, XFin r => if Rlt_dec r 1 then XFin 0 else if Rlt_dec 1 r then XInf else XFin 1
  | AFin a, XInf => if Rlt_dec 0 a then XInf else if Rlt_dec a 0 then XFin 0 else XFin 1
  | AFin a, XFin r => XFin (fpow E r a)
  end.
Definition xmin1 (x : xreal) : R := match x with XInf => 1%R | XFin r => Rmin r 1 end.
(** r < x for a double r and x in [0,inf] *)
Definition xlt (r : R) (x : xreal) : bool := match x with XInf => true | XFin y => Rltb r y end.

(** SpatialTree.inl:204-206, 277-279 the two terms of a pair of nodes *)
Definition w_term (E : fenv) (W : R) (a b : node) : R := rnd E (rnd E (weight a * weight b) / W).
Definition d_term (E : fenv) (D : N) (a b : node) : R := pow_to_the E D (node_distance E a b).
(** SpatialTree.inl:212, 280 *)
Definition conn_prob (E : fenv) (D : N) (W : R) (alpha : alphaT) (a b : node) : xreal :=
  xpow E (xdiv E (w_term E W a b) (d_term E D a b)) alpha.

(** What a call does: pairs decided one by one, or a block of pairs sampled by skipping (with the pairs that were hit) *)
Inductive event := EPair (u v : nat) (hit : bool) | EBlock (us vs : list nat) (hits : list (nat * nat)).
Record result {T : Type} := { evs : list event; type1 : Z; type2 : Z; gen : T }.
Arguments result : clear implicits.

(** SpatialTree.inl:182-188 the pairs visited by the loops *)
Fixpoint pairsI {T} (same : bool) (k : nat) (ra rb : list T) : list (T * T) :=
  match ra with
  | [] => []
  | a :: r => map (fun b => (a, b)) (if same then skipn (k + 1) rb else rb) ++ pairsI same (S k) r rb
  end.
(** SpatialTree.inl:204-216 *)
Fixpoint decideI (E : fenv) (D : N) (W : R) (alpha : alphaT) (rg : rng) (ps : list (node * node)) (g : G rg) : list event * G rg :=
  match ps with
  | [] => ([], g)
  | (a, b) :: r =>
    let '(hit, g1) := match alpha with
                      | AInf => (Rltb (d_term E D a b) (w_term E W a b), g)
                      | AFin _ => let (x, g') := u01 rg g in (xlt x (conn_prob E D W alpha a b), g')
                      end in
    let (es, g2) := decideI E D W alpha rg r g1 in
    (EPair (index a) (index b) hit :: es, g2)
  end.
(** SpatialTree.inl:159-221 sampleTypeI.  The counters are the debug counters m_type1_checks / m_type2_checks. *)
Definition sampleTypeI (E : fenv) (D : N) (t : tree) (alpha : alphaT) (rg : rng) (A B level : N) (i j : nat) (g : G rg)
  : option (result (G rg)) :=
  do ra <- nodes_in D t i A level;
  do rb <- nodes_in D t j B level;
  match ra, rb with
  | [], _ | _, [] => Some {| evs := []; type1 := 0; type2 := 0; gen := g |}
  | _, _ =>
    let same := (A =? B) && (i =? j)%nat in
    let (es, g') := decideI E D (p_W (tP t)) alpha rg (pairsI same 0 ra rb) g in
    let a := Z.of_nat (length ra) in let b := Z.of_nat (length rb) in
    Some {| evs := es; type1 := (if same then a * (a - 1) else a * b * 2)%Z; type2 := 0; gen := g' |}
  end.

(** SpatialTree.inl:239-243 the envelope: w_upper_bound, dist_lower_bound, max_connection_prob *)
Definition w_upper_bound (E : fenv) (P : tparams) (i j : nat) : option R :=
  do si <- shl1_i32 (N.of_nat i + 1);
  do sj <- shl1_i32 (N.of_nat j + 1);
  Some (rnd E (rnd E (rnd E (rnd E (p_w0 P * IZR (Z.of_N si)) * p_w0 P) * IZR (Z.of_N sj)) / p_W P)).
Definition dist_lower_bound (E : fenv) (cfg : config) (D A B level : N) : option R :=
  do d <- cell_dist E cfg D A B level; Some (pow_to_the E D d).
Definition max_connection_prob (E : fenv) (alpha : alphaT) (wub dlb : R) : R := xmin1 (xpow E (xdiv E wub dlb) alpha).

(** SpatialTree.inl:266-290 the skipping loop; [r] is unsigned long long.  Fuel num_pairs suffices since r grows. *)
Fixpoint skip_loop (E : fenv) (D : N) (W : R) (alpha : alphaT) (rg : rng) (p : R) (ra rb : list node) (fuel : nat) (r : N) (g : G rg)
  : option (list (nat * nat) * G rg) :=
  if (N.of_nat (length ra * length rb) <=? r) then Some ([], g) else
  match fuel with
  | O => None
  | S f =>
    do a <- nth_error ra (N.to_nat (r mod N.of_nat (length ra)));
    do b <- nth_error rb (N.to_nat (r / N.of_nat (length ra)));
    let (x, g1) := uni0 rg p g in
    let hit := xlt x (conn_prob E D W alpha a b) in
    let (k, g2) := geo rg p g1 in
    do (hits, g3) <- skip_loop E D W alpha rg p ra rb f (w64 (r + w64 (1 + k))) g2;
    Some ((if hit then [(index a, index b)] else []) ++ hits, g3)
  end.

(** SpatialTree.inl:224-293 sampleTypeII *)
Definition sampleTypeII (E : fenv) (cfg : config) (D : N) (t : tree) (alpha : alphaT) (rg : rng) (A B level : N) (i j : nat) (g : G rg)
  : option (result (G rg)) :=
  do ra <- nodes_in D t i A level;
  do rb <- nodes_in D t j B level;
  match ra, rb with
  | [], _ | _, [] => Some {| evs := []; type1 := 0; type2 := 0; gen := g |}
  | _, _ =>
    do wub <- w_upper_bound E (tP t) i j;
    do dlb <- dist_lower_bound E cfg D A B level;
    let p := max_connection_prob E alpha wub dlb in
    let num_pairs := (length ra * length rb)%nat in
    let expected_samples := rnd E (rnd E (INR num_pairs) * p) in
    if Rltb (rnd E (1 / 5)) p then sampleTypeI E D t alpha rg A B level i j g else
    let checks := (2 * Z.of_nat (length ra) * Z.of_nat (length rb))%Z in
    if Rltb expected_samples (rnd E (1 / 1000000)) then
      Some {| evs := [EBlock (map index ra) (map index rb) []]; type1 := 0; type2 := checks; gen := g |}
    else
      let (r0, g1) := geo rg p g in
      do (hits, g2) <- skip_loop E D (p_W (tP t)) alpha rg p ra rb num_pairs r0 g1;
      Some {| evs := [EBlock (map index ra) (map index rb) hits]; type1 := 0; type2 := checks; gen := g2 |}
  end.

Definition run_call (E : fenv) (cfg : config) (D : N) (t : tree) (alpha : alphaT) (rg : rng) (x : call) (g : G rg)
  : option (result (G rg)) :=
  match x with
  | CallI A B l i j => sampleTypeI E D t alpha rg A B l i j g
  | CallII A B l i j => sampleTypeII E cfg D t alpha rg A B l i j g
  end.
(** the calls of one thread, with its own generator *)
Fixpoint run_calls (E : fenv) (cfg : config) (D : N) (t : tree) (alpha : alphaT) (rg : rng) (xs : list call) (g : G rg)
  : option (result (G rg)) :=
  match xs with
  | [] => Some {| evs := []; type1 := 0; type2 := 0; gen := g |}
  | x :: r => do r1 <- run_call E cfg D t alpha rg x g;
              do r2 <- run_calls E cfg D t alpha rg r (gen r1);
              Some {| evs := evs r1 ++ evs r2; type1 := type1 r1 + type1 r2; type2 := type2 r1 + type2 r2; gen := gen r2 |}
  end.

(** SpatialTree.inl:45-49: the generators of the threads.  seed + thread is int arithmetic.  A negative seed takes arbitrary states. *)
Definition gens_ok (rg : rng) (seed : Z) (num_threads : nat) (gens : list (G rg)) : Prop :=
  if (0 <=? seed)%Z then gens = map (fun k => rseed rg (seed + Z.of_nat k)) (seq 0 num_threads)
  else exists ss, length ss = num_threads /\ gens = map (rseed rg) ss.
Definition seeds_defined (seed : Z) (num_threads : nat) : bool :=
  ((seed <? 0) || (seed + Z.of_nat num_threads - 1 <? 2^31))%Z.

(** SpatialTree.inl:42-82 generateEdges: what each thread does.  [None] = UB. *)
Definition run_threads (E : fenv) (cfg : config) (D : N) (t : tree) (alpha : alphaT) (rg : rng) (calls : list (list call))
  (gens : list (G rg)) : option (list (result (G rg))) :=
  if (length gens <? length calls)%nat then None else
  omap (fun cg => run_calls E cfg D t alpha rg (fst cg) (snd cg)) (combine calls gens).
(** [team] is the number of threads the parallel loop gets (1 <= team <= num_threads; normally num_threads) *)
Definition edges_outcome (E : fenv) (cfg : config) (D : N) (t : tree) (alpha : alphaT) (rg : rng) (seed : Z) (num_threads team : nat)
  (o : option (list (result (G rg)))) : Prop :=
  if seeds_defined seed num_threads then
    exists gens, gens_ok rg seed num_threads gens /\
      o = (do calls <- thread_calls E cfg D (tP t) alpha num_threads team; run_threads E cfg D t alpha rg calls gens)
  else o = None.

(** the edges reported by the callback invocations of an event, in order *)
Definition event_edges (e : event) : list (nat * nat) :=
  match e with EPair u v hit => if hit then [(u, v)] else [] | EBlock _ _ hits => hits end.
Definition edges_of {T} (r : result T) : list (nat * nat) := flat_map event_edges (evs r).
(** the node pairs an event decides *)
Definition event_pairs (e : event) : list (nat * nat) :=
  match e with EPair u v _ => [(u, v)] | EBlock us vs _ => list_prod us vs end.
Definition pairs_of {T} (r : result T) : list (nat * nat) := flat_map event_pairs (evs r).
