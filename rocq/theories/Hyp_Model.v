(** Model of the hyperbolic generator: hypergirgs/AngleHelper, Point, RadiusLayer, DistanceFilter, HyperbolicTree and
    hypergirgs/source/Generator.cpp:133-171.
    Doubles are exact reals here (PI is the real number pi).  [None] = undefined behaviour (or, where stated, a value the real numbers
    cannot represent).  Cells, levels are [N] (unsigned int), radius layers are [nat] (indices of m_radius_layers). *)
From Coq Require Import Arith NArith ZArith List Bool Reals Permutation.
From Flocq Require Import Core.
From Verif Require Import Base Sched Coord_Model IntSort_Model Prefix_Model Tree_Model Girg_Model.
Import ListNotations.
Local Open Scope N_scope.

(** std::acosh for arguments >= 1 *)
Definition acosh (x : R) : R := ln (x + sqrt (x * x - 1)).

(** ** AngleHelper.h, AngleHelper.cpp *)
(** AngleHelper.h:18 *)
Definition numCells (level : N) : option N := shl1_u32 level.
(** AngleHelper.h:19 *)
Definition firstCell (level : N) : option N := do x <- shl1_u32 level; Some (x - 1).
(** AngleHelper.h:21-24; cell-1 wraps for cell = 0 *)
Definition hparent (cell : N) : N := w32 (cell + (2^32 - 1)) / 2.
Definition hfirstChild (cell : N) : N := w32 (2 * cell + 1).
Definition hsecondChild (cell : N) : N := w32 (2 * (cell + 1)).
(** AngleHelper.cpp:11-15 bounds; (1<<level) is an int *)
Definition hbounds (cell level : N) : option (R * R) :=
  do side <- shl1_i32 level;
  let diameter := (2 * PI / IZR (Z.of_N side))%R in
  do first <- firstCell level;
  if cell <? first then None (* wraps; never reached *) else
  let k := IZR (Z.of_N (cell - first)) in
  Some (k * diameter, (k + 1) * diameter)%R.
(** AngleHelper.h:29-31 cellForPoint: the level-local index of the cell at [angle] *)
Definition hcellForPoint (angle : R) (level : N) : option N :=
  do x <- numCells level; double_to_u32 (angle / 2 / PI * IZR (Z.of_N x)).
(** AngleHelper.cpp:18-19, 28-29  minmax and difference *)
Definition cell_diff (A B : N) : N := N.max A B - N.min A B.
(** AngleHelper.cpp:17-21 touching (|| does not evaluate its second operand if the first holds) *)
Definition htouching (A B level : N) : option bool :=
  let diff := cell_diff A B in
  if diff <=? 1 then Some true else do x <- numCells level; Some (diff =? x - 1).
(** AngleHelper.cpp:27-32 cellsBetween; numCellsInLevel(level) - diff is unsigned *)
Definition cellsBetween (A B level : N) : option N :=
  do x <- numCells level;
  let diff := N.min (cell_diff A B) (w32 (x + 2 ^ 32 - cell_diff A B)) in
  Some (if diff <=? 1 then 0 else diff - 1).
(** AngleHelper.cpp:23-25 dist *)
Definition hdist (A B level : N) : option R :=
  do k <- cellsBetween A B level; do side <- shl1_i32 level; Some (IZR (Z.of_N k) * 2 * PI / IZR (Z.of_N side))%R.

(** ** Point.h *)
(** Point.h:21-23 hyperbolicDistance *)
Definition hyp_distance (r1 phi1 r2 phi2 : R) : R :=
  acosh (Rmax 1 (cosh (r1 - r2) + (1 - cos (phi1 - phi2)) * sinh r1 * sinh r2)).
(** Point.h:25-84, the members of a release build *)
Record hpoint := { pid : nat; pcell : N; invsinh_r : R; coth_r : R; cos_phi : R; sin_phi : R }.
(** Point.h:27-42 the constructor.  Radius 0 gives infinite members, which reals cannot represent: [None]. *)
Definition mk_point (id : nat) (radius angle : R) (cell : N) : option hpoint :=
  if Req_EM_T radius 0 then None else
  Some {| pid := id; pcell := cell; invsinh_r := 1 / sinh radius; coth_r := cosh radius / sinh radius;
          cos_phi := cos angle; sin_phi := sin angle |}.
(** Point.h:47-51 isDistanceBelowR *)
Definition isDistanceBelowR (p q : hpoint) (coshR : R) : bool :=
  Rltb (coth_r p * coth_r q - coshR * invsinh_r p * invsinh_r q) (cos_phi p * cos_phi q + sin_phi p * sin_phi q).
(** Point.h:54-61 hyperbolicDistanceCosh *)
Definition distanceCosh (p q : hpoint) : R :=
  Rmax 1 ((coth_r p * coth_r q - cos_phi p * cos_phi q - sin_phi p * sin_phi q) / (invsinh_r p * invsinh_r q)).

(** ** RadiusLayer.h:57-68 partitioningBaseLevel.  The loop may not terminate: [None] if it does not stop within the fuel. *)
Fixpoint pbl_loop (fuel : nat) (r1 r2 Rd : R) (level : N) (diameter : R) : option N :=
  if Rltb Rd (hyp_distance r1 0 r2 (diameter / 2)) then
    match fuel with O => None | S f => pbl_loop f r1 r2 Rd (level + 1) (diameter / 2) end
  else Some level.
(** 64 iterations; deeper levels could not be used anyway: 1u << 32 is undefined *)
Definition pbl (r1 r2 Rd : R) : option N := pbl_loop 64 r1 r2 Rd 0 (2 * PI).

(** ** buildPartition: RadiusLayer.cpp:37-198, layer_height = 1 (HyperbolicTree.inl:15) *)
(** RadiusLayer.cpp:49-50 *)
Definition layer_rad_max (Rd : R) (l : nat) : R := (Rd - INR l * 1)%R.
Definition layer_rad_min (Rd : R) (l : nat) : R := (Rd - INR l * 1 - 1)%R.
(** RadiusLayer.cpp:48 *)
Definition radius_to_layer (Rd r : R) : option N := double_to_u32 ((Rd - r) / 1).
(** RadiusLayer.cpp:52 *)
Definition num_layers0 (Rd : R) : option N := double_to_u32 (IZR (Zceil (Rd / 1))).
(** RadiusLayer.cpp:55-62 level_of_layer *)
Definition level_of_layer (Rd : R) (m : nat) : option (list N) := omap (fun l => pbl (layer_rad_min Rd l) (Rd - 1) Rd) (seq 0 m).
(** RadiusLayer.cpp:68-76 first_cell_of_layer, from the last layer to layer 0; the second component is the final value of sum,
    which is first_cell_of_layer.front() + numCellsInLevel(level_of_layer[0]) = max_cell_id of line 77 *)
Fixpoint hfirst_cells (levels : list N) : option (list N * N) :=
  match levels with
  | [] => Some ([], 0)
  | lv :: r => do (fs, sum) <- hfirst_cells r; do x <- numCells lv; Some (sum :: fs, w32 (sum + x))
  end.
(** RadiusLayer.cpp:86-94 body of the classification loop; the iterations write different elements, so the parallel loop is a map *)
Definition hclassify (Rd : R) (levels firsts : list N) (x : nat * (R * R)) : option hpoint :=
  let '(i, (r, phi)) := x in
  do layer <- radius_to_layer Rd r;
  do level <- nth_error levels (N.to_nat layer);
  do first <- nth_error firsts (N.to_nat layer);
  do c <- hcellForPoint phi level;
  mk_point i r phi (w32 (first + c)).
(** RadiusLayer.cpp:110 pruning: the loop stops at the first layer whose first cell is not behind the first point's cell *)
Fixpoint prune (firsts : list N) (c : N) : option nat :=
  match firsts with
  | [] => None
  | f :: r => if c <? f then do k <- prune r c; Some (S k) else Some 1%nat
  end.

(** ** DistanceFilter.h, 100 stages *)
Record dfilter := { f_max : R; f_R : R; f_T : R }.
(** DistanceFilter.h:31-40, 64-66 filter_stages[i] *)
Definition filter_stage (F : dfilter) (i : Z) : option xreal :=
  if (i =? 0)%Z then Some XInf
  else if (i =? 100)%Z then Some (XFin 1)
  else if ((0 <? i) && (i <? 100))%Z then Some (XFin (cosh (f_R F + 2 * f_T F * ln (1 / (f_max F / 100 * IZR i) - 1))))
  else None.
(** DistanceFilter.h:44-48 *)
Definition filter_upper (F : dfilter) (prob : R) : option xreal :=
  do i <- double_to_int (100 / f_max F * prob); filter_stage F i.
(** DistanceFilter.h:52-56 *)
Definition filter_lower (F : dfilter) (prob : R) : option xreal :=
  do i <- double_to_int (IZR (Zceil (100 / f_max F * prob))); filter_stage F i.

(** ** The tree *)
Record htree := {
  h_R : R; h_T : R;
  h_layers : nat;           (* m_layers *)
  h_level : list N;         (* insertion levels (level_of_layer) *)
  h_first : list N;         (* first_cell_of_layer *)
  h_points : list hpoint;   (* m_points *)
  h_index : list N }.       (* m_first_in_cell *)
(** HyperbolicTree.inl:20 *)
Definition h_levels (t : htree) : N := match h_level t with l0 :: _ => l0 + 1 | [] => 0 end.
(** HyperbolicTree.inl:474-476 *)
Definition h_base (t : htree) (i j : nat) : N :=
  match pbl (layer_rad_min (h_R t) i) (layer_rad_min (h_R t) j) (h_R t) with Some l => l | None => 0 end.
(** HyperbolicTree.inl:25-28: all bucket indices are computed and in range *)
Definition pairs_defined (t : htree) : bool :=
  forallb (fun ij => match pbl (layer_rad_min (h_R t) (fst ij)) (layer_rad_min (h_R t) (snd ij)) (h_R t) with
                     | Some l => l <? h_levels t | None => false end)
          (list_prod (seq 0 (h_layers t)) (seq 0 (h_layers t))).
(** m_layer_pairs[l] in insertion order *)
Definition h_layer_pairs (t : htree) (l : N) : list (nat * nat) :=
  filter (fun ij => h_base t (fst ij) (snd ij) =? l) (list_prod (seq 0 (h_layers t)) (seq 0 (h_layers t))).

(** HyperbolicTree.inl:479-481 *)
Definition connectionProbRec (T Rd dist : R) : R := (1 + exp (1 / 2 / T * (dist - Rd)))%R.
(** HyperbolicTree.inl:40-49: the two filters of layers i, j at level l *)
Definition typeII_filters (T Rd : R) (i j : nat) (l : N) : option (dfilter * dfilter) :=
  do first <- firstCell l;
  let mk k := (do d <- hdist first (first + k) l;
               Some {| f_max := 1 / connectionProbRec T Rd (hyp_distance (layer_rad_min Rd i) 0 (layer_rad_min Rd j) d); f_R := Rd; f_T := T |}) in
  do f1 <- mk 2; do f2 <- mk 3; Some (f1, f2).
(** HyperbolicTree.inl:31-52: if m_T, the filters are computed for l = 2..PBL *)
Definition filters_defined (t : htree) : bool :=
  if Req_EM_T (h_T t) 0 then true else
  forallb (fun ij => forallb (fun l => match typeII_filters (h_T t) (h_R t) (fst ij) (snd ij) l with Some _ => true | None => false end)
                             (Nrange 2 (h_base t (fst ij) (snd ij))))
          (list_prod (seq 0 (h_layers t)) (seq 0 (h_layers t))).
(** HyperbolicTree.inl:359  m_typeII_filter[i*m_layers+j][level-2] *)
Definition lookup_filters (t : htree) (i j : nat) (level : N) : option (dfilter * dfilter) :=
  if (2 <=? level) && (level <=? h_base t i j) then typeII_filters (h_T t) (h_R t) i j level else None.

(** HyperbolicTree.inl:5-53 with RadiusLayer.cpp:37-198.  [omp_max] is omp_get_max_threads(); every parallel region may get any team
    of 1..omp_max threads and any interleaving.  RADIX_WIDTH is 8.  Cell ids are stored as int and converted back to unsigned. *)
Definition htree_outcome (radii angles : list R) (T Rd : R) (omp_max : nat) (o : option htree) : Prop :=
  match (if (length angles <? length radii)%nat then None else
         do m <- num_layers0 Rd;
         do levels <- level_of_layer Rd (N.to_nat m);
         do (firsts, M) <- hfirst_cells levels;
         do l0 <- nth_error levels 0 (* first_cell_of_layer.front() of an empty vector is undefined *);
         do points <- omap (hclassify Rd levels firsts) (combine (seq 0 (length radii)) (combine radii angles));
         Some (levels, firsts, M, points)) with
  | None => o = None
  | Some (levels, firsts, M, points) =>
      exists buf so, length buf = length points /\
        intsort_outcome 8 pcell (w32 (M + 1)) omp_max points buf so /\
        match so with
        | None => o = None
        | Some sorted =>
          match (do p0 <- nth_error sorted 0; prune firsts (pcell p0)) with
          | None => o = None
          | Some k =>
            exists t1 t2 io, (1 <= t1 <= omp_max)%nat /\ (1 <= t2 <= omp_max)%nat /\
              index_outcome (map (fun p => N.to_nat (pcell p)) sorted) (N.to_nat M) t1 t2 io /\
              o = (do arr <- io;
                   let t := {| h_R := Rd; h_T := T; h_layers := k; h_level := levels; h_first := firsts; h_points := sorted; h_index := arr |} in
                   if pairs_defined t && filters_defined t then Some t else None)
          end
        end
  end.

(** ** RadiusLayer.h:26-46, 72-87 queries *)
(** RadiusLayer.h:72-87 levelledCell for a layer with insertion level [target] *)
Definition hlevelledCell (target cell level : N) : option (N * N) :=
  if target <? level then None (* target - level wraps and the shift is undefined *) else
  do desc <- numCells (target - level);
  do first <- firstCell level;
  if cell <? first then None (* wraps; never reached *) else
  let b := w32 ((cell - first) * desc) in
  Some (b, w32 (b + desc - 1)).
(** RadiusLayer.h:39-46 cellIterators of layer i: offsets into m_points (m_prefix_sums is offset by first_cell_of_layer[i],
    RadiusLayer.cpp:192-194) *)
Definition hcellIterators (t : htree) (i : nat) (cell level : N) : option (nat * nat) :=
  if (h_layers t <=? i)%nat then None else
  do first <- nth_error (h_first t) i;
  do target <- nth_error (h_level t) i;
  do (b, e) <- hlevelledCell target cell level;
  do pb <- nth_error (h_index t) (N.to_nat (first + b));
  do pe <- nth_error (h_index t) (N.to_nat (first + (e + 1)));
  Some (N.to_nat pb, N.to_nat pe).
(** RadiusLayer.h:26-32 pointsInCell *)
Definition hpointsInCell (t : htree) (i : nat) (cell level : N) : option Z :=
  do (b, e) <- hcellIterators t i cell level; Some (Z.of_nat e - Z.of_nat b)%Z.
(** RadiusLayer.h:34-37 kthPoint *)
Definition hkthPoint (t : htree) (i : nat) (cell level : N) (k : nat) : option hpoint :=
  do (b, _) <- hcellIterators t i cell level; nth_error (h_points t) (b + k).
(** the points between the two iterators *)
Definition points_in (t : htree) (i : nat) (cell level : N) : option (list hpoint) :=
  do (b, e) <- hcellIterators t i cell level; slice (h_points t) b e.

(** ** The recursion.  Calls are [CallI A B level i j] / [CallII A B level i j] of Tree_Model. *)
(** HyperbolicTree.inl:156-158 (and 230-233) *)
Definition hfar_calls (t : htree) (A B level : N) : list call :=
  flat_map (fun l => map (fun ij => CallII A B level (fst ij) (snd ij)) (h_layer_pairs t l)) (Nrange level (h_levels t - 1)).
(** HyperbolicTree.inl:165-168 (and 241-245) *)
Definition hnear_calls (t : htree) (A B level : N) : list call :=
  flat_map (fun ij => if negb (A =? B) || (fst ij <=? snd ij)%nat then [CallI A B level (fst ij) (snd ij)] else []) (h_layer_pairs t level).
(** HyperbolicTree.inl:176-182 (and 196-204, 207-211, 254-260) *)
Definition hchild_pairs (A B : N) : list (N * N) :=
  let fA := hfirstChild A in let fB := hfirstChild B in
  [(fA, fB); (fA, w32 (fB + 1)); (w32 (fA + 1), w32 (fB + 1))] ++ (if A =? B then [] else [(w32 (fA + 1), fB)]).

(** HyperbolicTree.inl:148-183 visitCellPair; [ndebug]: release build.  The fuel is the number of levels below. *)
Definition is_zero (T : R) : bool := if Req_EM_T T 0 then true else false.
Fixpoint hvisit (ndebug : bool) (t : htree) (fuel : nat) (A B level : N) : option (list call) :=
  do tch <- htouching A B level;
  if negb tch then Some (if ndebug && is_zero (h_T t) then [] else hfar_calls t A B level)
  else if level =? h_levels t - 1 then Some (hnear_calls t A B level)
  else match fuel with
       | O => None
       | S f => do rs <- omap (fun ab => hvisit ndebug t f (fst ab) (snd ab) (level + 1)) (hchild_pairs A B);
                Some (hnear_calls t A B level ++ concat rs)
       end.
(** HyperbolicTree.inl:186-213 visitCellPairCreateTasks *)
Fixpoint hcreate (fpl : N) (fuel : nat) (A B level : N) : option (list (N * N)) :=
  do tch <- htouching A B level;
  if negb tch then Some []
  else if level + 1 =? fpl then Some (hchild_pairs A B)
  else match fuel with
       | O => None
       | S f => do rs <- omap (fun ab => hcreate fpl f (fst ab) (snd ab) (level + 1)) (hchild_pairs A B); Some (concat rs)
       end.
(** HyperbolicTree.inl:219-225 isMyTurn: the turn and the new thread_shift *)
Definition my_turn (num_threads shift : nat) : bool * nat :=
  if (S shift =? num_threads)%nat then (true, O) else (false, S shift).
(** a sequence of calls each guarded by isMyTurn() *)
Fixpoint my_calls (num_threads shift : nat) (cs : list call) : list call * nat :=
  match cs with
  | [] => ([], shift)
  | c :: r => let (mine, s1) := my_turn num_threads shift in
              let (rest, s2) := my_calls num_threads s1 r in
              ((if mine then [c] else []) ++ rest, s2)
  end.
(** HyperbolicTree.inl:215-264 visitCellPairSample: the calls this thread makes and the returned thread_shift *)
Fixpoint hsample (t : htree) (fpl : N) (num_threads : nat) (fuel : nat) (A B level : N) (shift : nat) : option (list call * nat) :=
  do tch <- htouching A B level;
  if negb tch then Some (my_calls num_threads shift (hfar_calls t A B level))
  else
    let (cs, s1) := my_calls num_threads shift (hnear_calls t A B level) in
    if level =? h_levels t - 1 then Some (cs, s1)
    else if level + 1 =? fpl then Some (cs, s1)
    else match fuel with
         | O => None
         | S f =>
           do (rs, s2) <- (fix children (abs : list (N * N)) (s : nat) : option (list call * nat) :=
                             match abs with
                             | [] => Some ([], s)
                             | ab :: r => do (c1, s') <- hsample t fpl num_threads f (fst ab) (snd ab) (level + 1) s;
                                          do (c2, s'') <- children r s';
                                          Some (c1 ++ c2, s'')
                             end) (hchild_pairs A B) s1;
           Some (cs ++ rs, s2)
         end.

(** ** Sampling *)
(** HyperbolicTree.inl:293: m_T <= numeric_limits<double>::epsilon() = 2^-52 *)
Definition threshold_mode (T : R) : bool := Rleb T (1 / IZR (2 ^ 52)).
(** HyperbolicTree.inl:321-339 and 419-441: the decision for a draw [x] *)
Definition filter_decide (F : dfilter) (T Rd : R) (p q : hpoint) (x : R) : option bool :=
  let c := distanceCosh p q in
  do up <- filter_upper F x;
  if (match up with XInf => false | XFin y => Rltb y c end) then Some false else
  do low <- filter_lower F x;
  if xlt c low then Some true else
  Some (Rltb (x * connectionProbRec T Rd (acosh c)) 1).
(** HyperbolicTree.inl:13  m_typeI_filter *)
Definition typeI_filter (t : htree) : dfilter := {| f_max := 1; f_R := h_R t; f_T := h_T t |}.
(** HyperbolicTree.inl:295-342 *)
Fixpoint hdecideI (t : htree) (rg : rng) (ps : list (hpoint * hpoint)) (g : G rg) : option (list event * G rg) :=
  match ps with
  | [] => Some ([], g)
  | (a, b) :: r =>
    do (hit, g1) <- (if threshold_mode (h_T t) then Some (isDistanceBelowR a b (cosh (h_R t)), g)
                     else let (x, g') := u01 rg g in
                          do h <- filter_decide (typeI_filter t) (h_T t) (h_R t) a b x; Some (h, g'));
    do (es, g2) <- hdecideI t rg r g1;
    Some (EPair (pid a) (pid b) hit :: es, g2)
  end.
(** HyperbolicTree.inl:267-343 sampleTypeI *)
Definition hsampleTypeI (t : htree) (rg : rng) (A B level : N) (i j : nat) (g : G rg) : option (result (G rg)) :=
  do ra <- points_in t i A level;
  do rb <- points_in t j B level;
  match ra, rb with
  | [], _ | _, [] => Some {| evs := []; type1 := 0; type2 := 0; gen := g |}
  | _, _ =>
    let same := (A =? B) && (i =? j)%nat in
    do (es, g') <- hdecideI t rg (pairsI same 0 ra rb) g;
    let a := Z.of_nat (length ra) in let b := Z.of_nat (length rb) in
    Some {| evs := es; type1 := (if same then a * (a - 1) else a * b * 2)%Z; type2 := 0; gen := g' |}
  end.
(** HyperbolicTree.inl:400-442 the skipping loop; [r] is unsigned long long *)
Fixpoint hskip_loop (T Rd : R) (F : dfilter) (rg : rng) (ra rb : list hpoint) (fuel : nat) (r : N) (g : G rg)
  : option (list (nat * nat) * G rg) :=
  if (N.of_nat (length ra * length rb) <=? r) then Some ([], g) else
  match fuel with
  | O => None
  | S f =>
    do a <- nth_error ra (N.to_nat (r mod N.of_nat (length ra)));
    do b <- nth_error rb (N.to_nat (r / N.of_nat (length ra)));
    let (x, g1) := uni0 rg (f_max F) g in
    do hit <- filter_decide F T Rd a b x;
    let (k, g2) := geo rg (f_max F) g1 in
    do (hits, g3) <- hskip_loop T Rd F rg ra rb f (w64 (r + w64 (1 + k))) g2;
    Some ((if hit then [(pid a, pid b)] else []) ++ hits, g3)
  end.
(** HyperbolicTree.inl:345-443 sampleTypeII *)
Definition hsampleTypeII (t : htree) (rg : rng) (A B level : N) (i j : nat) (g : G rg) : option (result (G rg)) :=
  do ra <- points_in t i A level;
  do rb <- points_in t j B level;
  let checks := (2 * Z.of_nat (length ra) * Z.of_nat (length rb))%Z in
  let none := Some {| evs := [EBlock (map pid ra) (map pid rb) []]; type1 := 0; type2 := checks; gen := g |} in
  if is_zero (h_T t) || (length ra =? 0)%nat || (length rb =? 0)%nat then none else
  do (f1, f2) <- lookup_filters t i j level;
  do cb <- cellsBetween A B level;
  let F := if cb =? 1 then f1 else f2 in
  if Rltb (1 / 5) (f_max F) then hsampleTypeI t rg A B level i j g else
  let num_pairs := (length ra * length rb)%nat in
  if Rltb (INR num_pairs * f_max F) (1 / 1000000) then none else
  let (r0, g1) := geo rg (f_max F) g in
  do (hits, g2) <- hskip_loop (h_T t) (h_R t) F rg ra rb num_pairs r0 g1;
  Some {| evs := [EBlock (map pid ra) (map pid rb) hits]; type1 := 0; type2 := checks; gen := g2 |}.

Definition hrun_call (t : htree) (rg : rng) (x : call) (g : G rg) : option (result (G rg)) :=
  match x with
  | CallI A B l i j => hsampleTypeI t rg A B l i j g
  | CallII A B l i j => hsampleTypeII t rg A B l i j g
  end.
(** a sequence of calls with one generator *)
Fixpoint hrun_calls (t : htree) (rg : rng) (xs : list call) (g : G rg) : option (result (G rg)) :=
  match xs with
  | [] => Some {| evs := []; type1 := 0; type2 := 0; gen := g |}
  | x :: r => do r1 <- hrun_call t rg x g;
              do r2 <- hrun_calls t rg r (gen r1);
              Some {| evs := evs r1 ++ evs r2; type1 := type1 r1 + type1 r2; type2 := type2 r1 + type2 r2; gen := gen r2 |}
  end.

(** ** generate: HyperbolicTree.inl:55-145 *)
(** An engine with the operations of initialize_prngs: drawing a std::uint32_t and construction from a seed_seq. *)
Record hrng := { hb : rng; draw_u32 : G hb -> N * G hb; seed_seq : list N -> G hb }.
Fixpoint draws_u32 (hg : hrng) (n : nat) (g : G (hb hg)) : list N :=
  match n with O => [] | S n' => let (x, g') := draw_u32 hg g in x :: draws_u32 hg n' g' end.
(** HyperbolicTree.inl:446-471 initialize_prngs; state_size is 312 for mt19937_64 *)
Definition initialize_prngs (hg : hrng) (n : nat) (seed : Z) : list (G (hb hg)) :=
  let seeds := draws_u32 hg (n * 312) (rseed (hb hg) seed) in
  map (fun i => seed_seq hg (firstn 312 (skipn (i * 312) seeds))) (seq 0 n).

(** HyperbolicTree.inl:72 (log2 of an int, exact) *)
Definition hfirst_parallel_level (num_threads : nat) : option N :=
  do z <- double_to_int (IZR (Zceil (log2R (INR (2 * num_threads))))); if (z <? 0)%Z then None else Some (Z.to_N z).
(** HyperbolicTree.inl:74-76; shifting into the sign bit is undefined *)
Definition num_tasks (fpl : N) : option N :=
  if fpl =? 2 then Some 10 else
  if fpl =? 0 then None else
  let x := 2 * 2 ^ fpl + 3 * 2 ^ (fpl - 1) in
  if x <? 2 ^ 31 then Some x else None.

(** std::partition (HyperbolicTree.inl:109-110) leaves the order within both groups unspecified; an implementation is a function *)
Definition is_partition {T} (p : T -> bool) (f : list T -> list T) : Prop :=
  forall l, Permutation (f l) l /\ exists a b, f l = a ++ b /\ Forall (fun x => p x = true) a /\ Forall (fun x => p x = false) b.
Definition task_eq (ab : N * N) : bool := fst ab =? snd ab.

(** What one thread can be asked to run: its share of the first levels, or the i-th task.  Every unit has its own generator. *)
Inductive hunit := USample (tid : nat) | UTask (i : nat).

(** *** The threads of the parallel region (HyperbolicTree.inl:95-142) as a transition system with interleaved steps.
    Simplification: memory is sequentially consistent (the unlocked read of tasks_generated on line 127 is a data race in C++). *)
Inductive pc :=
| PStart      (* line 98 *)
| PRead       (* line 127: if (!tasks_generated), without the lock *)
| PLock       (* line 128 or inside cv.wait: acquiring the mutex *)
| PTest       (* line 129: testing the predicate while holding the mutex *)
| PSleep      (* line 129: asleep in cv.wait, mutex released *)
| PGenLock    (* line 116: generator acquires the mutex *)
| PGenSet     (* line 117: sets the flag and releases the mutex *)
| PNotify     (* line 119 *)
| PLoop       (* line 136 *)
| PDone.
Record thread := { t_pc : pc; t_units : list hunit (* executed so far *) }.
Record pstate := { ps_flag : bool; ps_mutex : option nat; ps_tasks : nat (* tasks.size() *); ps_next : nat; ps_threads : list thread }.
Definition wake (h : thread) : thread := match t_pc h with PSleep => {| t_pc := PLock; t_units := t_units h |} | _ => h end.

(** one step of thread [tid]; [num_threads] as on line 62; [has_tasks] = (first_parallel_level < m_levels); [ntasks] tasks would be created.
    [pstep tid s kind s']: kind is true for a spurious wakeup. *)
Definition goto (h : thread) (p : pc) (us : list hunit) : thread := {| t_pc := p; t_units := t_units h ++ us |}.
Inductive pstep (num_threads : nat) (has_tasks : bool) (ntasks : nat) : bool -> pstate -> pstate -> Prop :=
| st_gen s pre h post : ps_threads s = pre ++ h :: post -> t_pc h = PStart -> S (length pre) = num_threads -> has_tasks = true ->
    pstep num_threads has_tasks ntasks false s
      {| ps_flag := ps_flag s; ps_mutex := ps_mutex s; ps_tasks := ntasks; ps_next := ps_next s; ps_threads := pre ++ goto h PGenLock [] :: post |}
| st_nogen s pre h post : ps_threads s = pre ++ h :: post -> t_pc h = PStart -> S (length pre) = num_threads -> has_tasks = false ->
    pstep num_threads has_tasks ntasks false s
      {| ps_flag := ps_flag s; ps_mutex := ps_mutex s; ps_tasks := ps_tasks s; ps_next := ps_next s; ps_threads := pre ++ goto h PLoop [] :: post |}
| st_genlock s pre h post : ps_threads s = pre ++ h :: post -> t_pc h = PGenLock -> ps_mutex s = None ->
    pstep num_threads has_tasks ntasks false s
      {| ps_flag := ps_flag s; ps_mutex := Some (length pre); ps_tasks := ps_tasks s; ps_next := ps_next s; ps_threads := pre ++ goto h PGenSet [] :: post |}
| st_genset s pre h post : ps_threads s = pre ++ h :: post -> t_pc h = PGenSet ->
    pstep num_threads has_tasks ntasks false s
      {| ps_flag := true; ps_mutex := None; ps_tasks := ps_tasks s; ps_next := ps_next s; ps_threads := pre ++ goto h PNotify [] :: post |}
| st_notify s pre h post : ps_threads s = pre ++ h :: post -> t_pc h = PNotify ->
    pstep num_threads has_tasks ntasks false s
      {| ps_flag := ps_flag s; ps_mutex := ps_mutex s; ps_tasks := ps_tasks s; ps_next := ps_next s;
         ps_threads := map wake pre ++ goto h PLoop [] :: map wake post |}
| st_sample s pre h post : ps_threads s = pre ++ h :: post -> t_pc h = PStart -> (S (length pre) < num_threads)%nat ->
    pstep num_threads has_tasks ntasks false s
      {| ps_flag := ps_flag s; ps_mutex := ps_mutex s; ps_tasks := ps_tasks s; ps_next := ps_next s;
         ps_threads := pre ++ goto h PRead [USample (length pre)] :: post |}
| st_read s pre h post : ps_threads s = pre ++ h :: post -> t_pc h = PRead ->
    pstep num_threads has_tasks ntasks false s
      {| ps_flag := ps_flag s; ps_mutex := ps_mutex s; ps_tasks := ps_tasks s; ps_next := ps_next s;
         ps_threads := pre ++ goto h (if ps_flag s then PLoop else PLock) [] :: post |}
| st_lock s pre h post : ps_threads s = pre ++ h :: post -> t_pc h = PLock -> ps_mutex s = None ->
    pstep num_threads has_tasks ntasks false s
      {| ps_flag := ps_flag s; ps_mutex := Some (length pre); ps_tasks := ps_tasks s; ps_next := ps_next s;
         ps_threads := pre ++ goto h PTest [] :: post |}
| st_test s pre h post : ps_threads s = pre ++ h :: post -> t_pc h = PTest ->
    pstep num_threads has_tasks ntasks false s
      {| ps_flag := ps_flag s; ps_mutex := None; ps_tasks := ps_tasks s; ps_next := ps_next s;
         ps_threads := pre ++ goto h (if ps_flag s then PLoop else PSleep) [] :: post |}
| st_spurious s pre h post : ps_threads s = pre ++ h :: post -> t_pc h = PSleep ->
    pstep num_threads has_tasks ntasks true s
      {| ps_flag := ps_flag s; ps_mutex := ps_mutex s; ps_tasks := ps_tasks s; ps_next := ps_next s;
         ps_threads := pre ++ goto h PLock [] :: post |}
| st_fetch s pre h post : ps_threads s = pre ++ h :: post -> t_pc h = PLoop -> (ps_next s < ps_tasks s)%nat ->
    pstep num_threads has_tasks ntasks false s
      {| ps_flag := ps_flag s; ps_mutex := ps_mutex s; ps_tasks := ps_tasks s; ps_next := S (ps_next s);
         ps_threads := pre ++ goto h PLoop [UTask (ps_next s)] :: post |}
| st_exit s pre h post : ps_threads s = pre ++ h :: post -> t_pc h = PLoop -> (ps_tasks s <= ps_next s)%nat ->
    pstep num_threads has_tasks ntasks false s
      {| ps_flag := ps_flag s; ps_mutex := ps_mutex s; ps_tasks := ps_tasks s; ps_next := S (ps_next s);
         ps_threads := pre ++ goto h PDone [] :: post |}.
(** executions: number of steps, number of spurious wakeups among them *)
Inductive psteps (num_threads : nat) (has_tasks : bool) (ntasks : nat) : nat -> nat -> pstate -> pstate -> Prop :=
| psteps_refl s : psteps num_threads has_tasks ntasks 0 0 s s
| psteps_more k m b s s' s'' : psteps num_threads has_tasks ntasks k m s s' -> pstep num_threads has_tasks ntasks b s' s'' ->
    psteps num_threads has_tasks ntasks (S k) (if b then S m else m) s s''.
(** [team] threads enter the region (normally team = num_threads) *)
Definition pinit (team : nat) : pstate :=
  {| ps_flag := false; ps_mutex := None; ps_tasks := 0; ps_next := 0; ps_threads := repeat {| t_pc := PStart; t_units := [] |} team |}.
Definition pfinished (s : pstate) : Prop := Forall (fun h => t_pc h = PDone) (ps_threads s).

(** the result of running one unit with its own generator (HyperbolicTree.inl:124, 139-140) *)
Definition unit_result (ndebug : bool) (t : htree) (hg : hrng) (fpl : N) (num_threads : nat) (tasks : list (N * N))
  (gens : list (G (hb hg))) (u : hunit) : option (result (G (hb hg))) :=
  match u with
  | USample tid =>
      do (cs, _) <- hsample t fpl (num_threads - 1) (N.to_nat fpl) 0 0 0 tid;
      do g <- nth_error gens tid; hrun_calls t (hb hg) cs g
  | UTask i =>
      do ab <- nth_error tasks i;
      do cs <- hvisit ndebug t (N.to_nat (h_levels t)) (fst ab) (snd ab) fpl;
      do g <- nth_error gens (num_threads - 1 + i); hrun_calls t (hb hg) cs g
  end.
(** all the units a thread runs *)
Definition thread_results (ndebug : bool) (t : htree) (hg : hrng) (fpl : N) (num_threads : nat) (tasks : list (N * N))
  (gens : list (G (hb hg))) (h : thread) : option (list (result (G (hb hg)))) :=
  omap (unit_result ndebug t hg fpl num_threads tasks gens) (t_units h).

(** HyperbolicTree.inl:55-145.  [part] is std::partition; [team] the number of threads of the parallel region; [rs] lists, per thread,
    the results of the units it ran.  A run that never finishes (C39) has no outcome. *)
Definition generate_outcome (ndebug : bool) (part : list (N * N) -> list (N * N)) (t : htree) (hg : hrng) (seed : Z)
  (num_threads team : nat) (o : option (list (list (result (G (hb hg)))))) : Prop :=
  exists s, (0 <= seed -> s = seed)%Z /\ (* seed >= 0 ? seed : std::random_device{}() *)
  if (num_threads =? 1)%nat then
    o = (do cs <- hvisit ndebug t (N.to_nat (h_levels t)) 0 0 0;
         do r <- hrun_calls t (hb hg) cs (rseed (hb hg) s); Some [[r]])
  else
    match (do fpl <- hfirst_parallel_level num_threads; do nt <- num_tasks fpl; Some (fpl, nt)) with
    | None => o = None
    | Some (fpl, nt) =>
      let gens := initialize_prngs hg (num_threads - 1 + N.to_nat nt) s in
      match hcreate fpl (N.to_nat fpl) 0 0 0 with
      | None => o = None
      | Some created =>
        let tasks := part created in
        exists k m fin, psteps num_threads (fpl <? h_levels t) (length tasks) k m (pinit team) fin /\ pfinished fin /\
          o = omap (thread_results ndebug t hg fpl num_threads tasks gens) (ps_threads fin)
      end
    end.

(** ** hypergirgs::generateEdges, hypergirgs/source/Generator.cpp:133-171: the tree and the buffered collection (the text of the
    collection is that of girgs/source/Generator.cpp:76-98, modelled by [collect]) *)
Definition hrg_outcome (ndebug : bool) (part : list (N * N) -> list (N * N)) (hg : hrng) (radii angles : list R) (T Rd : R) (seed : Z)
  (omp_max team : nat) (o : option (list (nat * nat))) : Prop :=
  exists ot, htree_outcome radii angles T Rd omp_max ot /\
    match ot with
    | None => o = None
    | Some t =>
      exists ors, generate_outcome ndebug part t hg seed omp_max team ors /\
        match ors with
        | None => o = None
        | Some rss => collect (2 ^ 20) omp_max (map (fun rs => flat_map edges_of rs) rss) o
        end
    end.
