(** Model of a debug build (NDEBUG not defined) of the hyperbolic generator: the program of Hyp_Model with every assert().
    [None] = undefined behaviour or a failed assertion.  Points of a debug build also store radius and angle (Point.h:35-36, 74-77);
    here these two members are looked up in the input by the point's id, which is what the constructor stores (RadiusLayer.cpp:94). *)
From Coq Require Import Arith NArith ZArith List Bool Reals.
From Flocq Require Import Core.
From Verif Require Import Base Sched Coord_Model IntSort_Model Prefix_Model Tree_Model Girg_Model Hyp_Model Dbg_Base.
Import ListNotations.
Local Open Scope N_scope.

Section Debug.
  Variables (radii angles : list R).
  (** Point.h:75-76 *)
  Definition p_radius (p : hpoint) : option R := nth_error radii (pid p).
  Definition p_angle (p : hpoint) : option R := nth_error angles (pid p).

  (** ** RadiusLayer.cpp:42-43, 60, 87-88, 106, 168-182, RadiusLayer.h:58, Point.h:39-41: the assertions of buildPartition.
      All of them can be evaluated on the finished structure; as both a failed assertion and undefined behaviour are [None],
      the place where an assertion is evaluated does not matter.  ids are indices, hence not negative (Point.h:41). *)
  Definition input_asserts (Rd : R) : bool :=
    (length radii =? length angles)%nat && Rleb 1 Rd &&
    forallb (fun r => Rleb 0 r && Rltb r Rd) radii &&
    forallb (fun phi => Rleb 0 phi && Rltb phi (2 * PI)) angles.
  (** RadiusLayer.cpp:57-61 *)
  Definition level_asserts (t : htree) : bool :=
    forallb (fun l => Rltb (layer_rad_min (h_R t) l) (h_R t) && Rltb (h_R t - 1) (h_R t)) (seq 0 (length (h_level t))) &&
    is_sorted (rev (h_level t)).
  (** RadiusLayer.cpp:106 and 166-184; max_cell_id is the last index of first_in_cell *)
  Definition index_asserts (t : htree) : bool :=
    let M := (length (h_index t) - 1)%nat in
    ilog2_asserts (w32 (N.of_nat M + 1)) (* IntSort.h:35-36, max_key of RadiusLayer.cpp:103 *) &&
    is_sorted (map pcell (h_points t)) &&
    (match nth_error (h_points t) (length (h_points t) - 1) with Some p => pcell p <? N.of_nat M | None => false end) &&
    (match nth_error (h_index t) 0 with Some x => x =? 0 | None => false end) &&
    (match nth_error (h_index t) M with Some x => x =? N.of_nat (length radii) | None => false end) &&
    is_sorted (h_index t) &&
    forallb (fun cid => match nth_error (h_index t) cid, nth_error (h_index t) (S cid) with
                        | Some b, Some e => match slice (h_points t) (N.to_nat b) (N.to_nat e) with
                                            | Some ps => forallb (fun p => pcell p =? N.of_nat cid) ps
                                            | None => false end
                        | _, _ => false end) (seq 0 M).
  (** RadiusLayer.cpp:21-34, the constructor of layer [l] *)
  Definition layer_asserts (t : htree) (l : nat) : bool :=
    match (do first <- nth_error (h_first t) l; do level <- nth_error (h_level t) l; do cells <- numCells level;
           do b <- nth_error (h_index t) (N.to_nat first); do e <- nth_error (h_index t) (N.to_nat (first + cells));
           slice (h_points t) (N.to_nat b) (N.to_nat e)) with
    | None => false
    | Some ps => forallb (fun p => match p_radius p with
                                   | Some r => Rleb (layer_rad_min (h_R t) l) r && Rleb r (layer_rad_max (h_R t) l)
                                   | None => false end) ps
    end.
  (** RadiusLayer.h:58 for the calls of HyperbolicTree.inl:25-28 and 37 *)
  Definition pair_level_asserts (t : htree) : bool :=
    forallb (fun l => Rltb (layer_rad_min (h_R t) l) (h_R t)) (seq 0 (h_layers t)).
  (** HyperbolicTree.inl:5-53 in a debug build *)
  Definition htree_debug (T Rd : R) (omp_max : nat) (o : option htree) : Prop :=
    exists ot, htree_outcome radii angles T Rd omp_max ot /\
      o = (do _ <- dassert (input_asserts Rd);
           do t <- ot;
           do _ <- dassert (level_asserts t && index_asserts t && forallb (layer_asserts t) (seq 0 (h_layers t)) && pair_level_asserts t);
           Some t).

  (** ** RadiusLayer.h:26-46, 72-87 *)
  (** RadiusLayer.h:73-74, 84 *)
  Definition dlevelledCell (target cell level : N) : option (N * N) :=
    do _ <- dassert (level <=? target);
    do f <- firstCell level; do f1 <- firstCell (level + 1);
    do _ <- dassert ((f <=? cell) && (cell <? f1));
    do (b, e) <- hlevelledCell target cell level;
    do _ <- dassert (b <=? e);
    Some (b, e).
  (** RadiusLayer.h:39-46 with line 44; the queries below start with the same look-up *)
  Definition dcellIterators (t : htree) (i : nat) (cell level : N) : option (nat * nat) :=
    do target <- nth_error (h_level t) i;
    do _ <- dlevelledCell target cell level;
    do (b, e) <- hcellIterators t i cell level;
    do _ <- dassert (b <=? e)%nat;
    Some (b, e).
  (** the points between the two iterators *)
  Definition dpoints_in (t : htree) (i : nat) (cell level : N) : option (list hpoint) :=
    do (b, e) <- dcellIterators t i cell level; slice (h_points t) b e.
  (** RadiusLayer.h:26-32 with lines 28-29 *)
  Definition dpointsInCell (t : htree) (i : nat) (cell level : N) : option Z :=
    do target <- nth_error (h_level t) i;
    do (b, e) <- dlevelledCell target cell level;
    do f <- firstCell level; do f1 <- firstCell (target + 1);
    do _ <- dassert (w32 (b + f) <? f1); do _ <- dassert (w32 (e + f) <? f1);
    hpointsInCell t i cell level.
  (** RadiusLayer.h:34-37 *)
  Definition dkthPoint (t : htree) (i : nat) (cell level : N) (k : nat) : option hpoint :=
    do target <- nth_error (h_level t) i;
    do _ <- dlevelledCell target cell level;
    hkthPoint t i cell level k.

  (** ** the decision for a draw [x]: HyperbolicTree.inl:321-339, 419-441 with 325, 331, 427, 433 and DistanceFilter.h:45, 53 *)
  Definition dfilter_decide (F : dfilter) (T Rd : R) (p q : hpoint) (x : R) : option bool :=
    let c := distanceCosh p q in
    do _ <- dassert (Rltb x (f_max F));
    do up <- filter_upper F x;
    if (match up with XInf => false | XFin y => Rltb y c end) then
      do _ <- dassert (Rleb 1 (x * connectionProbRec T Rd (acosh c))); Some false else
    do _ <- dassert (Rltb x (f_max F));
    do low <- filter_lower F x;
    if xlt c low then
      do _ <- dassert (Rltb (x * connectionProbRec T Rd (acosh c)) 1); Some true else
    Some (Rltb (x * connectionProbRec T Rd (acosh c)) 1).

  (** HyperbolicTree.inl:306-311 and 409-414: the point is in its cell and in its layer *)
  Definition place_asserts (t : htree) (i : nat) (cell level : N) (p : hpoint) : option unit :=
    do r <- p_radius p; do phi <- p_angle p;
    do f <- firstCell level; do c <- hcellForPoint phi level;
    do _ <- dassert (w32 (cell + 2 ^ 32 - f) =? c);
    dassert (Rltb (layer_rad_min (h_R t) i) r && Rleb r (layer_rad_max (h_R t) i)).
  (** HyperbolicTree.inl:302-316 and Point.h:48: one pair of sampleTypeI, with the positions of both points in their ranges *)
  Definition dpairI (t : htree) (A B level : N) (i j : nat) (ka : nat) (a : hpoint) (kb : nat) (b : hpoint) : option unit :=
    do pa <- dkthPoint t i A level ka; do _ <- dassert (pid a =? pid pa)%nat;
    do pb <- dkthPoint t j B level kb; do _ <- dassert (pid b =? pid pb)%nat;
    do _ <- place_asserts t i A level a; do _ <- place_asserts t j B level b;
    dassert (negb (pid a =? pid b)%nat).
  Fixpoint ddecideI (t : htree) (rg : rng) (A B level : N) (i j : nat) (ps : list ((nat * hpoint) * (nat * hpoint))) (g : G rg)
    : option (list event * G rg) :=
    match ps with
    | [] => Some ([], g)
    | ((ka, a), (kb, b)) :: r =>
      do _ <- dpairI t A B level i j ka a kb b;
      do (hit, g1) <- (if threshold_mode (h_T t) then
                         do _ <- dassert (Rltb (1 / invsinh_r a) (cosh (h_R t)));
                         let hit := isDistanceBelowR a b (cosh (h_R t)) in
                         do ra <- p_radius a; do pa <- p_angle a; do rb <- p_radius b; do pb <- p_angle b;
                         do _ <- dassert (negb hit || Rltb (hyp_distance ra pa rb pb) (h_R t));
                         Some (hit, g)
                       else let (x, g') := u01 rg g in
                            do h <- dfilter_decide (typeI_filter t) (h_T t) (h_R t) a b x; Some (h, g'));
      do (es, g2) <- ddecideI t rg A B level i j r g1;
      Some (EPair (pid a) (pid b) hit :: es, g2)
    end.
  Definition numbered (l : list hpoint) : list (nat * hpoint) := combine (seq 0 (length l)) l.
  (** HyperbolicTree.inl:267-343 sampleTypeI *)
  Definition dsampleTypeI (t : htree) (rg : rng) (A B level : N) (i j : nat) (g : G rg) : option (result (G rg)) :=
    do ra <- dpoints_in t i A level;
    do rb <- dpoints_in t j B level;
    match ra, rb with
    | [], _ | _, [] => Some {| evs := []; type1 := 0; type2 := 0; gen := g |}
    | _, _ =>
      let same := (A =? B) && (i =? j)%nat in
      do (es, g') <- ddecideI t rg A B level i j (pairsI same 0 (numbered ra) (numbered rb)) g;
      let a := Z.of_nat (length ra) in let b := Z.of_nat (length rb) in
      Some {| evs := es; type1 := (if same then a * (a - 1) else a * b * 2)%Z; type2 := 0; gen := g' |}
    end.

  (** HyperbolicTree.inl:409-423: the assertions about one sampled pair *)
  Definition dpairII (t : htree) (A B level : N) (i j : nat) (angle_bound dist_bound : R) (a b : hpoint) : option unit :=
    do _ <- place_asserts t i A level a; do _ <- place_asserts t j B level b;
    do pa <- p_angle a; do pb <- p_angle b;
    do _ <- dassert (Rleb angle_bound (Rabs (pa - pb)) && Rleb angle_bound (Rabs (pb - pa)));
    do _ <- dassert (Rleb dist_bound (acosh (distanceCosh a b)));
    dassert (Rltb (h_R t) (acosh (distanceCosh a b))).
  (** HyperbolicTree.inl:400-442 *)
  Fixpoint dskip_loop (t : htree) (F : dfilter) (A B level : N) (i j : nat) (angle_bound dist_bound : R) (rg : rng) (ra rb : list hpoint)
    (fuel : nat) (r : N) (g : G rg) : option (list (nat * nat) * G rg) :=
    if (N.of_nat (length ra * length rb) <=? r) then Some ([], g) else
    match fuel with
    | O => None
    | S f =>
      do a <- nth_error ra (N.to_nat (r mod N.of_nat (length ra)));
      do b <- nth_error rb (N.to_nat (r / N.of_nat (length ra)));
      do _ <- dpairII t A B level i j angle_bound dist_bound a b;
      let (x, g1) := uni0 rg (f_max F) g in
      do hit <- dfilter_decide F (h_T t) (h_R t) a b x;
      let (k, g2) := geo rg (f_max F) g1 in
      do (hits, g3) <- dskip_loop t F A B level i j angle_bound dist_bound rg ra rb f (w64 (r + w64 (1 + k))) g2;
      Some ((if hit then [(pid a, pid b)] else []) ++ hits, g3)
    end.
  (** HyperbolicTree.inl:345-443 sampleTypeII with 360, 374-382 *)
  Definition dsampleTypeII (t : htree) (rg : rng) (A B level : N) (i j : nat) (g : G rg) : option (result (G rg)) :=
    do na <- dpointsInCell t i A level;
    do nb <- dpointsInCell t j B level;
    do ra <- points_in t i A level;
    do rb <- points_in t j B level;
    let checks := (2 * Z.of_nat (length ra) * Z.of_nat (length rb))%Z in
    let none := Some {| evs := [EBlock (map pid ra) (map pid rb) []]; type1 := 0; type2 := checks; gen := g |} in
    if is_zero (h_T t) || (na =? 0)%Z || (nb =? 0)%Z then none else
    do (f1, f2) <- lookup_filters t i j level;
    do cb <- cellsBetween A B level;
    do _ <- dassert ((cb =? 1) || (cb =? 2));
    let F := if cb =? 1 then f1 else f2 in
    if Rltb (1 / 5) (f_max F) then dsampleTypeI t rg A B level i j g else
    do angle_bound <- hdist A B level;
    let dist_bound := hyp_distance (layer_rad_min (h_R t) i) 0 (layer_rad_min (h_R t) j) angle_bound in
    do _ <- dassert (if Req_EM_T (f_max F) (1 / connectionProbRec (h_T t) (h_R t) dist_bound) then true else false);
    let num_pairs := (length ra * length rb)%nat in
    if Rltb (INR num_pairs * f_max F) (1 / 1000000) then none else
    do _ <- dkthPoint t i A level 0; do _ <- dkthPoint t j B level 0;
    let (r0, g1) := geo rg (f_max F) g in
    do (hits, g2) <- dskip_loop t F A B level i j angle_bound dist_bound rg ra rb num_pairs r0 g1;
    Some {| evs := [EBlock (map pid ra) (map pid rb) hits]; type1 := 0; type2 := checks; gen := g2 |}.

  (** a call of sampleTypeI or sampleTypeII, and a sequence of calls (as in Hyp_Model) *)
  Definition drun_call (t : htree) (rg : rng) (x : call) (g : G rg) : option (result (G rg)) :=
    match x with
    | CallI A B l i j => dsampleTypeI t rg A B l i j g
    | CallII A B l i j => dsampleTypeII t rg A B l i j g
    end.
  Fixpoint drun_calls (t : htree) (rg : rng) (xs : list call) (g : G rg) : option (result (G rg)) :=
    match xs with
    | [] => Some {| evs := []; type1 := 0; type2 := 0; gen := g |}
    | x :: r => do r1 <- drun_call t rg x g;
                do r2 <- drun_calls t rg r (gen r1);
                Some {| evs := evs r1 ++ evs r2; type1 := type1 r1 + type1 r2; type2 := type2 r1 + type2 r2; gen := gen r2 |}
    end.

  (** ** generate: HyperbolicTree.inl:55-145 with 66, 73, 112, 144 *)
  Definition dunit_result (t : htree) (hg : hrng) (fpl : N) (num_threads : nat) (tasks : list (N * N))
    (gens : list (G (hb hg))) (u : hunit) : option (result (G (hb hg))) :=
    match u with
    | USample tid =>
        do (cs, _) <- hsample t fpl (num_threads - 1) (N.to_nat fpl) 0 0 0 tid;
        do g <- nth_error gens tid; drun_calls t (hb hg) cs g
    | UTask i =>
        do ab <- nth_error tasks i;
        do cs <- hvisit false t (N.to_nat (h_levels t)) (fst ab) (snd ab) fpl;
        do g <- nth_error gens (num_threads - 1 + i); drun_calls t (hb hg) cs g
    end.
  Definition dthread_results (t : htree) (hg : hrng) (fpl : N) (num_threads : nat) (tasks : list (N * N))
    (gens : list (G (hb hg))) (h : thread) : option (list (result (G (hb hg)))) :=
    omap (dunit_result t hg fpl num_threads tasks gens) (t_units h).
  (** HyperbolicTree.inl:66, 144 *)
  Definition total_assert {X} (rss : list (list (result X))) : option unit :=
    dassert (fold_right Z.add 0%Z (map (fun r => (type1 r + type2 r)%Z) (concat rss)) =? (Z.of_nat (length radii) - 1) * Z.of_nat (length radii))%Z.
  (** HyperbolicTree.inl:55-145; the assertion of line 112 is evaluated by the thread that fills the queue *)
  Definition generate_debug (part : list (N * N) -> list (N * N)) (t : htree) (hg : hrng) (seed : Z)
    (num_threads team : nat) (o : option (list (list (result (G (hb hg)))))) : Prop :=
    exists s, (0 <= seed -> s = seed)%Z /\
    if (num_threads =? 1)%nat then
      o = (do cs <- hvisit false t (N.to_nat (h_levels t)) 0 0 0;
           do r <- drun_calls t (hb hg) cs (rseed (hb hg) s);
           do _ <- total_assert [[r]]; Some [[r]])
    else
      match (do fpl <- hfirst_parallel_level num_threads; do _ <- dassert (2 <=? fpl); do nt <- num_tasks fpl; Some (fpl, nt)) with
      | None => o = None
      | Some (fpl, nt) =>
        let gens := initialize_prngs hg (num_threads - 1 + N.to_nat nt) s in
        match hcreate fpl (N.to_nat fpl) 0 0 0 with
        | None => o = None
        | Some created =>
          let tasks := part created in
          exists k m fin, psteps num_threads (fpl <? h_levels t) (length tasks) k m (pinit team) fin /\ pfinished fin /\
            o = (do _ <- dassert (negb (fpl <? h_levels t) || (nt =? N.of_nat (length tasks)));
                 do rss <- omap (dthread_results t hg fpl num_threads tasks gens) (ps_threads fin);
                 do _ <- total_assert rss; Some rss)
        end
      end.

  (** ** hypergirgs::generateEdges of a debug build (hypergirgs/source/Generator.cpp:133-171) *)
  Definition hrg_debug (part : list (N * N) -> list (N * N)) (hg : hrng) (T Rd : R) (seed : Z) (omp_max team : nat)
    (o : option (list (nat * nat))) : Prop :=
    exists ot, htree_debug T Rd omp_max ot /\
      match ot with
      | None => o = None
      | Some t =>
        exists ors, generate_debug part t hg seed omp_max team ors /\
          match ors with
          | None => o = None
          | Some rss => collect (2 ^ 20) omp_max (map (fun rs => flat_map edges_of rs) rss) o
          end
      end.
End Debug.
