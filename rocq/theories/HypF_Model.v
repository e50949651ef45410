(** The hyperbolic generator over an arbitrary arithmetic: the same code as in Hyp_Model, but every operation on doubles is followed by a
    rounding function and the functions of <cmath> are parameters.  [exact_math] (no rounding, real functions) gives back Hyp_Model
    (HypF_Exact.v).  Not modelled: overflow to infinity and fused multiply-add (contraction of a * b + c by the compiler).
    Integer parts of the code do not depend on the arithmetic and are those of Hyp_Model. *)
From Coq Require Import Arith NArith ZArith List Bool Reals Permutation.
From Flocq Require Import Core.
From Verif Require Import Base Sched Coord_Model IntSort_Model Prefix_Model Tree_Model Girg_Model Hyp_Model.
Import ListNotations.
Local Open Scope N_scope.

(** rounding of +, -, *, / ; the constant PI of AngleHelper.h:11 ; the functions of <cmath> *)
Record hmath := {
  hr : R -> R; hpi : R;
  hcosh : R -> R; hsinh : R -> R; hcos : R -> R; hsin : R -> R; hacosh : R -> R; hexp : R -> R; hlog : R -> R }.
Definition exact_math : hmath :=
  {| hr := fun x => x; hpi := PI; hcosh := cosh; hsinh := sinh; hcos := cos; hsin := sin; hacosh := acosh; hexp := exp; hlog := ln |}.

Section Code.
  Variable M : hmath.
  Notation "# x" := (hr M x) (at level 2, right associativity).

  (** AngleHelper.h:29-31 cellForPoint: angle / 2 / PI * numCells *)
  Definition hcellForPointF (angle : R) (level : N) : option N :=
    do x <- numCells level; double_to_u32 (#(#(#(angle / 2) / hpi M) * IZR (Z.of_N x))).
  (** AngleHelper.cpp:23-25 dist: cellsBetween * 2.0*PI / (1<<level) *)
  Definition hdistF (A B level : N) : option R :=
    do k <- cellsBetween A B level; do side <- shl1_i32 level; Some (#(#(#(IZR (Z.of_N k) * 2) * hpi M) / IZR (Z.of_N side)))%R.
  (** Point.h:21-23 hyperbolicDistance *)
  Definition hyp_distanceF (r1 phi1 r2 phi2 : R) : R :=
    hacosh M (Rmax 1 (#(hcosh M #(r1 - r2) + #(#(#(1 - hcos M #(phi1 - phi2)) * hsinh M r1) * hsinh M r2)))).
  (** Point.h:27-42 the constructor; 1.0 / sinh(0) is infinite: [None] *)
  Definition mk_pointF (id : nat) (radius angle : R) (cell : N) : option hpoint :=
    if Req_EM_T radius 0 then None else
    Some {| pid := id; pcell := cell; invsinh_r := #(1 / hsinh M radius); coth_r := #(hcosh M radius / hsinh M radius);
            cos_phi := hcos M angle; sin_phi := hsin M angle |}.
  (** Point.h:47-51 isDistanceBelowR *)
  Definition isDistanceBelowRF (p q : hpoint) (coshR : R) : bool :=
    Rltb (#(#(coth_r p * coth_r q) - #(#(coshR * invsinh_r p) * invsinh_r q)))
         (#(#(cos_phi p * cos_phi q) + #(sin_phi p * sin_phi q))).
  (** Point.h:54-61 hyperbolicDistanceCosh *)
  Definition distanceCoshF (p q : hpoint) : R :=
    Rmax 1 (#(#(#(#(coth_r p * coth_r q) - #(cos_phi p * cos_phi q)) - #(sin_phi p * sin_phi q)) / #(invsinh_r p * invsinh_r q))).

  (** RadiusLayer.h:57-68 partitioningBaseLevel *)
  Fixpoint pbl_loopF (fuel : nat) (r1 r2 Rd : R) (level : N) (diameter : R) : option N :=
    if Rltb Rd (hyp_distanceF r1 0 r2 (#(diameter / 2))) then
      match fuel with O => None | S f => pbl_loopF f r1 r2 Rd (level + 1) (#(diameter / 2)) end
    else Some level.
  Definition pblF (r1 r2 Rd : R) : option N := pbl_loopF 64 r1 r2 Rd 0 (#(2 * hpi M)).

  (** RadiusLayer.cpp:48-52 *)
  Definition layer_rad_minF (Rd : R) (l : nat) : R := #(#(Rd - #(INR l * 1)) - 1).
  Definition radius_to_layerF (Rd r : R) : option N := double_to_u32 (#(#(Rd - r) / 1)).
  Definition num_layers0F (Rd : R) : option N := double_to_u32 (IZR (Zceil (#(Rd / 1)))).
  (** RadiusLayer.cpp:51, 55-62 *)
  Definition level_of_layerF (Rd : R) (m : nat) : option (list N) := omap (fun l => pblF (layer_rad_minF Rd l) (#(Rd - 1)) Rd) (seq 0 m).
  (** RadiusLayer.cpp:86-94 *)
  Definition hclassifyF (Rd : R) (levels firsts : list N) (x : nat * (R * R)) : option hpoint :=
    let '(i, (r, phi)) := x in
    do layer <- radius_to_layerF Rd r;
    do level <- nth_error levels (N.to_nat layer);
    do first <- nth_error firsts (N.to_nat layer);
    do c <- hcellForPointF phi level;
    mk_pointF i r phi (w32 (first + c)).

  (** DistanceFilter.h:31-40, 64-66: cosh(R + 2*T*log(1.0 / p - 1)) with p = max_connection_prob / stages * i *)
  Definition filter_stageF (F : dfilter) (i : Z) : option xreal :=
    if (i =? 0)%Z then Some XInf
    else if (i =? 100)%Z then Some (XFin 1)
    else if ((0 <? i) && (i <? 100))%Z then
      Some (XFin (hcosh M #(f_R F + #(#(2 * f_T F) * hlog M #(#(1 / #(#(f_max F / 100) * IZR i)) - 1))))%R)
    else None.
  (** DistanceFilter.h:29 stage_width(stages/max_prob), 44-56 *)
  Definition filter_upperF (F : dfilter) (prob : R) : option xreal :=
    do i <- double_to_int (#(#(100 / f_max F) * prob)); filter_stageF F i.
  Definition filter_lowerF (F : dfilter) (prob : R) : option xreal :=
    do i <- double_to_int (IZR (Zceil (#(#(100 / f_max F) * prob)))); filter_stageF F i.

  (** HyperbolicTree.inl:474-476; the members m_r_min are layer_rad_min(l), RadiusLayer.cpp:190-195 *)
  Definition h_baseF (t : htree) (i j : nat) : N :=
    match pblF (layer_rad_minF (h_R t) i) (layer_rad_minF (h_R t) j) (h_R t) with Some l => l | None => 0 end.
  (** HyperbolicTree.inl:25-28 *)
  Definition pairs_definedF (t : htree) : bool :=
    forallb (fun ij => match pblF (layer_rad_minF (h_R t) (fst ij)) (layer_rad_minF (h_R t) (snd ij)) (h_R t) with
                       | Some l => l <? h_levels t | None => false end)
            (list_prod (seq 0 (h_layers t)) (seq 0 (h_layers t))).
  Definition h_layer_pairsF (t : htree) (l : N) : list (nat * nat) :=
    filter (fun ij => h_baseF t (fst ij) (snd ij) =? l) (list_prod (seq 0 (h_layers t)) (seq 0 (h_layers t))).

  (** HyperbolicTree.inl:479-481: 1.0 + exp(0.5/m_T*(dist-m_R)) *)
  Definition connectionProbRecF (T Rd dist : R) : R := #(1 + hexp M #(#(1 / 2 / T) * #(dist - Rd))).
  (** HyperbolicTree.inl:40-49 *)
  Definition typeII_filtersF (T Rd : R) (i j : nat) (l : N) : option (dfilter * dfilter) :=
    do first <- firstCell l;
    let mk k := (do d <- hdistF first (first + k) l;
                 Some {| f_max := #(1 / connectionProbRecF T Rd (hyp_distanceF (layer_rad_minF Rd i) 0 (layer_rad_minF Rd j) d)); f_R := Rd; f_T := T |}) in
    do f1 <- mk 2; do f2 <- mk 3; Some (f1, f2).
  (** HyperbolicTree.inl:31-52 *)
  Definition filters_definedF (t : htree) : bool :=
    if Req_EM_T (h_T t) 0 then true else
    forallb (fun ij => forallb (fun l => match typeII_filtersF (h_T t) (h_R t) (fst ij) (snd ij) l with Some _ => true | None => false end)
                               (Nrange 2 (h_baseF t (fst ij) (snd ij))))
            (list_prod (seq 0 (h_layers t)) (seq 0 (h_layers t))).
  (** HyperbolicTree.inl:359 *)
  Definition lookup_filtersF (t : htree) (i j : nat) (level : N) : option (dfilter * dfilter) :=
    if (2 <=? level) && (level <=? h_baseF t i j) then typeII_filtersF (h_T t) (h_R t) i j level else None.

  (** HyperbolicTree.inl:5-53 with RadiusLayer.cpp:37-198; as [htree_outcome] of Hyp_Model *)
  Definition htree_outcomeF (radii angles : list R) (T Rd : R) (omp_max : nat) (o : option htree) : Prop :=
    match (if (length angles <? length radii)%nat then None else
           do m <- num_layers0F Rd;
           do levels <- level_of_layerF Rd (N.to_nat m);
           do (firsts, Mx) <- hfirst_cells levels;
           do l0 <- nth_error levels 0;
           do points <- omap (hclassifyF Rd levels firsts) (combine (seq 0 (length radii)) (combine radii angles));
           Some (levels, firsts, Mx, points)) with
    | None => o = None
    | Some (levels, firsts, Mx, points) =>
        exists buf so, length buf = length points /\
          intsort_outcome 8 pcell (w32 (Mx + 1)) omp_max points buf so /\
          match so with
          | None => o = None
          | Some sorted =>
            match (do p0 <- nth_error sorted 0; prune firsts (pcell p0)) with
            | None => o = None
            | Some k =>
              exists t1 t2 io, (1 <= t1 <= omp_max)%nat /\ (1 <= t2 <= omp_max)%nat /\
                index_outcome (map (fun p => N.to_nat (pcell p)) sorted) (N.to_nat Mx) t1 t2 io /\
                o = (do arr <- io;
                     let t := {| h_R := Rd; h_T := T; h_layers := k; h_level := levels; h_first := firsts; h_points := sorted; h_index := arr |} in
                     if pairs_definedF t && filters_definedF t then Some t else None)
            end
          end
    end.

  (** HyperbolicTree.inl:156-158 (and 230-233) *)
  Definition hfar_callsF (t : htree) (A B level : N) : list call :=
    flat_map (fun l => map (fun ij => CallII A B level (fst ij) (snd ij)) (h_layer_pairsF t l)) (Nrange level (h_levels t - 1)).
  (** HyperbolicTree.inl:165-168 (and 241-245) *)
  Definition hnear_callsF (t : htree) (A B level : N) : list call :=
    flat_map (fun ij => if negb (A =? B) || (fst ij <=? snd ij)%nat then [CallI A B level (fst ij) (snd ij)] else []) (h_layer_pairsF t level).
  (** HyperbolicTree.inl:148-183 visitCellPair *)
  Fixpoint hvisitF (ndebug : bool) (t : htree) (fuel : nat) (A B level : N) : option (list call) :=
    do tch <- htouching A B level;
    if negb tch then Some (if ndebug && is_zero (h_T t) then [] else hfar_callsF t A B level)
    else if level =? h_levels t - 1 then Some (hnear_callsF t A B level)
    else match fuel with
         | O => None
         | S f => do rs <- omap (fun ab => hvisitF ndebug t f (fst ab) (snd ab) (level + 1)) (hchild_pairs A B);
                  Some (hnear_callsF t A B level ++ concat rs)
         end.
  (** HyperbolicTree.inl:215-264 visitCellPairSample *)
  Fixpoint hsampleF (t : htree) (fpl : N) (num_threads : nat) (fuel : nat) (A B level : N) (shift : nat) : option (list call * nat) :=
    do tch <- htouching A B level;
    if negb tch then Some (my_calls num_threads shift (hfar_callsF t A B level))
    else
      let (cs, s1) := my_calls num_threads shift (hnear_callsF t A B level) in
      if level =? h_levels t - 1 then Some (cs, s1)
      else if level + 1 =? fpl then Some (cs, s1)
      else match fuel with
           | O => None
           | S f =>
             do (rs, s2) <- (fix children (abs : list (N * N)) (s : nat) : option (list call * nat) :=
                               match abs with
                               | [] => Some ([], s)
                               | ab :: r => do (c1, s') <- hsampleF t fpl num_threads f (fst ab) (snd ab) (level + 1) s;
                                            do (c2, s'') <- children r s';
                                            Some (c1 ++ c2, s'')
                               end) (hchild_pairs A B) s1;
             Some (cs ++ rs, s2)
           end.

  (** HyperbolicTree.inl:321-339 and 419-441 *)
  Definition filter_decideF (F : dfilter) (T Rd : R) (p q : hpoint) (x : R) : option bool :=
    let c := distanceCoshF p q in
    do up <- filter_upperF F x;
    if (match up with XInf => false | XFin y => Rltb y c end) then Some false else
    do low <- filter_lowerF F x;
    if xlt c low then Some true else
    Some (Rltb (#(x * connectionProbRecF T Rd (hacosh M c))) 1).
  (** HyperbolicTree.inl:295-342; m_coshR(std::cosh(R)) is line 10 *)
  Fixpoint hdecideIF (t : htree) (rg : rng) (ps : list (hpoint * hpoint)) (g : G rg) : option (list event * G rg) :=
    match ps with
    | [] => Some ([], g)
    | (a, b) :: r =>
      do (hit, g1) <- (if threshold_mode (h_T t) then Some (isDistanceBelowRF a b (hcosh M (h_R t)), g)
                       else let (x, g') := u01 rg g in
                            do h <- filter_decideF (typeI_filter t) (h_T t) (h_R t) a b x; Some (h, g'));
      do (es, g2) <- hdecideIF t rg r g1;
      Some (EPair (pid a) (pid b) hit :: es, g2)
    end.
  (** HyperbolicTree.inl:267-343 sampleTypeI *)
  Definition hsampleTypeIF (t : htree) (rg : rng) (A B level : N) (i j : nat) (g : G rg) : option (result (G rg)) :=
    do ra <- points_in t i A level;
    do rb <- points_in t j B level;
    match ra, rb with
    | [], _ | _, [] => Some {| evs := []; type1 := 0; type2 := 0; gen := g |}
    | _, _ =>
      let same := (A =? B) && (i =? j)%nat in
      do (es, g') <- hdecideIF t rg (pairsI same 0 ra rb) g;
      let a := Z.of_nat (length ra) in let b := Z.of_nat (length rb) in
      Some {| evs := es; type1 := (if same then a * (a - 1) else a * b * 2)%Z; type2 := 0; gen := g' |}
    end.
  (** HyperbolicTree.inl:400-442 *)
  Fixpoint hskip_loopF (T Rd : R) (F : dfilter) (rg : rng) (ra rb : list hpoint) (fuel : nat) (r : N) (g : G rg)
    : option (list (nat * nat) * G rg) :=
    if (N.of_nat (length ra * length rb) <=? r) then Some ([], g) else
    match fuel with
    | O => None
    | S f =>
      do a <- nth_error ra (N.to_nat (r mod N.of_nat (length ra)));
      do b <- nth_error rb (N.to_nat (r / N.of_nat (length ra)));
      let (x, g1) := uni0 rg (f_max F) g in
      do hit <- filter_decideF F T Rd a b x;
      let (k, g2) := geo rg (f_max F) g1 in
      do (hits, g3) <- hskip_loopF T Rd F rg ra rb f (w64 (r + w64 (1 + k))) g2;
      Some ((if hit then [(pid a, pid b)] else []) ++ hits, g3)
    end.
  (** HyperbolicTree.inl:345-443 sampleTypeII; the constants 0.2 and 1e-6 and the conversion of num_pairs are rounded too *)
  Definition hsampleTypeIIF (t : htree) (rg : rng) (A B level : N) (i j : nat) (g : G rg) : option (result (G rg)) :=
    do ra <- points_in t i A level;
    do rb <- points_in t j B level;
    let checks := (2 * Z.of_nat (length ra) * Z.of_nat (length rb))%Z in
    let none := Some {| evs := [EBlock (map pid ra) (map pid rb) []]; type1 := 0; type2 := checks; gen := g |} in
    if is_zero (h_T t) || (length ra =? 0)%nat || (length rb =? 0)%nat then none else
    do (f1, f2) <- lookup_filtersF t i j level;
    do cb <- cellsBetween A B level;
    let F := if cb =? 1 then f1 else f2 in
    if Rltb (#(1 / 5)) (f_max F) then hsampleTypeIF t rg A B level i j g else
    let num_pairs := (length ra * length rb)%nat in
    if Rltb (#(#(INR num_pairs) * f_max F)) (#(1 / 1000000)) then none else
    let (r0, g1) := geo rg (f_max F) g in
    do (hits, g2) <- hskip_loopF (h_T t) (h_R t) F rg ra rb num_pairs r0 g1;
    Some {| evs := [EBlock (map pid ra) (map pid rb) hits]; type1 := 0; type2 := checks; gen := g2 |}.
  Definition hrun_callF (t : htree) (rg : rng) (x : call) (g : G rg) : option (result (G rg)) :=
    match x with
    | CallI A B l i j => hsampleTypeIF t rg A B l i j g
    | CallII A B l i j => hsampleTypeIIF t rg A B l i j g
    end.
  (** a sequence of calls with one generator *)
  Fixpoint hrun_callsF (t : htree) (rg : rng) (xs : list call) (g : G rg) : option (result (G rg)) :=
    match xs with
    | [] => Some {| evs := []; type1 := 0; type2 := 0; gen := g |}
    | x :: r => do r1 <- hrun_callF t rg x g;
                do r2 <- hrun_callsF t rg r (gen r1);
                Some {| evs := evs r1 ++ evs r2; type1 := type1 r1 + type1 r2; type2 := type2 r1 + type2 r2; gen := gen r2 |}
    end.

  (** HyperbolicTree.inl:124, 139-140 *)
  Definition unit_resultF (ndebug : bool) (t : htree) (hg : hrng) (fpl : N) (num_threads : nat) (tasks : list (N * N))
    (gens : list (G (hb hg))) (u : hunit) : option (result (G (hb hg))) :=
    match u with
    | USample tid =>
        do (cs, _) <- hsampleF t fpl (num_threads - 1) (N.to_nat fpl) 0 0 0 tid;
        do g <- nth_error gens tid; hrun_callsF t (hb hg) cs g
    | UTask i =>
        do ab <- nth_error tasks i;
        do cs <- hvisitF ndebug t (N.to_nat (h_levels t)) (fst ab) (snd ab) fpl;
        do g <- nth_error gens (num_threads - 1 + i); hrun_callsF t (hb hg) cs g
    end.
  Definition thread_resultsF (ndebug : bool) (t : htree) (hg : hrng) (fpl : N) (num_threads : nat) (tasks : list (N * N))
    (gens : list (G (hb hg))) (h : thread) : option (list (result (G (hb hg)))) :=
    omap (unit_resultF ndebug t hg fpl num_threads tasks gens) (t_units h).
  (** HyperbolicTree.inl:55-145 *)
  Definition generate_outcomeF (ndebug : bool) (part : list (N * N) -> list (N * N)) (t : htree) (hg : hrng) (seed : Z)
    (num_threads team : nat) (o : option (list (list (result (G (hb hg)))))) : Prop :=
    exists s, (0 <= seed -> s = seed)%Z /\
    if (num_threads =? 1)%nat then
      o = (do cs <- hvisitF ndebug t (N.to_nat (h_levels t)) 0 0 0;
           do r <- hrun_callsF t (hb hg) cs (rseed (hb hg) s); Some [[r]])
    else
      match (do fpl <- hfirst_parallel_level num_threads; do nt <- num_tasks fpl; Some (fpl, nt)) with
      | None => o = None
      | Some (fpl, nt) =>
        let gens := initialize_prngs hg (num_threads - 1 + N.to_nat nt) s in
        match hcreate fpl (N.to_nat fpl) 0 0 0 with
        | None => o = None
        | Some created =>
          let tasks := part created in
          exists k m fin, psteps num_threads (fpl <? h_levels t) (length tasks) k m (pinit team) fin /\ pfinished fin /\
            o = omap (thread_resultsF ndebug t hg fpl num_threads tasks gens) (ps_threads fin)
        end
      end.
  (** hypergirgs/source/Generator.cpp:133-171 *)
  Definition hrg_outcomeF (ndebug : bool) (part : list (N * N) -> list (N * N)) (hg : hrng) (radii angles : list R) (T Rd : R) (seed : Z)
    (omp_max team : nat) (o : option (list (nat * nat))) : Prop :=
    exists ot, htree_outcomeF radii angles T Rd omp_max ot /\
      match ot with
      | None => o = None
      | Some t =>
        exists ors, generate_outcomeF ndebug part t hg seed omp_max team ors /\
          match ors with
          | None => o = None
          | Some rss => collect (2 ^ 20) omp_max (map (fun rs => flat_map edges_of rs) rss) o
          end
      end.
End Code.
