(** How much work the recursion of SpatialTree does: the same functions as in Tree_Model.v, recording the invocations of
    visitCellPair / visitCellPair_sequentialStart and their loop iterations instead of the sampling calls they make. *)
From Coq Require Import Arith NArith ZArith List Bool Reals.
From Verif Require Import Base Sched Coord_Model Tree_Model.
Import ListNotations.
Local Open Scope N_scope.

(** an invocation visitCellPair(A, B, l) *)
Definition vis := (N * N * N)%type.

(** SpatialTree.inl:85-115 visitCellPair: the invocations made by visitCellPair(A, B, level), itself included, in program order *)
Fixpoint visits (cfg : config) (D : N) (P : tparams) (fuel : nat) (A B level : N) : option (list vis) :=
  do t <- touching cfg D A B level;
  if negb t then Some [(A, B, level)]
  else if level =? p_levels P - 1 then Some [(A, B, level)]
  else match fuel with
       | O => None
       | S f => do rs <- omap (fun ab => visits cfg D P f (fst ab) (snd ab) (level + 1)) (child_pairs D A B);
                Some ((A, B, level) :: concat rs)
       end.
(** SpatialTree.inl:119-155 visitCellPair_sequentialStart: the invocations and the pairs pushed to parallel_calls *)
Fixpoint seq_visits (cfg : config) (D : N) (P : tparams) (fpl : N) (fuel : nat) (A B level : N) : option (list vis * list (N * N)) :=
  do t <- touching cfg D A B level;
  if negb t then Some ([(A, B, level)], [])
  else if level =? p_levels P - 1 then Some ([(A, B, level)], [])
  else match fuel with
       | O => None
       | S f => do rs <- omap (fun ab => if level + 1 =? fpl then Some ([], [ab])
                                          else seq_visits cfg D P fpl f (fst ab) (snd ab) (level + 1)) (child_pairs D A B);
                Some ((A, B, level) :: concat (map fst rs), concat (map snd rs))
       end.
(** SpatialTree.inl:67-78 the invocations made by each thread of the parallel loop *)
Definition par_visits (cfg : config) (D : N) (P : tparams) (fpl : N) (pushes : list (N * N)) (team : nat) : option (list (list vis)) :=
  do cells <- numCellsInLevel D fpl;
  do first <- firstCellOfLevel D fpl;
  if negb (forallb (fun ab => (first <=? fst ab) && (fst ab <? first + cells)) pushes) then None else
  omap (fun blk =>
          do rs <- omap (fun i => let a := first + N.of_nat i in
                                  omap (fun ab => visits cfg D P (N.to_nat (p_levels P)) a (snd ab) fpl)
                                       (filter (fun ab => fst ab =? a) pushes)) blk;
          Some (concat (concat rs)))
       (static_split (seq 0 (N.to_nat cells)) team).
(** SpatialTree.inl:58-78 the invocations of each thread, and the content of parallel_calls (empty for one thread) *)
Definition thread_visits (E : fenv) (cfg : config) (D : N) (P : tparams) (num_threads team : nat) : option (list (list vis) * list (N * N)) :=
  if (num_threads =? 1)%nat then
    do vs <- visits cfg D P (N.to_nat (p_levels P)) 0 0 0; Some ([vs], [])
  else
    do fpl <- first_parallel_level E D num_threads;
    do (vs, pushes) <- seq_visits cfg D P fpl (N.to_nat (p_levels P)) 0 0 0;
    do par <- par_visits cfg D P fpl pushes team;
    Some (match par with [] => [vs] | p0 :: r => (vs ++ p0) :: r end, pushes).

(** SpatialTree.inl:86-101 (and 120-135): the calls of sampleTypeI and sampleTypeII of one invocation *)
Definition vis_calls (cfg : config) (D : N) (P : tparams) (alpha : alphaT) (v : vis) : list call :=
  let '(A, B, l) := v in
  match touching cfg D A B l with
  | Some true => near_calls D P A B l
  | Some false => if ndebug cfg && is_inf alpha then [] else far_calls D P A B l
  | None => []
  end.
(** SpatialTree.inl:86-101: one for the invocation and one for every iteration of its loops over levels and layer pairs
    (the loops over the children, 108-113, are counted by the invocations they make) *)
Definition vis_steps (cfg : config) (D : N) (P : tparams) (alpha : alphaT) (v : vis) : nat :=
  let '(A, B, l) := v in
  (1 + match touching cfg D A B l with
       | Some true => length (layer_pairs D P l)
       | _ => if ndebug cfg && is_inf alpha then 0
              else list_sum (map (fun l' => 1 + length (layer_pairs D P l')) (Nrange l (p_levels P - 1)))
       end)%nat.
