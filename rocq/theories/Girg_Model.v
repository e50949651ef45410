(** Model of girgs::generateEdges, girgs/source/Generator.cpp:73-119: the buffered edge collection around the spatial tree. *)
From Coq Require Import Arith NArith ZArith List Bool Reals.
From Verif Require Import Base Sched Bits_Model Coord_Model IntSort_Model Prefix_Model Tree_Model.
Import ListNotations.
Local Open Scope nat_scope.

(** ** Edge collection: Generator.cpp:76-98, 115-116
    local_edges[tid].first and result.  A buffer is only accessed by its own thread; result only under the mutex, so the flush is one
    step.  addEdge is two steps, the push and the flush (if the buffer is full); other threads may act in between. *)
Inductive bact {T : Type} := Push (tid : nat) (e : T) | Flush (tid : nat).
Arguments bact : clear implicits.
Definition bstate (T : Type) : Type := (list (list T) * list T)%type.
Definition bstep {T} (block : N) (s : bstate T) (a : bact T) : option (bstate T) :=
  match a with
  | Push tid e => (* Generator.cpp:92-93 *)
      do l <- nth_error (fst s) tid; do ls <- upd (fst s) tid (l ++ [e]); Some (ls, snd s)
  | Flush tid => (* Generator.cpp:94-97, 86-89 *)
      do l <- nth_error (fst s) tid;
      if (N.of_nat (length l) =? block)%N then do ls <- upd (fst s) tid []; Some (ls, snd s ++ l) else Some s
  end.
Fixpoint brun {T} (block : N) (tr : list (bact T)) (s : bstate T) : option (bstate T) :=
  match tr with [] => Some s | a :: r => do s' <- bstep block s a; brun block r s' end.
(** the actions of thread [tid], whose callback invocations are [es] *)
Definition thread_acts {T} (tid : nat) (es : list T) : list (bact T) := flat_map (fun e => [Push tid e; Flush tid]) es.
(** All results the collection can have when the threads invoke the callback with the lists [calls]: any interleaving, then the final
    flush of all buffers in thread order (Generator.cpp:115-116). *)
Definition collect {T} (block : N) (omp_max : nat) (calls : list (list T)) (out : option (list T)) : Prop :=
  exists tr, interleaving (map (fun tc => thread_acts (fst tc) (snd tc)) (combine (seq 0 (length calls)) calls)) tr /\
    out = (do s <- brun block tr (repeat [] omp_max, []); Some (snd s ++ concat (fst s))).

(** ** Generator.cpp:73-119.  [None] = undefined behaviour, [Some edges] = the returned vector.
    omp_max is omp_get_max_threads(), used for the buffers (line 82) and by the tree;
    team is the number of threads the sampling loop gets (SpatialTree.inl:74). *)
Definition girg_outcome (E : fenv) (cfg : config) (rg : rng) (ws : list R) (ps : list (list R)) (alpha : alphaT) (seed : Z)
  (omp_max team : nat) (o : option (list (nat * nat))) : Prop :=
  match ps with
  | [] => o = None (* positions.front() *)
  | p0 :: _ =>
    let D := N.of_nat (length p0) in
    if ((1 <=? D) && (D <=? 5))%N then
      exists ot, tree_outcome E cfg D ws ps omp_max ot /\
        match ot with
        | None => o = None
        | Some t =>
          exists ors, edges_outcome E cfg D t alpha rg seed omp_max team ors /\
            match ors with
            | None => o = None
            | Some rs => collect (2 ^ 20) omp_max (map edges_of rs) o
            end
        end
    else o = Some []
  end.
