(** Model of small self-contained parts: girgs/include/girgs/Hyperbolic.h, the graph comparison of the example tools
    (examples/inclusion_range/main.cpp, examples/inclusion_single/main.cpp) and examples/bench_girg/CounterPerThread.h. *)
From Coq Require Import Arith NArith ZArith List Bool Reals.
From Verif Require Import Base Sched.
Import ListNotations.

(** ** Hyperbolic.h:8-12, exact reals (M_PI is pi); log of a non-positive number is not modelled (w > 0, scaling > 0) *)
Definition radiusToGirgWeight (r Rd : R) : R := exp ((Rd - r) / 2).
Definition girgWeightToRadius (w Rd scaling : R) : R := (Rd - 2 * ln (w / scaling))%R.
Definition angleToGirgPosition (angle : R) : R := (angle / 2 / PI)%R.
Definition girgPositionToAngle (position : R) : R := (position * 2 * PI)%R.

(** ** graphs of the example tools: std::vector<std::pair<int,int>> *)
Definition graph := list (Z * Z).
(** inclusion_range/main.cpp:19-23 unifyEdges *)
Definition unifyEdges (g : graph) : graph := map (fun e => if (snd e <? fst e)%Z then (snd e, fst e) else e) g.
(** inclusion_single/main.cpp:20-25 createReverseEdges *)
Definition createReverseEdges (g : graph) : graph := (g ++ map (fun e => (snd e, fst e)) g)%list.
(** operator< and operator== of std::pair *)
Definition pair_lt (a b : Z * Z) : bool := ((fst a <? fst b) || ((fst a =? fst b) && (snd a <? snd b)))%Z.
Definition pair_eq (a b : Z * Z) : bool := ((fst a =? fst b) && (snd a =? snd b))%Z.
(** inclusion_single/main.cpp:31-54 edge_diff: the two differences *)
Fixpoint edge_diff_lists (g1 : graph) : graph -> graph * graph :=
  fix inner (g2 : graph) : graph * graph :=
    match g1, g2 with
    | [], _ => ([], g2)
    | _, [] => (g1, [])
    | a :: r1, b :: r2 =>
      if pair_eq a b then edge_diff_lists r1 r2
      else if pair_lt a b then (let (x, y) := edge_diff_lists r1 g2 in (a :: x, y))
      else (let (x, y) := inner r2 in (x, b :: y))
    end.
(** inclusion_range/main.cpp:29-51 edge_diff: the counters (int; graphs with fewer than 2^31 edges) *)
Fixpoint edge_diff (g1 : graph) : graph -> Z -> Z -> Z * Z :=
  fix inner (g2 : graph) (c1 c2 : Z) : Z * Z :=
    match g1, g2 with
    | [], _ => (c1, c2 + Z.of_nat (length g2))%Z
    | _, [] => (c1 + Z.of_nat (length g1), c2)%Z
    | a :: r1, b :: r2 =>
      if pair_eq a b then edge_diff r1 r2 c1 c2
      else if pair_lt a b then edge_diff r1 g2 (c1 + 1)%Z c2
      else inner r2 c1 (c2 + 1)%Z
    end.

(** ** CounterPerThread.h with value_type = an unsigned 64-bit integer *)
(** The machine: one counter per slot and one register per thread.  add(tid, x) by thread t is a read of slot tid into t's register (line 30: the load of +=)
    followed by a write of register + x.  None = slot index out of range (the assertion of line 29 is off in release builds). *)
Inductive cact := CRead (thread slot : nat) | CWrite (thread slot : nat) (x : N).
Record cstate := { slots : list N; regs : nat -> N }.
Definition cstep (s : cstate) (a : cact) : option cstate :=
  match a with
  | CRead t i => do v <- nth_error (slots s) i; Some {| slots := slots s; regs := fun u => if (u =? t)%nat then v else regs s u |}
  | CWrite t i x => do l <- upd (slots s) i (w64 (regs s t + x)); Some {| slots := l; regs := regs s |}
  end.
Fixpoint crun (s : cstate) (tr : list cact) : option cstate := match tr with [] => Some s | a :: r => do s' <- cstep s a; crun s' r end.
(** the calls of one thread: (tid argument, amount) *)
Definition thread_code (t : nat) (adds : list (nat * N)) : list cact := flat_map (fun ix => [CRead t (fst ix); CWrite t (fst ix) (snd ix)]) adds.
(** CounterPerThread.h:21-26 and 34-39: constructed with [size] zero counters, all threads add concurrently, then total() *)
Definition total (s : cstate) : N := fold_left (fun v x => w64 (v + x)) (slots s) 0%N.
Definition counter_outcome (size : nat) (threads : list (list (nat * N))) (o : option N) : Prop :=
  exists tr, interleaving (map (fun tc => thread_code (fst tc) (snd tc)) (combine (seq 0 (length threads)) threads)) tr /\
    o = (do s <- crun {| slots := repeat 0%N size; regs := fun _ => 0%N |} tr; Some (total s)).
