(** Model of girgs::generateWeights and girgs::generatePositions, girgs/source/Generator.cpp:18-54. *)
From Coq Require Import Arith NArith ZArith List Bool Reals.
From Verif Require Import Base Sched Tree_Model.
Import ListNotations.
Local Open Scope nat_scope.

(** Generator.cpp:19 and 38: the number of threads requested.  [omp_max] is omp_get_max_threads(). *)
Definition input_threads (parallel : bool) (omp_max n : nat) : nat :=
  if parallel then Nat.max 1 (Nat.min omp_max (N.to_nat (N.of_nat n / 10000))) else 1.

(** The loop  for(i in block) result[i] = step(gen)  of one thread: the writes it performs, in order *)
Fixpoint loop_writes {GT A} (step : GT -> A * GT) (idx : list nat) (g : GT) : list (nat * A) :=
  match idx with
  | [] => []
  | i :: r => let (a, g') := step g in (i, a) :: loop_writes step r g'
  end.
(** A parallel region of [team] threads with  omp for schedule(static)  over 0..n-1, thread k working with generator gens[k]:
    every interleaving of the writes into an array of n elements. *)
Definition filled {GT A} (step : GT -> A * GT) (init : A) (team n : nat) (gens : list GT) (o : option (list A)) : Prop :=
  exists tr, interleaving (map (fun bg => loop_writes step (fst bg) (snd bg)) (combine (static_split (seq 0 n) team) gens)) tr /\
    o = apply_writes tr (repeat init n).

(** Generator.cpp:30: the weight for a uniform draw u *)
Definition weight_of (E : fenv) (n : nat) (ple u : R) : R :=
  let e := rnd E (- ple + 1) in
  fpow E (rnd E (rnd E (rnd E (fpow E (rnd E (1 / 2 * INR n)) e - 1) * u) + 1)) (rnd E (1 / e)).
Definition weight_step (E : fenv) (rg : rng) (n : nat) (ple : R) (g : G rg) : R * G rg :=
  let (u, g') := u01 rg g in (weight_of E n ple u, g').
(** Generator.cpp:49-50: the coordinates of one point *)
Fixpoint position_step (rg : rng) (d : nat) (g : G rg) : list R * G rg :=
  match d with
  | O => ([], g)
  | S d' => let (u, g1) := u01 rg g in let (r, g2) := position_step rg d' g1 in (u :: r, g2)
  end.

(** Generator.cpp:18-35.  [team] is the number of threads the region gets (1 <= team <= requested).
    seed + tid is int arithmetic (None = overflow); a negative seed takes std::random_device (arbitrary generators). *)
Definition weights_outcome (E : fenv) (rg : rng) (n : nat) (ple : R) (seed : Z) (team : nat) (o : option (list R)) : Prop :=
  if seeds_defined seed team then exists gens, gens_ok rg seed team gens /\ filled (weight_step E rg n ple) 0%R team n gens o else o = None.
(** Generator.cpp:37-54 *)
Definition positions_outcome (rg : rng) (n d : nat) (seed : Z) (team : nat) (o : option (list (list R))) : Prop :=
  if seeds_defined seed team then exists gens, gens_ok rg seed team gens /\ filled (position_step rg d) (repeat 0%R d) team n gens o else o = None.
(** The API functions: the region runs with the requested number of threads, or fewer if the OpenMP runtime grants fewer. *)
Definition generateWeights (E : fenv) (rg : rng) (n : nat) (ple : R) (seed : Z) (parallel : bool) (omp_max team : nat) (o : option (list R)) : Prop :=
  1 <= team <= input_threads parallel omp_max n /\ weights_outcome E rg n ple seed team o.
Definition generatePositions (rg : rng) (n d : nat) (seed : Z) (parallel : bool) (omp_max team : nat) (o : option (list (list R))) : Prop :=
  1 <= team <= input_threads parallel omp_max n /\ positions_outcome rg n d seed team o.
