(** Model of the comparison of hyperbolic random graphs with GIRGs, examples/inclusion_range/main.cpp:133-196 ("I:"), exact reals. *)
From Coq Require Import Arith NArith ZArith List Bool Reals Permutation.
From Verif Require Import Base Coord_Model Tree_Model Girg_Model Sampling_Model Scaling_Model Extra_Model.
Import ListNotations.
Local Open Scope R_scope.

(** I:145-150 (and inclusion_single/main.cpp:141-146): the GIRG input of a hyperbolic input *)
Definition girg_weights (radii : list R) (Rd : R) : list R := map (fun r => radiusToGirgWeight r Rd) radii.
Definition girg_positions (angles : list R) : list (list R) := map (fun a => [angleToGirgPosition a]) angles.
(** the int pairs of an edge list *)
Definition int_edges (es : list (nat * nat)) : graph := map (fun e => (Z.of_nat (fst e), Z.of_nat (snd e))) es.
(** std::sort on a vector of pairs: a permutation in which no later element is smaller than an earlier one *)
Definition sorted_by (lt : Z * Z -> Z * Z -> bool) (g : graph) : Prop := forall i j a b, (i < j)%nat -> nth_error g i = Some a -> nth_error g j = Some b -> lt b a = false.
Definition sort_outcome (g g' : graph) : Prop := Permutation g g' /\ sorted_by pair_lt g'.

(** I:153-165 the lambda diff: hrg is the sorted vector of line 142; None = undefined behaviour, no result = an exception of scaleWeights or no end *)
Definition diff_outcome (cfg : config) (rg : rng) (radii angles : list R) (Rd : R) (hrg : graph) (omp_max team : nat) (desired_degree : R) (o : option (Z * Z)) : Prop :=
  exists scaling ws', scale_weights (girg_weights radii Rd) desired_degree 1 (DInf true) (Returned scaling) ws' /\ (* line 155 *)
  exists oe, girg_outcome ideal_env cfg rg ws' (girg_positions angles) AInf 0 omp_max team oe /\ (* line 156; sseed = 0 *)
  match oe with
  | None => o = None
  | Some es => exists g, sort_outcome (unifyEdges (int_edges es)) g /\ o = Some (edge_diff hrg g 0 0) (* lines 157-159 *)
  end.

(** I:168-177 and I:182-191: the two binary searches over diff; (low, high) at the start and at the end *)
Inductive search_up (diff : R -> Z * Z -> Prop) : R -> R -> R -> R -> Prop :=
| up_done low high : high - low <= 1 / 2 -> search_up diff low high low high
| up_step low high sub l h : 1 / 2 < high - low -> diff ((low + high) / 2) sub ->
    search_up diff (if (fst sub =? 0)%Z then low else (low + high) / 2) (if (fst sub =? 0)%Z then (low + high) / 2 else high) l h -> search_up diff low high l h.
Inductive search_down (diff : R -> Z * Z -> Prop) : R -> R -> R -> R -> Prop :=
| down_done low high : high - low <= 1 / 2 -> search_down diff low high low high
| down_step low high sub l h : 1 / 2 < high - low -> diff ((low + high) / 2) sub ->
    search_down diff (if (snd sub =? 0)%Z then (low + high) / 2 else low) (if (snd sub =? 0)%Z then high else (low + high) / 2) l h -> search_down diff low high l h.
(** I:168-195: the result (bound_low, bound_high) *)
Definition bounds_outcome (diff : R -> Z * Z -> Prop) (hrg_deg : R) (res : R * R) : Prop :=
  exists l1 h1 l2 h2, search_up diff hrg_deg (2 * hrg_deg) l1 h1 /\ search_down diff (1 / 2 * hrg_deg) (hrg_deg * (12 / 10)) l2 h2 /\ res = ((l2 + h2) / 2, (l1 + h1) / 2).
