(** Model of the debug build (NDEBUG not defined) of scaleWeights: the assertions of girgs/source/WeightScaling.cpp at lines 56, 63, 116,
    166 and 224.  In the release build (Scaling_Model.v) they are not evaluated. *)
From Coq Require Import Arith NArith ZArith List Bool Reals Sorting.Sorted Permutation.
From Flocq Require Import Core.
From Verif Require Import Base Scaling_Model.
Import ListNotations.
Local Open Scope R_scope.

(** WeightScaling.cpp:52-67: an assertion of sort_downto fails.
    Line 56: m_sorted_end != end, checked whenever m_lower > thresh.
    Line 63: std::is_sorted(begin, m_sorted_end, greater) = no neighbours (a, b) with b > a, checked when the partition has found new
    elements (line 60 returns otherwise), before m_sorted_end is updated; the new elements are behind m_sorted_end. *)
Definition sort_fails (st : lazy) (thresh : R) : Prop :=
  thresh < llow st /\
  (lend st = length (larr st) \/
   Exists (fun x => x >= thresh) (skipn (lend st) (larr st)) /\ ~ Sorted (fun a b => ~ b > a) (firstn (lend st) (larr st))).

(** WeightScaling.cpp:108-116: an assertion fails in an evaluation of f at c.  Line 116: richclub_end <= end *)
Definition threshold_fails (ws : list R) (d : nat) (st : lazy) (c : R) : Prop :=
  let thresh := sum_by (fun w => w) ws / (2 * c) ^ d / max_from 0 ws in
  sort_fails st thresh \/ exists k st', sort_downto st thresh k st' /\ ~ (k <= length (larr st'))%nat.

(** WeightScaling.cpp:214-224: the same for f of the other estimator.  Line 224: num_richclub <= n, after the early return of line 221 *)
Definition general_fails (ws : list R) (d : nat) (alpha : R) (st : lazy * list R) (c : R) : Prop :=
  let rich_thresh := exp (INR d * ln ((1 / 2) / Rpower c (1 / alpha / INR d)) - ln (max_from 0 ws / sum_by (fun w => w) ws)) in
  sort_fails (fst st) rich_thresh \/ exists k st', sort_downto (fst st) rich_thresh k st' /\ k <> 0%nat /\ ~ (k <= length ws)%nat.

(** WeightScaling.cpp:14-40: the evaluation of f that the search does next *)
Section Search.
  Context {St : Type} (f : St -> R -> R -> St -> Prop) (fails : St -> R -> Prop) (desired accuracy : R).
  Definition next_evaluation (s : search_state St) : option (St * R) :=
    match s with
    | InUp st lo hi => Some (st, hi)              (* line 18 *)
    | InDown st lo hi => Some (st, lo)            (* line 24 *)
    | InMid st lo hi => Some (st, (hi + lo) / 2)  (* lines 30, 36 *)
    | Done _ _ _ => None
    end.
  Definition aborts (s : search_state St) : Prop := exists st c, next_evaluation s = Some (st, c) /\ fails st c.
  (** one step of the debug build: the step of the release build if no assertion fails in its evaluation *)
  Definition dbg_step (a b : search_state St) : Prop := ~ aborts a /\ search_step f desired accuracy a b.
  Inductive dbg_run : search_state St -> search_state St -> Prop :=
  | dbg_refl : forall a, dbg_run a a
  | dbg_next : forall a b c, dbg_step a b -> dbg_run b c -> dbg_run a c.
End Search.

(** scaleWeights of the debug build, girgs/source/Generator.cpp:56-71: a result and the weights afterwards, or abort() *)
Inductive dbg_result := Aborted | Finished (r : scale_result).
Inductive scale_weights_dbg (ws : list R) (desired : R) (d : nat) (alpha : dbl) : dbg_result -> list R -> Prop :=
(** Generator.cpp:59-60, 67-69 and WeightScaling.cpp:85-161 *)
| dbg_thr : forall st' c v, dgt alpha 8 = true ->
    dbg_run (threshold_f ws d) (threshold_fails ws d) desired default_accuracy (InUp (lazy_init ws) 1 2) (Done st' c v) ->
    scale_weights_dbg ws desired d alpha (Finished (Returned (c ^ d))) (map (fun w => w * c ^ d) ws)
| dbg_thr_abort : forall s, dgt alpha 8 = true ->
    dbg_run (threshold_f ws d) (threshold_fails ws d) desired default_accuracy (InUp (lazy_init ws) 1 2) s ->
    aborts (threshold_fails ws d) s -> scale_weights_dbg ws desired d alpha Aborted ws
(** Generator.cpp:61-62, 67-69 and WeightScaling.cpp:165-282; line 166: alpha != 1 *)
| dbg_gen : forall a st' c v, dgt alpha 8 = false -> dgt alpha 0 && dne alpha 1 = true -> alpha = DFin a -> a <> 1 ->
    dbg_run (general_f ws d a) (general_fails ws d a) desired default_accuracy (InUp (lazy_init ws, []) 1 2) (Done st' c v) ->
    scale_weights_dbg ws desired d alpha (Finished (Returned (Rpower c (1 / a)))) (map (fun w => w * Rpower c (1 / a)) ws)
| dbg_gen_one : dgt alpha 8 = false -> dgt alpha 0 && dne alpha 1 = true -> alpha = DFin 1 -> scale_weights_dbg ws desired d alpha Aborted ws
| dbg_gen_abort : forall a s, dgt alpha 8 = false -> dgt alpha 0 && dne alpha 1 = true -> alpha = DFin a -> a <> 1 ->
    dbg_run (general_f ws d a) (general_fails ws d a) desired default_accuracy (InUp (lazy_init ws, []) 1 2) s ->
    aborts (general_fails ws d a) s -> scale_weights_dbg ws desired d alpha Aborted ws
(** Generator.cpp:63-64 *)
| dbg_throw : dgt alpha 8 = false -> dgt alpha 0 && dne alpha 1 = false -> scale_weights_dbg ws desired d alpha (Finished Thrown) ws.
