(** Model of girgs/source/WeightScaling.cpp and girgs::scaleWeights (girgs/source/Generator.cpp:56-71), in exact real arithmetic.
    In exact arithmetic the order of the OpenMP reductions does not matter, so they are plain sums. *)
From Coq Require Import Arith NArith ZArith List Bool Reals Sorting.Sorted Permutation.
From Flocq Require Import Core.
From Verif Require Import Base.
Import ListNotations.
Local Open Scope R_scope.

(** std::numeric_limits<double>::max() and ::min() *)
Definition dbl_max : R := (2 - bpow radix2 (-52)) * bpow radix2 1023.
Definition dbl_min : R := bpow radix2 (-1022).

(** ** LazySorter, WeightScaling.cpp:43-82.  m_sorted_end and the returned iterator are offsets. *)
Record lazy := { larr : list R; lend : nat; llow : R }.
(** WeightScaling.cpp:47-49, 81: after the caller has copied the weights into sweights *)
Definition lazy_init (ws : list R) : lazy := {| larr := ws; lend := 0; llow := dbl_max |}.
(** WeightScaling.cpp:52-75 sort_downto.  std::partition may reorder both parts in any way, std::sort may order equal elements in
    any way; std::lower_bound returns the partition point of the predicate x > thresh. *)
Definition sort_downto (st : lazy) (thresh : R) (k : nat) (st' : lazy) : Prop :=
  if Rlt_dec thresh (llow st) then
    exists P Q, Permutation (skipn (lend st) (larr st)) (P ++ Q) /\ Forall (fun x => x >= thresh) P /\ Forall (fun x => ~ x >= thresh) Q /\
      match P with
      | [] => k = lend st /\ st' = {| larr := firstn (lend st) (larr st) ++ Q; lend := lend st; llow := llow st |}
      | _ => exists S, Permutation P S /\ StronglySorted Rge S /\ k = (lend st + length P)%nat /\
               st' = {| larr := firstn (lend st) (larr st) ++ S ++ Q; lend := k;
                        llow := if (k =? length (larr st))%nat then dbl_min else thresh |}
      end
  else (k <= lend st)%nat /\ Forall (fun x => x > thresh) (firstn k (larr st)) /\
       Forall (fun x => ~ x > thresh) (firstn (lend st - k) (skipn k (larr st))) /\ st' = st.

(** sums over the weights: the reductions of WeightScaling.cpp:93-107 and 187-213 *)
Definition sum_by (f : R -> R) (ws : list R) : R := fold_right Rplus 0 (map f ws).
Definition max_from (m : R) (ws : list R) : R := fold_left Rmax ws m.

(** ** The estimator for threshold graphs, WeightScaling.cpp:110-151 *)
(** WeightScaling.cpp:130  for(; w2 < richclub_end && *w2 >= my_thres; w2sum += *(w2++));  [rest] = the elements from w2 on, j = w2 *)
Fixpoint advance_w2 (my_thres : R) (rest : list R) (j : nat) (w2sum : R) : list R * nat * R :=
  match rest with
  | [] => ([], j, w2sum)
  | x :: r => if Rge_dec x my_thres then advance_w2 my_thres r (S j) (w2sum + x) else (rest, j, w2sum)
  end.
(** WeightScaling.cpp:125-147: w1 runs from the end of the rich club to its begin; [is] are the (index, weight) still to do *)
Fixpoint threshold_loop (W pow2c : R) (is : list (nat * R)) (rest : list R) (j : nat) (w2sum error : R) : R :=
  match is with
  | [] => error
  | (i, w1) :: r =>
    let fac := w1 / W in
    let my_thres := 1 / fac / pow2c in
    let '(rest', j', w2sum') := advance_w2 my_thres rest j w2sum in
    let error := error + (w2sum' * pow2c * fac - INR j') in
    let error := if (i <=? j')%nat (* w2 >= w1 *) then error - (pow2c * fac * w1 - 1) else error in
    threshold_loop W pow2c r rest' j' w2sum' error
  end.
Definition with_index (L : list R) : list (nat * R) := combine (seq 0 (length L)) L.
(** WeightScaling.cpp:110-151: the value of f at c; the state of the sorter changes *)
Definition threshold_f (ws : list R) (d : nat) (st : lazy) (c v : R) (st' : lazy) : Prop :=
  let W := sum_by (fun w => w) ws in
  let sq_W := sum_by (fun w => w * w) ws in
  let max_weight := max_from 0 ws in
  let pow2c := (2 * c) ^ d in
  let overestimation := pow2c * (W - sq_W / W) in
  exists k, sort_downto st (W / pow2c / max_weight) k st' /\
    let L := firstn k (larr st') in
    v = (overestimation - threshold_loop W pow2c (rev (with_index L)) L 0 0 0) / INR (length ws).

(** ** exponentialSearch, WeightScaling.cpp:14-40, for a function with state.
    [f st x v st'] : evaluating f at x in state st yields v and the state st'. *)
Section Search.
  Context {St : Type} (f : St -> R -> R -> St -> Prop) (desired accuracy : R).
  (** the position in the code (first, second, third loop, returned), lower and upper; Done: the returned value and the last f(mid) *)
  Inductive search_state := InUp (st : St) (lower upper : R) | InDown (st : St) (lower upper : R) | InMid (st : St) (lower upper : R)
    | Done (st : St) (result last_value : R).
  (** one test of a loop condition, and the loop body if the test succeeds *)
  Inductive search_step : search_state -> search_state -> Prop :=
  (** WeightScaling.cpp:18-21: while (f(upper) < desired) *)
  | up_more : forall st lo hi v st', f st hi v st' -> v < desired -> search_step (InUp st lo hi) (InUp st' hi (hi * 2))
  | up_done : forall st lo hi v st', f st hi v st' -> ~ v < desired -> search_step (InUp st lo hi) (InDown st' lo hi)
  (** WeightScaling.cpp:24-27: while (f(lower) > desired) *)
  | down_more : forall st lo hi v st', f st lo v st' -> v > desired -> search_step (InDown st lo hi) (InDown st' (lo / 2) lo)
  | down_done : forall st lo hi v st', f st lo v st' -> ~ v > desired -> search_step (InDown st lo hi) (InMid st' lo hi)
  (** WeightScaling.cpp:30-39: the binary search with mid = (upper+lower)/2, which is also returned *)
  | mid_low : forall st lo hi v st', f st ((hi + lo) / 2) v st' -> Rabs (v - desired) > accuracy -> v < desired ->
      search_step (InMid st lo hi) (InMid st' ((hi + lo) / 2) hi)
  | mid_high : forall st lo hi v st', f st ((hi + lo) / 2) v st' -> Rabs (v - desired) > accuracy -> ~ v < desired ->
      search_step (InMid st lo hi) (InMid st' lo ((hi + lo) / 2))
  | mid_done : forall st lo hi v st', f st ((hi + lo) / 2) v st' -> ~ Rabs (v - desired) > accuracy ->
      search_step (InMid st lo hi) (Done st' ((hi + lo) / 2) v).
  (** a run that returns *)
  Inductive search_run : search_state -> search_state -> Prop :=
  | run_refl : forall a, search_run a a
  | run_step : forall a b c, search_step a b -> search_run b c -> search_run a c.
  Definition search (st : St) (lo hi : R) (st' : St) (r v : R) : Prop := search_run (InUp st lo hi) (Done st' r v).
End Search.
Arguments search_state : clear implicits.
(** the default arguments of WeightScaling.cpp:14-15 *)
Definition default_accuracy : R := 2 / 100.

(** WeightScaling.cpp:85-165 estimateWeightScalingThreshold: [s] is a possible return value (no value: the search does not terminate) *)
Definition scaling_threshold (ws : list R) (desired : R) (d : nat) (s : R) : Prop :=
  exists st' c v, search (threshold_f ws d) desired default_accuracy (lazy_init ws) 1 2 st' c v /\ s = c ^ d.

(** ** The estimator for finite alpha, WeightScaling.cpp:169-282 *)
(** WeightScaling.cpp:255-258 with the cached powers *)
Fixpoint advance_i2 (my_thres : R) (rest : list (R * R)) (i2 : nat) (s sa : R) : list (R * R) * nat * R * R :=
  match rest with
  | [] => ([], i2, s, sa)
  | (x, xa) :: r => if Rge_dec x my_thres then advance_i2 my_thres r (S i2) (s + x) (sa + xa) else (rest, i2, s, sa)
  end.
(** WeightScaling.cpp:253-269; num_terms is a size_t *)
Fixpoint general_loop (thresh W W_alpha : R) (is : list (nat * (R * R))) (rest : list (R * R)) (i2 : nat) (s sa : R)
  (num : N) (wt wat : R) : N * R * R :=
  match is with
  | [] => (num, wt, wat)
  | (i1, (w, wa)) :: r =>
    let my_thres := thresh * W / w in
    let '(rest', i2', s', sa') := advance_i2 my_thres rest i2 s sa in
    let num := w64 (num + N.of_nat i2') in
    let wt := wt + w * s' / W in
    let wat := wat + wa * sa' / W_alpha in
    if (i1 <=? i2')%nat (* i2 >= i1 *) then
      general_loop thresh W W_alpha r rest' i2' s' sa' (w64 (num + (2 ^ 64 - 1))) (wt - w * w / W) (wat - wa * wa / W_alpha)
    else general_loop thresh W W_alpha r rest' i2' s' sa' num wt wat
  end.
(** WeightScaling.cpp:217-274: f; the state is the sorter and the cache pow_weights.  The cache is extended with the powers of
    sweights[|cache| .. num_richclub-1]. *)
Definition general_f (ws : list R) (d : nat) (alpha : R) (st : lazy * list R) (c v : R) (st' : lazy * list R) : Prop :=
  let n := INR (length ws) in
  let W := sum_by (fun w => w) ws in
  let sum_sq_w := sum_by (fun w => w * (w / W)) ws in
  let sum_w_a := sum_by (fun w => Rpower (w / W) alpha) ws in
  let sum_sq_w_a := sum_by (fun w => Rpower w alpha * Rpower (w / W) alpha) ws in
  let sum_wwW_a := sum_by (fun w => Rpower w alpha) ws * sum_w_a in
  let max_w_W := max_from 0 ws / W in
  let factor1 := (W - sum_sq_w) * (1 + 1 / (alpha - 1)) * 2 ^ d in
  let factor2 := Rpower 2 (alpha * INR d) / (alpha - 1) * (sum_wwW_a - sum_sq_w_a) in
  let W_alpha := Rpower W alpha in
  let with_error := Rpower c (1 / alpha) * factor1 - c * factor2 in
  let rich_thresh := exp (INR d * ln ((1 / 2) / Rpower c (1 / alpha / INR d)) - ln max_w_W) in
  exists k, sort_downto (fst st) rich_thresh k (fst st') /\
    if (k =? 0)%nat then v = with_error / n /\ snd st' = snd st else
    let L := firstn k (larr (fst st')) in
    let cache := snd st ++ map (fun w => Rpower w alpha) (skipn (length (snd st)) L) in
    let LL := combine L cache in
    let thresh := exp (ln (1 / 2) * INR d - ln c / alpha) in
    let '(num_terms, w_terms, w_alpha_terms) :=
      general_loop thresh W W_alpha (rev (combine (seq 0 (length LL)) LL)) LL 0 0 0 0 0 0 in
    let short_error := 2 ^ d * Rpower c (1 / alpha) * w_terms - IZR (Z.of_N num_terms) in
    let long_error := c * INR d * 2 ^ d / (INR d - alpha * INR d) *
      (Rpower (1 / 2) (INR d - alpha * INR d) * w_alpha_terms - Rpower c (1 / alpha - 1) * w_terms) in
    v = (with_error - short_error - long_error) / n /\ snd st' = cache.

(** WeightScaling.cpp:169-282 estimateWeightScaling.  1 << dimension needs dimension <= 30. *)
Definition scaling_general (ws : list R) (desired : R) (d : nat) (alpha s : R) : Prop :=
  exists st' c v, search (general_f ws d alpha) desired default_accuracy (lazy_init ws, []) 1 2 st' c v /\ s = Rpower c (1 / alpha).

(** ** scaleWeights, girgs/source/Generator.cpp:56-71 *)
(** a double *)
Inductive dbl := DNaN | DInf (positive : bool) | DFin (x : R).
(** x > y for a finite y *)
Definition dgt (x : dbl) (y : R) : bool := match x with DNaN => false | DInf b => b | DFin r => if Rlt_dec y r then true else false end.
(** x != y for a finite y *)
Definition dne (x : dbl) (y : R) : bool := match x with DNaN => true | DInf _ => true | DFin r => if Req_EM_T r y then false else true end.
Inductive scale_result := Thrown | Returned (scaling : R).
(** the result and the weights afterwards *)
Inductive scale_weights (ws : list R) (desired : R) (d : nat) (alpha : dbl) : scale_result -> list R -> Prop :=
| scale_thr : forall s, dgt alpha 8 = true -> scaling_threshold ws desired d s ->
    scale_weights ws desired d alpha (Returned s) (map (fun w => w * s) ws)
| scale_gen : forall a s, dgt alpha 8 = false -> dgt alpha 0 && dne alpha 1 = true -> alpha = DFin a -> scaling_general ws desired d a s ->
    scale_weights ws desired d alpha (Returned s) (map (fun w => w * s) ws)
| scale_throw : dgt alpha 8 = false -> dgt alpha 0 && dne alpha 1 = false -> scale_weights ws desired d alpha Thrown ws.
