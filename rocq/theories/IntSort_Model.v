(** Model of girgs/IntSort.h (hypergirgs/IntSort.h is the same file with the same text).
    Key is uint32_t in both uses.  Array sizes and indices are [nat] (size_t; no wrap is possible since sizes are
    lengths of existing arrays); keys are [N].  [None] = undefined behaviour (index out of range, shift by >= 32). *)
From Coq Require Import Arith NArith List Bool.
From Verif Require Import Base Sched.
Import ListNotations.

(** IntSort.h:30-31  [while (x >>= 1) i++] for x <> 0 *)
Fixpoint pos_shifts (p : positive) : nat :=
  match p with xH => 0 | xO q | xI q => S (pos_shifts q) end.
(** IntSort.h:24-39 ilog2 *)
Definition ilog2 (x : N) : nat :=
  match x with
  | N0 => 0
  | Npos p => let i := pos_shifts p in i + (if (N.shiftl 1 (N.of_nat i) <? x)%N then 1 else 0)
  end.
(** IntSort.h:41-44 idiv_ceil *)
Definition idiv_ceil (a b : nat) : nat := (a + b - 1) / b.

(** IntSort.h:57-71 constructor.  [rw] is the template parameter RADIX_WIDTH. *)
Record params := { rw : nat; max_key : N; max_bits : nat; msb_radix_width : nat; msb_radix : nat; msb_shift : nat;
                   lsb_remaining_width : nat; no_iters : nat; adaptive_width : nat; adaptive_no_queues : nat }.
Definition mk_params (rw : nat) (max_key : N) : params :=
  let max_bits := ilog2 max_key in
  let msb_radix_width := Nat.min max_bits rw in
  let lsb_remaining_width := max_bits - msb_radix_width in
  let no_iters := idiv_ceil (Nat.max 1 lsb_remaining_width) rw in
  let adaptive_width := idiv_ceil lsb_remaining_width no_iters in
  {| rw := rw; max_key := max_key; max_bits := max_bits; msb_radix_width := msb_radix_width;
     msb_radix := 2 ^ msb_radix_width; msb_shift := max_bits - msb_radix_width;
     lsb_remaining_width := lsb_remaining_width; no_iters := no_iters; adaptive_width := adaptive_width;
     adaptive_no_queues := 2 ^ adaptive_width |}.
(** IntSort.h:52 no_queues *)
Definition no_queues (P : params) : nat := 2 ^ rw P.

(** shift of a 32 bit key *)
Definition shr32 (x : N) (k : nat) : option N := if k <? 32 then Some (N.shiftr x (N.of_nat k)) else None.

(** IntSort.h:115, 141  key >> msb_shift *)
Definition msb_index (P : params) (k : N) : option nat :=
  do s <- shr32 k (msb_shift P); Some (N.to_nat s).
(** IntSort.h:216-218 get_queue_index; mask = (1 << adaptive_width) - 1 *)
Definition get_queue_index (P : params) (k : N) (iteration : nat) : option nat :=
  do s <- shr32 k (iteration * adaptive_width P);
  Some (N.to_nat (N.land s (N.shiftl 1 (N.of_nat (adaptive_width P)) - 1))).

(** counters[q]++ *)
Definition incr (l : list nat) (q : nat) : option (list nat) := do v <- nth_error l q; upd l q (S v).
(** IntSort.h:113-116, 171-175 and 236-237: counting loop *)
Fixpoint count_into {T} (f : T -> option nat) (xs : list T) (counters : list nat) : option (list nat) :=
  match xs with
  | [] => Some counters
  | x :: r => do q <- f x; do c <- incr counters q; count_into f r c
  end.
Definition count_all {T} (f : T -> option nat) (Q : nat) (xs : list T) : option (list nat) :=
  count_into f xs (repeat 0 Q).

(** IntSort.h:139-144 and 231-242: index = pointer[q]++; target[index] = *it.  The writes in program order. *)
Fixpoint scatter {T} (f : T -> option nat) (ptr : list nat) (xs : list T) : option (list (nat * T)) :=
  match xs with
  | [] => Some []
  | x :: r => do q <- f x; do i <- nth_error ptr q; do ptr' <- upd ptr q (S i);
              do ws <- scatter f ptr' r; Some ((i, x) :: ws)
  end.

(** IntSort.h:77 max_threads *)
Definition max_threads (omp_max n : nat) : nat := Nat.min omp_max (idiv_ceil n (2 ^ 17)).

(** IntSort.h:96-99 the chunk of a thread; [None] if begin > end, where the loops [it != input_end] run out of the array *)
Definition chunk_bounds (n t tid : nat) : nat * nat :=
  let cs := idiv_ceil n t in (cs * tid, Nat.min (cs * (tid + 1)) n).
Definition chunk {T} (xs : list T) (t tid : nat) : option (list T) :=
  let (b, e) := chunk_bounds (length xs) t tid in
  if b <=? e then Some (firstn (e - b) (skipn b xs)) else None.

(** IntSort.h:126-129 inner loop over the threads' counters of one queue *)
Fixpoint qp_threads (cs : list (list nat)) (tid ttid qid index tmp : nat) : option (nat * nat) :=
  match cs with
  | [] => Some (index, tmp)
  | c :: r => let tmp' := if ttid =? tid then index else tmp in
              do v <- nth_error c qid; qp_threads r tid (S ttid) qid (index + v) tmp'
  end.
(** IntSort.h:122-131 outer loop over the queues (k queues remain) *)
Fixpoint qp_queues (k : nat) (cs : list (list nat)) (tid qid index tmp : nat) : option (list nat) :=
  match k with
  | 0 => Some []
  | S k' => do (index', tmp') <- qp_threads cs tid 0 qid index tmp;
            do r <- qp_queues k' cs tid (S qid) index' tmp'; Some (tmp' :: r)
  end.
Definition queue_pointer (P : params) (cs : list (list nat)) (tid : nat) : option (list nat) :=
  qp_queues (no_queues P) cs tid 0 0 0.

(** IntSort.h:91-145: the first (MSB) pass; the result is the list of writes of each thread and the splitters.
    Between the counting and the pointer computation there is a barrier (if more than one thread). *)
Definition msb_pass {T} (P : params) (key : T -> N) (t : nat) (xs : list T)
  : option (list (list (nat * T)) * list nat) :=
  do chunks <- omap (chunk xs t) (seq 0 t);
  do cs <- omap (count_all (fun x => msb_index P (key x)) (no_queues P)) chunks;
  do ws <- omap (fun '(tid, ch) => do qp <- queue_pointer P cs tid; scatter (fun x => msb_index P (key x)) qp ch)
                (combine (seq 0 t) chunks);
  do qp0 <- queue_pointer P cs 0;
  Some (ws, qp0 ++ [length xs]).

(** IntSort.h:222-244 move_to_queues: new content of the target, new counters *)
Fixpoint partial_sum (acc : nat) (l : list nat) : list nat :=
  match l with [] => [] | a :: r => (acc + a) :: partial_sum (acc + a) r end.
Definition move_to_queues {T} (P : params) (key : T -> N) (inp tgt : list T) (counters : list nat)
  (iteration : nat) (count : bool) : option (list T * list nat) :=
  let pointers := 0 :: partial_sum 0 (firstn (adaptive_no_queues P - 1) counters) in
  do counters' <- (if count then count_all (fun x => get_queue_index P (key x) (iteration + 1)) (adaptive_no_queues P) inp
                   else Some counters);
  do ws <- scatter (fun x => get_queue_index P (key x) iteration) pointers inp;
  do tgt' <- apply_writes ws tgt;
  Some (tgt', counters').

(** The two slices a bucket works on: [bA] in the input array, [bB] in the buffer, [inB]: the current input is in the
    buffer (std::swap(input_base, buffer_base) flips it). *)
Record bucket_state (T : Type) := { bA : list T; bB : list T; inB : bool }.
Arguments bA {T}. Arguments bB {T}. Arguments inB {T}. Arguments Build_bucket_state {T}.
Definition b_input {T} (s : bucket_state T) := if inB s then bB s else bA s.
Definition b_target {T} (s : bucket_state T) := if inB s then bA s else bB s.
Definition b_write {T} (s : bucket_state T) (l : list T) :=
  if inB s then {| bA := l; bB := bB s; inB := inB s |} else {| bA := bA s; bB := l; inB := inB s |}.
Definition b_swap {T} (s : bucket_state T) := {| bA := bA s; bB := bB s; inB := negb (inB s) |}.

Definition b_move {T} (P : params) (key : T -> N) (s : bucket_state T) (counters : list nat) (it : nat) (count : bool)
  : option (bucket_state T * list nat) :=
  do (tgt', c') <- move_to_queues P key (b_input s) (b_target s) counters it count; Some (b_write s tgt', c').

(** IntSort.h:183-189 middle iterations *)
Fixpoint mid_iters {T} (P : params) (key : T -> N) (k it : nat) (s : bucket_state T) (counters : list nat)
  : option (bucket_state T * list nat) :=
  match k with
  | 0 => Some (s, counters)
  | S k' => do (s', c') <- b_move P key s counters it true; mid_iters P key k' (S it) (b_swap s') c'
  end.
(** IntSort.h:157-194 body of the parallel loop for one non-empty bucket *)
Definition sort_bucket {T} (P : params) (key : T -> N) (s : bucket_state T) : option (bucket_state T) :=
  do c0 <- count_all (fun x => get_queue_index P (key x) 0) (adaptive_no_queues P) (b_input s);
  do (s1, c1) <- b_move P key s c0 0 (negb (no_iters P =? 1));
  do (s2, c2) <- mid_iters P key (no_iters P - 2) 1 (b_swap s1) c1;
  if 1 <? no_iters P then do (s3, _) <- b_move P key s2 c2 (no_iters P - 1) false; Some s3 else Some s2.

(** reading and overwriting the slice [b, b + length) of an array *)
Definition slice {T} (l : list T) (b e : nat) : option (list T) :=
  if (b <=? e) && (e <=? length l) then Some (firstn (e - b) (skipn b l)) else None.
Definition splice {T} (l : list T) (b : nat) (s : list T) : list T := firstn b l ++ s ++ skipn (b + length s) l.

(** IntSort.h:154-195 iteration i of the parallel loop over the MSB buckets, on the pair (input array, buffer).
    Simplification: iterations are executed atomically, in any order; they access disjoint slices. *)
Definition bucket_task {T} (P : params) (key : T -> N) (splitter : list nat) (st : list T * list T) (i : nat)
  : option (list T * list T) :=
  let (A, B) := st in
  do b <- nth_error splitter i; do e <- nth_error splitter (S i);
  if b =? e then Some (A, B) else
  do sA <- slice A b e; do sB <- slice B b e;
  do s <- sort_bucket P key {| bA := sA; bB := sB; inB := true |};
  Some (splice A b (bA s), splice B b (bB s)).
Fixpoint bucket_tasks {T} (P : params) (key : T -> N) (splitter : list nat) (st : list T * list T) (order : list nat)
  : option (list T * list T) :=
  match order with
  | [] => Some st
  | i :: r => do st' <- bucket_task P key splitter st i; bucket_tasks P key splitter st' r
  end.

(** IntSort.h:74-199 sort.  A schedule is: the number of threads [t] of the parallel region, the order [tr] in which the
    writes of the MSB pass happen and the order of the bucket tasks.  Result: both arrays and the returned flag. *)
Definition sort_trivial (P : params) (n : nat) : bool := (n <? 2) || (max_key P <? 1)%N.
Definition sort_exec {T} (P : params) (key : T -> N) (t : nat) (xs buf : list T)
  (tr : list (nat * T)) (order : list nat) : option (list T * list T * bool) :=
  if sort_trivial P (length xs) then Some (xs, buf, false) else
  do (_, splitter) <- msb_pass P key t xs;
  do buf1 <- apply_writes tr buf;
  do (A, B) <- (if lsb_remaining_width P =? 0 then Some (xs, buf1)
                 else bucket_tasks P key splitter (xs, buf1) order);
  Some (A, B, (lsb_remaining_width P =? 0) || (no_iters P mod 2 =? 0)).
(** the schedules the runtime may choose *)
Definition valid_schedule {T} (P : params) (key : T -> N) (t : nat) (xs : list T)
  (tr : list (nat * T)) (order : list nat) : Prop :=
  (exists ws sp, msb_pass P key t xs = Some (ws, sp) /\ interleaving ws tr) /\
  Permutation.Permutation order (seq 0 (msb_radix P)).

(** IntSort.h:273-345 the wrappers: copy/swap the buffer back if needed *)
Definition intsort {T} (rw : nat) (key : T -> N) (max_key : N) (t : nat) (xs buf : list T)
  (tr : list (nat * T)) (order : list nat) : option (list T) :=
  do (A, B, need_buffer) <- sort_exec (mk_params rw max_key) key t xs buf tr order;
  Some (if need_buffer then B else A).

(** All outcomes of a call of intsort: the runtime picks a team size up to max_threads (IntSort.h:77, 91) and a schedule. *)
Definition intsort_outcome {T} (rw : nat) (key : T -> N) (max_key : N) (omp_max : nat) (xs buf : list T)
  (o : option (list T)) : Prop :=
  let P := mk_params rw max_key in
  if sort_trivial P (length xs) then o = Some xs else
  exists t, 1 <= t <= max_threads omp_max (length xs) /\
    match msb_pass P key t xs with
    | None => o = None
    | Some (ws, sp) => exists tr order, interleaving ws tr /\ Permutation.Permutation order (seq 0 (msb_radix P)) /\
                       o = intsort rw key max_key t xs buf tr order
    end.
