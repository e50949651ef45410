(** Model of the cell index construction: SpatialTree.inl:392-447 and (same text) hypergirgs RadiusLayer.cpp:107-161.
    [ids] are the cell ids of the points after sorting, [M] is max_cell_id, array cells are unsigned ints.
    Unsigned/int arithmetic on indices is exact as long as M + threads < 2^31 (guaranteed by C13's bounds). *)
From Coq Require Import Arith NArith List Bool.
From Verif Require Import Base Sched.
Import ListNotations.

(** SpatialTree.inl:393  std::numeric_limits<unsigned int>::max() *)
Definition GAP : N := (2 ^ 32 - 1)%N.

(** SpatialTree.inl:406-411 body of the parallel marking loop for index i: the write it performs, if any *)
Definition mark_write (ids : list nat) (i : nat) : option (list (nat * N)) :=
  do a <- nth_error ids (i - 1); do b <- nth_error ids i;
  Some (if a =? b then [] else [(b, N.of_nat i)]).
(** the writes of the threads of the marking loop (omp parallel for, static blocks of the iterations 1..n-1) *)
Definition mark_writes (ids : list nat) (t : nat) : option (list (list (nat * N))) :=
  omap (fun blk => do ws <- omap (mark_write ids) blk; Some (concat ws)) (static_split (seq 1 (length ids - 1)) t).

(** SpatialTree.inl:394-405 initialisation: all gaps, last entry n, first point's cell 0 *)
Definition mark_init (ids : list nat) (M : nat) : option (list N) :=
  do a1 <- upd (repeat GAP (M + 1)) M (N.of_nat (length ids));
  do c0 <- nth_error ids 0;
  upd a1 c0 0%N.

(** SpatialTree.inl:422, 431, 439-441 chunk of a thread *)
Definition rep_chunk (M t : nat) : nat := (M + t - 1) / t.
Definition rep_end (M t r : nat) : nat := Nat.min M (rep_chunk M t * (r + 1)).
Definition rep_begin (M t r : nat) : nat := Nat.min M (rep_chunk M t * r).
(** SpatialTree.inl:441  i = min(max_cell_id, begin + chunk_size) *)
Definition rep_start (M t r : nat) : nat := Nat.min M (rep_begin M t r + rep_chunk M t).

(** SpatialTree.inl:432-434  while (arr[k] == gap) k++ ; out of range = None *)
Fixpoint first_valid (fuel : nat) (arr : list N) (k : nat) : option nat :=
  match fuel with
  | 0 => None
  | S f => do v <- nth_error arr k; if (v =? GAP)%N then first_valid f arr (S k) else Some k
  end.
(** SpatialTree.inl:430-436 one iteration of the [omp single] loop *)
Definition fix_end (M t : nat) (arr : list N) (r : nat) : option (list N) :=
  let e := rep_end M t r in
  if e =? 0 then None else (* end - 1 would be -1 *)
  do k <- first_valid (S (length arr)) arr (e - 1);
  do v <- nth_error arr k;
  upd arr (e - 1) v.
Fixpoint fix_ends (M t : nat) (arr : list N) (rs : list nat) : option (list N) :=
  match rs with
  | [] => Some arr
  | r :: rest => do arr' <- fix_end M t arr r; fix_ends M t arr' rest
  end.

(** SpatialTree.inl:442-446 the repair loop as a small-step machine.  std::min(arr[i], arr[i+1]) takes references: it loads both
    words (in either order), compares, and the assignment loads the smaller one again before the store. *)
Inductive tstate :=
| TLoop (i : nat)                    (** about to test  i-- > begin  *)
| TBody (i : nat)                    (** inside the body with this i *)
| TGotA (i : nat) (a : N)            (** arr[i] loaded *)
| TGotB (i : nat) (b : N)            (** arr[i+1] loaded *)
| TReload (i k : nat)                (** std::min returned a reference to arr[k] *)
| TStore (i : nat) (v : N)
| TDone.

Inductive tstep (begin : nat) : list N -> tstate -> option (list N * tstate) -> Prop :=
| ts_exit arr i : i <= begin -> tstep begin arr (TLoop i) (Some (arr, TDone))
| ts_enter arr i : begin < i -> tstep begin arr (TLoop i) (Some (arr, TBody (i - 1)))
| ts_a1 arr i : tstep begin arr (TBody i) (do a <- nth_error arr i; Some (arr, TGotA i a))
| ts_b1 arr i : tstep begin arr (TBody i) (do b <- nth_error arr (i + 1); Some (arr, TGotB i b))
| ts_a2 arr i a : tstep begin arr (TGotA i a)
    (do b <- nth_error arr (i + 1); Some (arr, TReload i (if (b <? a)%N then i + 1 else i)))
| ts_b2 arr i b : tstep begin arr (TGotB i b)
    (do a <- nth_error arr i; Some (arr, TReload i (if (b <? a)%N then i + 1 else i)))
| ts_reload arr i k : tstep begin arr (TReload i k) (do v <- nth_error arr k; Some (arr, TStore i v))
| ts_store arr i v : tstep begin arr (TStore i v) (do arr' <- upd arr i v; Some (arr', TLoop i)).

(** the whole team: shared array plus one local state per thread; [None] = out-of-range access *)
Definition team := option (list N * list tstate).
Inductive team_step (M t : nat) : team -> team -> Prop :=
| team_ok arr ts1 s ts2 arr' s' :
    tstep (rep_begin M t (length ts1)) arr s (Some (arr', s')) ->
    team_step M t (Some (arr, ts1 ++ s :: ts2)) (Some (arr', ts1 ++ s' :: ts2))
| team_bad arr ts1 s ts2 :
    tstep (rep_begin M t (length ts1)) arr s None ->
    team_step M t (Some (arr, ts1 ++ s :: ts2)) None.
Inductive team_steps (M t : nat) : nat -> team -> team -> Prop :=
| steps_refl s : team_steps M t 0 s s
| steps_trans k s s' s'' : team_step M t s s' -> team_steps M t k s' s'' -> team_steps M t (S k) s s''.

Definition repair_init (M t : nat) (arr : list N) : team :=
  Some (arr, map (fun r => TLoop (rep_start M t r)) (seq 0 t)).
Definition all_done (ts : list tstate) : Prop := Forall (fun s => s = TDone) ts.

(** all outcomes of the construction with [t1] threads in the marking loop, [t2] in the repair region *)
Definition index_outcome (ids : list nat) (M t1 t2 : nat) (o : option (list N)) : Prop :=
  match mark_init ids M, mark_writes ids t1 with
  | Some arr0, Some ws =>
      exists tr, interleaving ws tr /\
      match apply_writes tr arr0 with
      | None => o = None
      | Some arr1 =>
        match fix_ends M t2 arr1 (seq 0 t2) with
        | None => o = None
        | Some arr2 =>
          (exists k ts arr, team_steps M t2 k (repair_init M t2 arr2) (Some (arr, ts)) /\ all_done ts /\ o = Some arr) \/
          (exists k, team_steps M t2 k (repair_init M t2 arr2) None /\ o = None)
        end
      end
  | _, _ => o = None
  end.
