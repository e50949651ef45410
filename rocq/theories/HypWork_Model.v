(** How much work the recursion of HyperbolicTree does: the same functions as in Hyp_Model.v, recording the invocations of visitCellPair,
    visitCellPairSample and visitCellPairCreateTasks and their loop iterations instead of the sampling calls they make.
    An invocation is a [vis] = (cellA, cellB, level) of GirgCost_Model.v. *)
From Coq Require Import Arith NArith ZArith List Bool Reals.
From Verif Require Import Base Sched Tree_Model Hyp_Model GirgCost_Model.
Import ListNotations.
Local Open Scope N_scope.

(** HyperbolicTree.inl:148-183 visitCellPair: the invocations made by visitCellPair(A, B, level), itself included, in program order *)
Fixpoint hvisits (t : htree) (fuel : nat) (A B level : N) : option (list vis) :=
  do tch <- htouching A B level;
  if negb tch then Some [(A, B, level)]
  else if level =? h_levels t - 1 then Some [(A, B, level)]
  else match fuel with
       | O => None
       | S f => do rs <- omap (fun ab => hvisits t f (fst ab) (snd ab) (level + 1)) (hchild_pairs A B);
                Some ((A, B, level) :: concat rs)
       end.
(** HyperbolicTree.inl:215-264 visitCellPairSample: the invocations do not depend on thread_shift *)
Fixpoint hsample_visits (t : htree) (fpl : N) (fuel : nat) (A B level : N) : option (list vis) :=
  do tch <- htouching A B level;
  if negb tch then Some [(A, B, level)]
  else if level =? h_levels t - 1 then Some [(A, B, level)]
  else if level + 1 =? fpl then Some [(A, B, level)]
  else match fuel with
       | O => None
       | S f => do rs <- omap (fun ab => hsample_visits t fpl f (fst ab) (snd ab) (level + 1)) (hchild_pairs A B);
                Some ((A, B, level) :: concat rs)
       end.
(** HyperbolicTree.inl:186-213 visitCellPairCreateTasks: the invocations and the tasks stored in parallel_calls *)
Fixpoint hcreate_visits (fpl : N) (fuel : nat) (A B level : N) : option (list vis * list (N * N)) :=
  do tch <- htouching A B level;
  if negb tch then Some ([(A, B, level)], [])
  else if level + 1 =? fpl then Some ([(A, B, level)], hchild_pairs A B)
  else match fuel with
       | O => None
       | S f => do rs <- omap (fun ab => hcreate_visits fpl f (fst ab) (snd ab) (level + 1)) (hchild_pairs A B);
                Some ((A, B, level) :: concat (map fst rs), concat (map snd rs))
       end.
(** HyperbolicTree.inl:150-169: the calls of sampleTypeI and sampleTypeII of one invocation of visitCellPair; with [skip] the type II
    calls are left out (lines 152-154, release build and T = 0; visitCellPairSample, 227-246, never leaves them out but only makes every
    num_threads-th call, see my_calls) *)
Definition hvis_calls (skip : bool) (t : htree) (v : vis) : list call :=
  let '(A, B, l) := v in
  match htouching A B l with
  | Some true => hnear_calls t A B l
  | Some false => if skip then [] else hfar_calls t A B l
  | None => []
  end.
(** HyperbolicTree.inl:150-169 (227-246): one for the invocation and one for every iteration of its loops over levels and layer pairs *)
Definition hvis_steps (skip : bool) (t : htree) (v : vis) : nat :=
  let '(A, B, l) := v in
  (1 + match htouching A B l with
       | Some true => length (h_layer_pairs t l)
       | _ => if skip then 0 else list_sum (map (fun l' => 1 + length (h_layer_pairs t l')) (Nrange l (h_levels t - 1)))
       end)%nat.
(** HyperbolicTree.inl:34-52: the number of DistanceFilter objects in m_typeII_filter (two for every level 2..PBL of a layer pair) *)
Definition h_filters (t : htree) : nat :=
  if Req_EM_T (h_T t) 0 then 0%nat else
  list_sum (map (fun ij => 2 * length (Nrange 2 (h_base t (fst ij) (snd ij))))%nat (list_prod (seq 0 (h_layers t)) (seq 0 (h_layers t)))).
