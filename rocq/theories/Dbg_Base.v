(** Assertions of a debug build, common to both generators. *)
From Coq Require Import Arith NArith List Bool Sorted Lia.
From Verif Require Import Base Sched IntSort_Model IntSort_Proofs IntSort_Main.
Import ListNotations.
Local Open Scope N_scope.

(** assert(b): a false assertion ends the program *)
Definition dassert (b : bool) : option unit := if b then Some tt else None.
(** std::is_sorted *)
Fixpoint is_sorted (l : list N) : bool := match l with a :: ((b :: _) as r) => (a <=? b) && is_sorted r | _ => true end.
(** IntSort.h:35-36 for the logarithm of [x] (not evaluated for 0, line 25) *)
Definition ilog2_asserts (x : N) : bool :=
  if x =? 0 then true else let i := N.of_nat (ilog2 x) in (x <=? N.shiftl 1 i) && (N.shiftl 1 i / 2 <? x).
Lemma ilog2_asserts_hold x : ilog2_asserts x = true.
Proof.
  unfold ilog2_asserts. destruct (N.eqb_spec x 0) as [|H]; [reflexivity|]. cbv zeta. rewrite N.shiftl_1_l. apply andb_true_intro. split.
  - apply N.leb_le, ilog2_spec.
  - apply N.ltb_lt. destruct (ilog2 x) as [|k] eqn:E; [change (2 ^ N.of_nat 0 / 2) with 0; lia|].
    assert (L : ~ x <= 2 ^ N.of_nat k). { intros L. apply ilog2_le in L. lia. }
    replace (N.of_nat (S k)) with (N.of_nat k + 1) by lia. rewrite N.pow_add_r. change (2 ^ 1) with 2. rewrite N.div_mul by lia. lia.
Qed.
