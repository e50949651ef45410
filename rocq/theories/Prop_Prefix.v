(** Property C18: the cell index is a prefix sum for every schedule. *)
From Coq Require Import Arith NArith List Bool Permutation Lia Sorted.
From Verif Require Import Base Sched IntSort_Proofs Prefix_Model Prefix_Proofs.
Import ListNotations.

(** *** Specification: entry c of the index is the number of points in cells smaller than c *)
Definition is_prefix_index (ids : list nat) (M : nat) (arr : list N) : Prop :=
  length arr = M + 1 /\
  forall c, c <= M -> nth_error arr c = Some (N.of_nat (length (filter (fun x => x <? c) ids))).

Theorem C18_cell_index (ids : list nat) (M t1 t2 : nat) :
  StronglySorted le ids -> (forall x, In x ids -> x < M) -> 1 <= length ids -> (N.of_nat (length ids) < 2 ^ 32 - 1)%N ->
  1 <= t1 -> 1 <= t2 ->
  (exists o, index_outcome ids M t1 t2 o) /\
  (forall o, index_outcome ids M t1 t2 o -> exists arr, o = Some arr /\ is_prefix_index ids M arr).
Proof.
  intros Hs Hlt Hn Hsm H1 H2. destruct (index_correct ids M t1 t2 Hs Hlt Hn Hsm H1 H2) as [He Ho]. split; auto.
  intros o H. exists (index_final ids M). split; [auto|]. unfold index_final. split; [apply tab_length|].
  intros c Hc. rewrite tab_nth by lia. reflexivity.
Qed.

(** the repair region terminates under every schedule: no execution has more than 5*M + t + 1 steps, and as long as some thread is not
    finished there is a next step *)
Lemma tsum_init M t n r0 :
  tsum M t r0 (map (fun r => TLoop (rep_start M t r)) (seq r0 n)) <= 5 * (rep_begin M t (r0 + n) - rep_begin M t r0) + n.
Proof.
  revert r0; induction n as [|n IH]; intros r0; simpl; [lia|]. specialize (IH (S r0)).
  assert (E : rep_start M t r0 = rep_begin M t (S r0)).
  { unfold rep_start, rep_begin. rewrite Nat.mul_succ_r. lia. }
  rewrite E. replace (r0 + S n) with (S r0 + n) by lia.
  assert (Hm : forall a b, a <= b -> rep_begin M t a <= rep_begin M t b) by (intros a b H; unfold rep_begin; nia).
  pose proof (Hm r0 (S r0) ltac:(lia)). pose proof (Hm (S r0) (S r0 + n) ltac:(lia)). lia.
Qed.
Theorem C18_repair_terminates (M t : nat) (arr : list N) k s :
  team_steps M t k (repair_init M t arr) s -> k <= 5 * M + t + 1.
Proof.
  intros H. pose proof (steps_bounded M t k _ _ H) as Hb. unfold repair_init, team_meas in Hb.
  pose proof (tsum_init M t t 0) as Hi.
  assert (rep_begin M t (0 + t) <= M) by (unfold rep_begin; lia). simpl in *. lia.
Qed.
Theorem C18_repair_progress (M t : nat) (arr : list N) (ts : list tstate) :
  ~ all_done ts -> exists s', team_step M t (Some (arr, ts)) s'.
Proof. apply can_step. Qed.

Example C18_witness : let ids := [2; 2; 5; 6] in
  StronglySorted le ids /\ (forall x, In x ids -> x < 9) /\ is_prefix_index ids 9 (map N.of_nat [0; 0; 0; 2; 2; 2; 3; 4; 4; 4]).
Proof.
  cbv zeta. split; [repeat constructor|]. split.
  - intros x H. simpl in H. repeat (destruct H as [<-|H]; [lia|]). destruct H.
  - split; [reflexivity|]. intros c Hc. do 10 (destruct c as [|c]; [reflexivity|]). lia.
Qed.
Print Assumptions C18_cell_index.
Print Assumptions C18_repair_terminates.
