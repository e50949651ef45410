(** LazySorter: invariant over all query histories. *)
From Coq Require Import Arith NArith ZArith List Bool Reals Lia Lra Sorting.Sorted Sorting.Mergesort Permutation Orders.
From Flocq Require Import Core.
From Verif Require Import Base Scaling_Model.
Import ListNotations.
Local Open Scope R_scope.

(** insertion sort in decreasing order (only to show that an outcome exists) *)
Fixpoint ins (x : R) (l : list R) : list R := match l with [] => [x] | y :: r => if Rge_dec x y then x :: l else y :: ins x r end.
Fixpoint isort (l : list R) : list R := match l with [] => [] | x :: r => ins x (isort r) end.
Lemma ins_perm x l : Permutation (x :: l) (ins x l).
Proof. induction l as [|y l IH]; cbn; [reflexivity|]. destruct (Rge_dec x y); [reflexivity|]. etransitivity; [apply perm_swap|]. now constructor. Qed.
Lemma isort_perm l : Permutation l (isort l).
Proof. induction l as [|x l IH]; cbn; [constructor|]. etransitivity; [|apply ins_perm]. now constructor. Qed.
Lemma ins_sorted x l : StronglySorted Rge l -> StronglySorted Rge (ins x l).
Proof.
  induction 1 as [|y l Hs IH Hf]; cbn; [repeat constructor|]. destruct (Rge_dec x y) as [H|H].
  - constructor; [now constructor|]. constructor; [exact H|]. eapply Forall_impl; [|exact Hf]. cbn. intros; lra.
  - constructor; [exact IH|]. eapply Permutation_Forall; [apply ins_perm|]. constructor; [lra|exact Hf].
Qed.
Lemma isort_sorted l : StronglySorted Rge (isort l).
Proof. induction l as [|x l IH]; cbn; [constructor|]. now apply ins_sorted. Qed.

Lemma sorted_app (a b : list R) : StronglySorted Rge a -> StronglySorted Rge b -> (forall x y, In x a -> In y b -> x >= y) -> StronglySorted Rge (a ++ b).
Proof.
  induction a as [|x a IH]; intros Ha Hb H; [exact Hb|]. inversion_clear Ha as [|? ? Hs Hf]. cbn. constructor.
  - apply IH; auto. intros; apply H; cbn; auto.
  - apply Forall_forall. intros y Hy. apply in_app_or in Hy as [Hy|Hy]; [rewrite Forall_forall in Hf; auto|apply H; cbn; auto].
Qed.
Lemma sorted_firstn k (l : list R) : StronglySorted Rge l -> StronglySorted Rge (firstn k l).
Proof.
  revert k. induction l as [|x l IH]; intros k H; [now rewrite firstn_nil|]. destruct k; [constructor|]. inversion_clear H as [|? ? Hs Hf]. cbn. constructor; auto.
  apply Forall_forall. intros y Hy. rewrite Forall_forall in Hf. apply Hf. rewrite <- (firstn_skipn k l). apply in_or_app. now left.
Qed.

Definition valid_weights (ws : list R) : Prop := Forall (fun w => dbl_min <= w <= dbl_max) ws.
Lemma dbl_min_pos : 0 < dbl_min. Proof. apply bpow_gt_0. Qed.

Record lazy_inv (ws : list R) (st : lazy) : Prop := {
  li_perm : Permutation (larr st) ws;
  li_end : (lend st <= length (larr st))%nat;
  li_sorted : StronglySorted Rge (firstn (lend st) (larr st));
  li_pre : Forall (fun x => x >= llow st) (firstn (lend st) (larr st));
  li_suf : Forall (fun x => x <= llow st) (skipn (lend st) (larr st)) }.

Lemma inv_init ws : valid_weights ws -> lazy_inv ws (lazy_init ws).
Proof. intros V. constructor; cbn; auto; try constructor; [lia|]. eapply Forall_impl; [|exact V]. cbn. tauto. Qed.

(** what a query returns *)
Record query_ok (ws : list R) (thresh : R) (k : nat) (arr : list R) : Prop := {
  qo_perm : Permutation arr ws;
  qo_k : (k <= length ws)%nat;
  qo_sorted : StronglySorted Rge (firstn k arr);
  qo_in : Forall (fun x => x >= thresh) (firstn k arr);
  qo_out : Forall (fun x => x <= thresh) (skipn k arr) }.

Lemma partition_exists (thresh : R) (l : list R) : exists P Q, Permutation l (P ++ Q) /\ Forall (fun x => x >= thresh) P /\ Forall (fun x => ~ x >= thresh) Q.
Proof.
  induction l as [|x l (P & Q & HP & H1 & H2)]; [exists [], []; repeat constructor|]. destruct (Rge_dec x thresh) as [H|H].
  - exists (x :: P), Q. repeat split; auto. cbn. now constructor.
  - exists P, (x :: Q). repeat split; auto. etransitivity; [constructor; exact HP|]. apply Permutation_middle.
Qed.
Lemma partition_point (thresh : R) (l : list R) : StronglySorted Rge l ->
  exists k, (k <= length l)%nat /\ Forall (fun x => x > thresh) (firstn k l) /\ Forall (fun x => ~ x > thresh) (skipn k l).
Proof.
  induction 1 as [|x l Hs (k & H1 & H2 & H3) Hf]; [exists 0%nat; repeat constructor|]. destruct (Rgt_dec x thresh) as [H|H].
  - exists (S k). cbn. repeat split; auto. lia.
  - exists 0%nat. cbn. repeat split; auto; [lia|]. constructor; auto. eapply Forall_impl; [|exact Hf]. cbn. intros; lra.
Qed.

Lemma firstn_app_len {A} (a b : list A) n : length a = n -> firstn n (a ++ b) = a.
Proof. intros <-. rewrite firstn_app, Nat.sub_diag, firstn_all. cbn. apply app_nil_r. Qed.
Lemma skipn_app_len {A} (a b : list A) n : length a = n -> skipn n (a ++ b) = b.
Proof. intros <-. rewrite skipn_app, Nat.sub_diag, skipn_all. reflexivity. Qed.
Lemma Forall_firstn {A} (P : A -> Prop) k l : Forall P l -> Forall P (firstn k l).
Proof. intros H. apply Forall_forall. intros x Hx. rewrite Forall_forall in H. apply H. rewrite <- (firstn_skipn k l). apply in_or_app. now left. Qed.
Lemma Forall_skipn {A} (P : A -> Prop) k l : Forall P l -> Forall P (skipn k l).
Proof. intros H. apply Forall_forall. intros x Hx. rewrite Forall_forall in H. apply H. rewrite <- (firstn_skipn k l). apply in_or_app. now right. Qed.

Lemma skipn_skipn' {A} a b (l : list A) : skipn a (skipn b l) = skipn (b + a) l.
Proof. revert l. induction b as [|b IH]; intros l; [reflexivity|]. destruct l; [cbn; now rewrite skipn_nil|]. cbn. apply IH. Qed.
(** the sorted prefix never changes *)
Definition extends (st st' : lazy) : Prop := (lend st <= lend st')%nat /\ firstn (lend st) (larr st') = firstn (lend st) (larr st).

Theorem query_correct ws st thresh k st' : valid_weights ws -> lazy_inv ws st -> sort_downto st thresh k st' ->
  lazy_inv ws st' /\ query_ok ws thresh k (larr st') /\ extends st st' /\ (k <= lend st')%nat.
Proof.
  intros V I. destruct st as [arr e low]. destruct I as [IP IE IS IPre ISuf]. cbn [larr lend llow] in *.
  pose proof (firstn_length_le arr IE) as LF. pose proof (Permutation_length IP) as LW.
  unfold sort_downto. cbn [larr lend llow]. destruct (Rlt_dec thresh low) as [H|H].
  - intros (P & Q & HP & HPt & HQt & HM). pose proof (Permutation_length HP) as LPQ. rewrite skipn_length, app_length in LPQ.
    assert (PreT : Forall (fun x => x >= thresh) (firstn e arr)). { eapply Forall_impl; [|exact IPre]. cbn. intros; lra. }
    assert (QT : Forall (fun x => x <= thresh) Q). { eapply Forall_impl; [|exact HQt]. cbn. intros; lra. }
    assert (Perm1 : forall S', Permutation P S' -> Permutation (firstn e arr ++ S' ++ Q) ws).
    { intros S' HS'. transitivity arr; [|exact IP]. transitivity (firstn e arr ++ skipn e arr); [|now rewrite firstn_skipn].
      apply Permutation_app_head. rewrite HP. apply Permutation_app_tail. now symmetry. }
    destruct P as [|p0 P0].
    + destruct HM as [-> ->]. cbn [app length] in *. specialize (Perm1 [] (Permutation_refl _)). cbn in Perm1.
      assert (LA : length (firstn e arr ++ Q) = length ws) by (now apply Permutation_length).
      split; [|split; [|split]].
      * constructor; cbn [larr lend llow]; auto; rewrite ?firstn_app_len, ?skipn_app_len by exact LF; auto.
        -- lia.
        -- eapply Forall_impl; [|exact QT]. cbn. intros; lra.
      * constructor; cbn [larr lend llow]; auto; rewrite ?firstn_app_len, ?skipn_app_len by exact LF; auto. lia.
      * split; cbn; [lia|]. now rewrite firstn_app_len by exact LF.
      * cbn. lia.
    + set (P := p0 :: P0) in *. destruct HM as (S' & HS1 & HS2 & -> & ->). specialize (Perm1 S' HS1).
      pose proof (Permutation_length HS1) as LS.
      assert (PLow : Forall (fun x => x <= low) P).
      { apply Forall_forall. intros x Hx. rewrite Forall_forall in ISuf. apply ISuf. apply (Permutation_in x (Permutation_sym HP)). apply in_or_app. now left. }
      assert (ST : Forall (fun x => x >= thresh) S') by (eapply Permutation_Forall; eauto).
      assert (SLow : Forall (fun x => x <= low) S') by (eapply Permutation_Forall; eauto).
      assert (Sorted1 : StronglySorted Rge (firstn e arr ++ S')).
      { apply sorted_app; auto. intros x y Hx Hy. rewrite Forall_forall in IPre, SLow. specialize (IPre x Hx). specialize (SLow y Hy). cbn in *. lra. }
      assert (LA : length (firstn e arr ++ S' ++ Q) = length ws) by (now apply Permutation_length).
      assert (LFS : length (firstn e arr ++ S') = (e + length P)%nat) by (rewrite app_length, LF; lia).
      rewrite app_assoc in *. rewrite app_length, LFS in LA.
      assert (F1 : firstn (e + length P) ((firstn e arr ++ S') ++ Q) = firstn e arr ++ S') by (now apply firstn_app_len).
      assert (F2 : skipn (e + length P) ((firstn e arr ++ S') ++ Q) = Q) by (now apply skipn_app_len).
      assert (PT : Forall (fun x => x >= thresh) (firstn e arr ++ S')) by (apply Forall_app; auto).
      split; [|split; [|split]].
      * constructor; cbn [larr lend llow]; auto; rewrite ?F1, ?F2; auto.
        -- rewrite app_length, LFS. lia.
        -- destruct (Nat.eqb_spec (e + length P) (length arr)) as [Heq|Hne].
           ++ apply Forall_forall. intros x Hx. unfold valid_weights in V. rewrite Forall_forall in V.
              assert (In x ws). { apply (Permutation_in x Perm1). apply in_or_app. now left. }
              specialize (V x H0). destruct V. cbv beta in *. lra.
           ++ exact PT.
        -- destruct (Nat.eqb_spec (e + length P) (length arr)) as [Heq|Hne]; [|exact QT]. destruct Q as [|q Q]; [apply Forall_nil|exfalso; cbn [length] in LA, LPQ; lia].
      * constructor; cbn [larr lend llow]; auto; rewrite ?F1, ?F2; auto. lia.
      * split; cbn; [lia|]. rewrite <- app_assoc. now apply firstn_app_len.
      * cbn. lia.
  - intros (Hk & H1 & H2 & ->). cbn [larr lend llow]. split; [constructor; auto|]. split; [|split; [split; cbn; auto|cbn; auto]].
    constructor; auto; cbn [larr].
    + lia.
    + replace (firstn k arr) with (firstn k (firstn e arr)) by (rewrite firstn_firstn; f_equal; lia). now apply sorted_firstn.
    + eapply Forall_impl; [|exact H1]. cbn. intros; lra.
    + rewrite <- (firstn_skipn (e - k) (skipn k arr)). apply Forall_app. split.
      * eapply Forall_impl; [|exact H2]. cbn. intros; lra.
      * rewrite skipn_skipn'. replace (k + (e - k))%nat with e by lia. eapply Forall_impl; [|exact ISuf]. cbn. intros; lra.
Qed.

Theorem query_exists ws st thresh : lazy_inv ws st -> exists k st', sort_downto st thresh k st'.
Proof.
  intros I. destruct st as [arr e low]. destruct I as [IP IE IS IPre ISuf]. unfold sort_downto. cbn [larr lend llow] in *. destruct (Rlt_dec thresh low) as [H|H].
  - destruct (partition_exists thresh (skipn e arr)) as (P & Q & H1 & H2 & H3). destruct P as [|p P].
    + do 2 eexists. exists [], Q. repeat split; auto.
    + do 2 eexists. exists (p :: P), Q. split; [exact H1|]. split; [exact H2|]. split; [exact H3|]. exists (isort (p :: P)).
      split; [apply isort_perm|]. split; [apply isort_sorted|]. split; reflexivity.
  - destruct (partition_point thresh _ IS) as (k & H1 & H2 & H3). rewrite firstn_length_le in H1 by exact IE. exists k. eexists.
    split; [exact H1|]. rewrite firstn_firstn, Nat.min_l in H2 by exact H1. split; [exact H2|]. split; [|reflexivity].
    rewrite firstn_skipn_comm. replace (k + (e - k))%nat with e by lia. exact H3.
Qed.
