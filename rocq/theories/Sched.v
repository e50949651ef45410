(** Interleavings of per-thread action lists, writes to shared arrays. *)
From Coq Require Import List Permutation Lia Arith.
From Verif Require Import Base.
Import ListNotations.

(** A schedule of a parallel region without synchronisation: each thread executes its own list in order,
    threads interleave arbitrarily. *)
Inductive interleaving {A} : list (list A) -> list A -> Prop :=
| il_done ls : Forall (fun l => l = []) ls -> interleaving ls []
| il_step ls1 x l ls2 tr :
    interleaving (ls1 ++ l :: ls2) tr -> interleaving (ls1 ++ (x :: l) :: ls2) (x :: tr).

Lemma concat_nils {A} (ls : list (list A)) : Forall (fun l => l = []) ls -> concat ls = [].
Proof. induction 1 as [|l ls H _ IH]; subst; simpl; auto. Qed.

Lemma interleaving_Permutation {A} (ls : list (list A)) tr :
  interleaving ls tr -> Permutation tr (concat ls).
Proof.
  induction 1 as [ls H|ls1 x l ls2 tr H IH].
  - rewrite concat_nils by assumption. constructor.
  - rewrite concat_app. simpl. rewrite <- Permutation_middle.
    constructor. rewrite IH, concat_app. simpl. reflexivity.
Qed.

Lemma interleaving_In {A} (ls : list (list A)) tr x :
  interleaving ls tr -> (In x tr <-> In x (concat ls)).
Proof. intros H%interleaving_Permutation. split; apply Permutation_in; auto. now apply Permutation_sym. Qed.

(** running the threads one after the other is one of the schedules *)
Lemma interleaving_concat {A} (ls : list (list A)) : interleaving ls (concat ls).
Proof.
  enough (H : forall pre, Forall (fun l : list A => l = []) pre -> interleaving (pre ++ ls) (concat ls)) by (apply (H []); constructor).
  induction ls as [|l ls IH]; intros pre Hpre; simpl.
  - rewrite app_nil_r. constructor. assumption.
  - induction l as [|x l IHl]; simpl.
    + replace (pre ++ [] :: ls) with ((pre ++ [[]]) ++ ls) by (rewrite <- app_assoc; reflexivity).
      apply IH. apply Forall_app. split; auto.
    + constructor. assumption.
Qed.

(** every subsequence belonging to one thread keeps its order *)
Lemma interleaving_nil {A} (tr : list A) : interleaving [] tr -> tr = [].
Proof. intros H. apply interleaving_Permutation in H. now apply Permutation_sym, Permutation_nil in H. Qed.

Lemma interleaving_single {A} (l tr : list A) : interleaving [l] tr -> tr = l.
Proof.
  remember [l] as ls eqn:E. intros H. revert l E. induction H as [ls H|ls1 x l' ls2 tr H IH]; intros l E; subst.
  - inversion H; subst. auto.
  - destruct ls1 as [|a [|b ls1]]; simpl in *; inversion E; subst.
    f_equal. apply IH. reflexivity.
Qed.

(** ** arrays *)
(** a[i] = x; None = out of range *)
Fixpoint upd {A} (l : list A) (i : nat) (x : A) : option (list A) :=
  match l, i with
  | [], _ => None
  | _ :: r, O => Some (x :: r)
  | a :: r, S i' => do r' <- upd r i' x; Some (a :: r')
  end.

Fixpoint apply_writes {A} (ws : list (nat * A)) (l : list A) : option (list A) :=
  match ws with
  | [] => Some l
  | (i, x) :: r => do l' <- upd l i x; apply_writes r l'
  end.

Lemma upd_Some {A} (l : list A) i x : i < length l ->
  exists l', upd l i x = Some l' /\ length l' = length l /\ nth_error l' i = Some x /\
             forall j, j <> i -> nth_error l' j = nth_error l j.
Proof.
  revert i; induction l as [|a l IH]; intros [|i] H; simpl in *; try lia.
  - eexists; repeat split; auto. intros [|j] Hj; [lia|reflexivity].
  - destruct (IH i ltac:(lia)) as (l' & E & L & N & O). rewrite E. simpl. eexists; repeat split; simpl; auto.
    intros [|j] Hj; simpl; auto.
Qed.

Lemma upd_None {A} (l : list A) i x : length l <= i -> upd l i x = None.
Proof. revert i; induction l as [|a l IH]; intros [|i] H; simpl in *; try lia; auto. rewrite IH by lia. reflexivity. Qed.

Lemma list_eq_nth {A} (l l' : list A) :
  length l = length l' -> (forall i, i < length l -> nth_error l i = nth_error l' i) -> l = l'.
Proof.
  revert l'; induction l as [|a l IH]; intros [|b l'] L H; simpl in *; try discriminate; auto.
  pose proof (H 0 ltac:(lia)) as H0. simpl in H0. inversion H0; subst. f_equal.
  apply IH; [lia|]. intros i Hi. apply (H (S i)). lia.
Qed.

(** writes that agree with a target array: every schedule gives the same result *)
Lemma apply_writes_agree {A} (ws : list (nat * A)) (l tgt : list A) :
  length l = length tgt ->
  (forall i x, In (i, x) ws -> nth_error tgt i = Some x) ->
  exists l', apply_writes ws l = Some l' /\ length l' = length tgt /\
    forall i, nth_error l' i = if in_dec Nat.eq_dec i (map fst ws) then nth_error tgt i else nth_error l i.
Proof.
  revert l; induction ws as [|[i x] ws IH]; intros l L H.
  - eexists; repeat split; auto.
  - assert (Hi : nth_error tgt i = Some x) by (apply H; left; reflexivity).
    assert (Hl : i < length l). { rewrite L. apply nth_error_Some. rewrite Hi. discriminate. }
    destruct (upd_Some l i x Hl) as (l1 & E1 & L1 & N1 & O1).
    destruct (IH l1) as (l2 & E2 & L2 & N2).
    + congruence.
    + intros. apply H. now right.
    + exists l2. simpl. rewrite E1. simpl. repeat split; auto.
      intros j. rewrite N2. simpl.
      destruct (in_dec Nat.eq_dec j (map fst ws)) as [Hj|Hj];
      destruct (Nat.eq_dec i j) as [<-|Hd]; auto; try congruence.
Qed.

Lemma apply_writes_total {A} (ws : list (nat * A)) (l tgt : list A) :
  length l = length tgt ->
  (forall i x, In (i, x) ws -> nth_error tgt i = Some x) ->
  (forall i, i < length tgt -> In i (map fst ws)) ->
  apply_writes ws l = Some tgt.
Proof.
  intros L H C. destruct (apply_writes_agree ws l tgt L H) as (l' & E & L' & N).
  rewrite E. f_equal. apply list_eq_nth; auto. intros i Hi. rewrite N.
  destruct (in_dec Nat.eq_dec i (map fst ws)) as [|Hn]; auto. exfalso. apply Hn, C. lia.
Qed.

(** ** libgomp's schedule(static): n iterations over t threads in contiguous blocks *)
Definition static_begin (n t tid : nat) : nat :=
  let q := n / t in let r := n mod t in tid * q + Nat.min tid r.
Definition static_block {A} (xs : list A) (t tid : nat) : list A :=
  let b := static_begin (length xs) t tid in
  let e := static_begin (length xs) t (S tid) in
  firstn (e - b) (skipn b xs).
Definition static_split {A} (xs : list A) (t : nat) : list (list A) :=
  map (static_block xs t) (seq 0 t).

Lemma static_begin_mono n t tid : static_begin n t tid <= static_begin n t (S tid).
Proof. unfold static_begin. nia. Qed.

Lemma static_begin_end n t : t <> 0 -> static_begin n t t = n.
Proof.
  intros H. unfold static_begin. pose proof (Nat.div_mod n t H). pose proof (Nat.mod_upper_bound n t H).
  rewrite Nat.min_r by lia. lia.
Qed.

Lemma concat_blocks {A} (xs : list A) (b : nat -> nat) k :
  b 0 = 0 -> (forall i, b i <= b (S i)) ->
  concat (map (fun i => firstn (b (S i) - b i) (skipn (b i) xs)) (seq 0 k)) = firstn (b k) xs.
Proof.
  intros H0 Hm. induction k as [|k IH]; [now rewrite H0|].
  rewrite seq_S, map_app, concat_app, IH. simpl. rewrite app_nil_r.
  specialize (Hm k). set (c := b (S k) - b k). replace (b (S k)) with (b k + c) by lia.
  clearbody c. generalize (b k) as m. intros m. clear. revert xs.
  induction m as [|m IHm]; intros [|x xs]; simpl; auto; [now rewrite firstn_nil|].
  rewrite IHm. reflexivity.
Qed.

Lemma static_split_concat {A} (xs : list A) t : t <> 0 -> concat (static_split xs t) = xs.
Proof.
  intros Ht. unfold static_split, static_block.
  rewrite (concat_blocks xs (static_begin (length xs) t)).
  - rewrite static_begin_end by assumption. apply firstn_all.
  - unfold static_begin. lia.
  - intros. apply static_begin_mono.
Qed.
