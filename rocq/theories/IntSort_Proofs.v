(** Proofs about the radix sort. *)
From Coq Require Import Arith NArith List Bool Permutation Lia Sorted.
From Verif Require Import Base Sched IntSort_Model.
Import ListNotations.

(** ** tables *)
Definition tab {A} (Q : nat) (g : nat -> A) : list A := map g (seq 0 Q).

Lemma tab_length {A} Q (g : nat -> A) : length (tab Q g) = Q.
Proof. unfold tab. now rewrite map_length, seq_length. Qed.
Lemma nth_error_seq a n i : i < n -> nth_error (seq a n) i = Some (a + i).
Proof. revert a i; induction n as [|n IH]; intros a [|i] H; simpl; try lia; [f_equal; lia|]. rewrite IH by lia. f_equal; lia. Qed.
Lemma tab_nth {A} Q (g : nat -> A) q : q < Q -> nth_error (tab Q g) q = Some (g q).
Proof. intros H. unfold tab. rewrite nth_error_map, nth_error_seq by assumption. reflexivity. Qed.
Lemma tab_ext {A} Q (g h : nat -> A) : (forall q, q < Q -> g q = h q) -> tab Q g = tab Q h.
Proof. intros H. apply map_ext_in. intros a Ha%in_seq. apply H. lia. Qed.
Lemma tab_S {A} Q (g : nat -> A) : tab (S Q) g = tab Q g ++ [g Q].
Proof. unfold tab. rewrite seq_S, map_app. reflexivity. Qed.
Lemma tab_S' {A} Q (g : nat -> A) : tab (S Q) g = g 0 :: tab Q (fun q => g (S q)).
Proof. unfold tab. simpl. now rewrite <- seq_shift, map_map. Qed.
Lemma tab_upd {A} Q (g : nat -> A) q v : q < Q ->
  upd (tab Q g) q v = Some (tab Q (fun q' => if q' =? q then v else g q')).
Proof.
  intros H. destruct (upd_Some (tab Q g) q v) as (l' & E & L & N & O); [now rewrite tab_length|].
  rewrite E. f_equal. rewrite tab_length in L. apply list_eq_nth; [now rewrite tab_length|].
  intros i Hi. rewrite L in Hi. rewrite tab_nth by assumption.
  destruct (Nat.eqb_spec i q) as [->|Hd]; auto. rewrite O by assumption. now rewrite tab_nth.
Qed.
Lemma tab_repeat Q : repeat 0 Q = tab Q (fun _ => 0).
Proof. induction Q; auto. rewrite tab_S'. simpl. now f_equal. Qed.

Lemma omap_map {A B} (f : A -> option B) g l : (forall x, In x l -> f x = Some (g x)) -> omap f l = Some (map g l).
Proof. induction l as [|a l IH]; intros H; simpl; auto. rewrite H by (left; auto). simpl. rewrite IH; auto. intros; apply H; now right. Qed.

(** ** counting sort *)
Section Csort.
Context {T : Type}.
Implicit Types (xs ys : list T) (f : T -> nat).

Definition fil f (q : nat) xs := filter (fun x => f x =? q) xs.
Definition cnt f q xs := length (fil f q xs).
Definition csort f Q xs : list T := flat_map (fun q => fil f q xs) (seq 0 Q).
Definition start f q xs : nat := length (csort f q xs).

Lemma fil_app f q xs ys : fil f q (xs ++ ys) = fil f q xs ++ fil f q ys.
Proof. apply filter_app. Qed.
Lemma cnt_app f q xs ys : cnt f q (xs ++ ys) = cnt f q xs + cnt f q ys.
Proof. unfold cnt. now rewrite fil_app, app_length. Qed.
Lemma cnt_cons f q x xs : cnt f q (x :: xs) = (if f x =? q then 1 else 0) + cnt f q xs.
Proof. unfold cnt. simpl. destruct (f x =? q); reflexivity. Qed.
Lemma csort_S f Q xs : csort f (S Q) xs = csort f Q xs ++ fil f Q xs.
Proof. unfold csort. rewrite seq_S, flat_map_app. simpl. now rewrite app_nil_r. Qed.
Lemma start_S f q xs : start f (S q) xs = start f q xs + cnt f q xs.
Proof. unfold start. now rewrite csort_S, app_length. Qed.
Lemma start_0 f xs : start f 0 xs = 0.
Proof. reflexivity. Qed.
Lemma start_mono f p q xs : p <= q -> start f p xs <= start f q xs.
Proof. induction 1; auto. rewrite start_S. lia. Qed.
Lemma csort_split f q Q xs : q < Q ->
  csort f Q xs = csort f q xs ++ fil f q xs ++ flat_map (fun q => fil f q xs) (seq (S q) (Q - S q)).
Proof.
  intros H. unfold csort. replace Q with (q + (1 + (Q - S q))) at 1 by lia.
  rewrite seq_app, flat_map_app. simpl. reflexivity.
Qed.

Lemma csort_cons_len f Q x xs : f x < Q -> length (csort f Q (x :: xs)) = S (length (csort f Q xs)).
Proof.
  induction Q as [|Q IH]; [lia|]. intros H. rewrite !csort_S, !app_length.
  assert (E : length (fil f Q (x :: xs)) = (if f x =? Q then 1 else 0) + length (fil f Q xs)) by apply cnt_cons.
  rewrite E. destruct (Nat.eqb_spec (f x) Q) as [Hd|Hd].
  - assert (G : forall k, k <= f x -> length (csort f k (x :: xs)) = length (csort f k xs)).
    { induction k as [|k IHk]; intros Hk; [reflexivity|]. rewrite !csort_S, !app_length, IHk by lia. f_equal. f_equal.
      unfold fil; simpl. destruct (Nat.eqb_spec (f x) k); [lia|reflexivity]. }
    rewrite G by lia. lia.
  - rewrite IH by lia. lia.
Qed.
Lemma csort_length f Q xs : (forall x, In x xs -> f x < Q) -> length (csort f Q xs) = length xs.
Proof.
  induction xs as [|x xs IH]; intros H.
  - unfold csort. induction (seq 0 Q); auto.
  - rewrite csort_cons_len by (apply H; left; auto). rewrite IH; [reflexivity|]. intros; apply H; now right.
Qed.
Lemma fil_ge_nil f q Q xs : (forall x, In x xs -> f x < Q) -> Q <= q -> fil f q xs = [].
Proof.
  intros H Hq. unfold fil. induction xs as [|x xs IH]; auto. simpl.
  destruct (Nat.eqb_spec (f x) q) as [E|E]; [exfalso; specialize (H x (or_introl eq_refl)); lia|].
  apply IH. intros; apply H; now right.
Qed.
Lemma csort_more f Q Q' xs : (forall x, In x xs -> f x < Q) -> Q <= Q' -> csort f Q' xs = csort f Q xs.
Proof.
  intros H. induction 1 as [|Q' HQ IH]; auto. rewrite csort_S, IH, (fil_ge_nil f Q' Q) by assumption. apply app_nil_r.
Qed.

(** *** the writes of the scatter loop *)
Fixpoint wr f (p : nat -> nat) xs : list (nat * T) :=
  match xs with
  | [] => []
  | x :: r => (p (f x), x) :: wr f (fun q => if q =? f x then S (p q) else p q) r
  end.
Lemma wr_ext f p p' xs : (forall q, p q = p' q) -> wr f p xs = wr f p' xs.
Proof. revert p p'; induction xs as [|x xs IH]; intros p p' H; simpl; auto. rewrite H. f_equal. apply IH. intros q. now rewrite H. Qed.
Lemma wr_app f p xs ys : wr f p (xs ++ ys) = wr f p xs ++ wr f (fun q => p q + cnt f q xs) ys.
Proof.
  revert p; induction xs as [|x xs IH]; intros p; simpl.
  - apply wr_ext. intros; unfold cnt; simpl; lia.
  - f_equal. rewrite IH. f_equal. apply wr_ext. intros q. rewrite cnt_cons, (Nat.eqb_sym (f x)). destruct (q =? f x); lia.
Qed.
Lemma wr_In f p xs i x : In (i, x) (wr f p xs) -> exists l r, xs = l ++ x :: r /\ i = p (f x) + cnt f (f x) l.
Proof.
  revert p; induction xs as [|y xs IH]; intros p H; simpl in H; [tauto|]. destruct H as [H|H].
  - inversion H; subst. exists [], xs. split; [reflexivity|]. unfold cnt; simpl; lia.
  - apply IH in H as (l & r & -> & ->). exists (y :: l), r. split; auto. rewrite cnt_cons.
    rewrite (Nat.eqb_sym (f y)). destruct (f x =? f y); lia.
Qed.
Lemma In_wr f p l x r : In (p (f x) + cnt f (f x) l, x) (wr f p (l ++ x :: r)).
Proof. rewrite wr_app. apply in_or_app. right. left. reflexivity. Qed.

Lemma csort_nth f Q l x r : f x < Q -> nth_error (csort f Q (l ++ x :: r)) (start f (f x) (l ++ x :: r) + cnt f (f x) l) = Some x.
Proof.
  intros H. rewrite (csort_split f (f x)) by assumption. unfold start. rewrite nth_error_app2 by lia.
  rewrite (Nat.add_comm _ (cnt f (f x) l)), Nat.add_sub. rewrite fil_app. rewrite <- app_assoc.
  unfold cnt. rewrite nth_error_app2 by lia. rewrite Nat.sub_diag. simpl. now rewrite Nat.eqb_refl.
Qed.
Lemma fil_pos f q xs k : k < cnt f q xs -> exists l x r, xs = l ++ x :: r /\ f x = q /\ cnt f q l = k.
Proof.
  revert k; induction xs as [|y xs IH]; intros k H; [unfold cnt in H; simpl in H; lia|].
  rewrite cnt_cons in H. destruct (Nat.eqb_spec (f y) q) as [E|E].
  - destruct k as [|k]; [exists [], y, xs; auto|]. destruct (IH k) as (l & x & r & -> & Hx & Hc); [lia|].
    exists (y :: l), x, r. rewrite cnt_cons, E, Nat.eqb_refl. repeat split; auto; lia.
  - destruct (IH k) as (l & x & r & -> & Hx & Hc); [lia|]. exists (y :: l), x, r. rewrite cnt_cons.
    destruct (Nat.eqb_spec (f y) q); [congruence|]. repeat split; auto.
Qed.
Lemma csort_pos f Q xs i : i < length (csort f Q xs) ->
  exists l x r, xs = l ++ x :: r /\ f x < Q /\ i = start f (f x) xs + cnt f (f x) l.
Proof.
  induction Q as [|Q IH]; [simpl; lia|]. rewrite csort_S, app_length. intros H.
  destruct (Nat.lt_ge_cases i (length (csort f Q xs))) as [Hi|Hi].
  - destruct (IH Hi) as (l & x & r & E & Hx & Hc). exists l, x, r. repeat split; auto.
  - destruct (fil_pos f Q xs (i - length (csort f Q xs))) as (l & x & r & E & Hx & Hc); [unfold cnt; lia|].
    exists l, x, r. rewrite Hx, Hc. repeat split; auto; unfold start; lia.
Qed.

(** any arrangement of the writes fills the array with the counting sort of the input *)
Theorem scatter_writes f Q xs ws (buf : list T) :
  (forall x, In x xs -> f x < Q) -> length buf = length xs ->
  (forall w, In w ws <-> In w (wr f (fun q => start f q xs) xs)) ->
  apply_writes ws buf = Some (csort f Q xs).
Proof.
  intros HQ HL Hw. apply apply_writes_total.
  - now rewrite csort_length.
  - intros i x H. apply Hw, wr_In in H as (l & r & -> & ->). apply csort_nth. apply HQ. apply in_elt.
  - intros i Hi. destruct (csort_pos f Q xs i Hi) as (l & x & r & E & Hx & ->).
    apply (in_map fst _ (start f (f x) xs + cnt f (f x) l, x)). apply Hw.
    pose proof (In_wr f (fun q => start f q xs) l x r) as G. rewrite <- E in G. exact G.
Qed.

(** *** the loops compute tables *)
Lemma count_into_tab (fo : T -> option nat) f Q xs g :
  (forall x, In x xs -> fo x = Some (f x) /\ f x < Q) ->
  count_into fo xs (tab Q g) = Some (tab Q (fun q => g q + cnt f q xs)).
Proof.
  revert g; induction xs as [|x xs IH]; intros g H; simpl.
  - f_equal. apply tab_ext. intros. unfold cnt. simpl. lia.
  - destruct (H x (or_introl eq_refl)) as [E L]. rewrite E. simpl. unfold incr. rewrite tab_nth by assumption. simpl.
    rewrite tab_upd by assumption. simpl. rewrite IH by (intros; apply H; now right).
    f_equal. apply tab_ext. intros q Hq. rewrite cnt_cons, (Nat.eqb_sym (f x)). destruct (Nat.eqb_spec q (f x)); subst; lia.
Qed.
Lemma count_all_tab (fo : T -> option nat) f Q xs :
  (forall x, In x xs -> fo x = Some (f x) /\ f x < Q) -> count_all fo Q xs = Some (tab Q (fun q => cnt f q xs)).
Proof. intros H. unfold count_all. rewrite tab_repeat. rewrite (count_into_tab _ f) by assumption. reflexivity. Qed.
Lemma scatter_tab (fo : T -> option nat) f Q xs p :
  (forall x, In x xs -> fo x = Some (f x) /\ f x < Q) -> scatter fo (tab Q p) xs = Some (wr f p xs).
Proof.
  revert p; induction xs as [|x xs IH]; intros p H; simpl; auto.
  destruct (H x (or_introl eq_refl)) as [E L]. rewrite E. simpl. rewrite tab_nth by assumption. simpl.
  rewrite tab_upd by assumption. simpl. rewrite IH by (intros; apply H; now right). simpl.
  f_equal. f_equal. apply wr_ext. intros q. destruct (Nat.eqb_spec q (f x)); subst; auto.
Qed.

(** *** queue pointers *)
Lemma qp_threads_eq f Q chs tid ttid qid index tmp : qid < Q ->
  qp_threads (map (fun ch => tab Q (fun q => cnt f q ch)) chs) tid ttid qid index tmp =
  Some (index + cnt f qid (concat chs),
        if (ttid <=? tid) && (tid <? ttid + length chs) then index + cnt f qid (concat (firstn (tid - ttid) chs)) else tmp).
Proof.
  intros Hq. revert ttid index tmp; induction chs as [|ch chs IH]; intros ttid index tmp; simpl.
  - destruct (Nat.leb_spec ttid tid), (Nat.ltb_spec tid (ttid + 0)); simpl; unfold cnt; simpl; try lia; f_equal; f_equal; lia.
  - rewrite tab_nth by assumption. simpl. rewrite IH. f_equal. f_equal.
    + rewrite cnt_app. lia.
    + destruct (Nat.eqb_spec ttid tid) as [->|Hd].
      * destruct (Nat.leb_spec (S tid) tid); [lia|]. destruct (Nat.leb_spec tid tid); [|lia].
        destruct (Nat.ltb_spec tid (tid + S (length chs))); [|lia]. simpl. rewrite Nat.sub_diag. unfold cnt; simpl. lia.
      * destruct (Nat.leb_spec (S ttid) tid), (Nat.leb_spec ttid tid); try lia; auto.
        destruct (Nat.ltb_spec tid (S ttid + length chs)), (Nat.ltb_spec tid (ttid + S (length chs))); try lia; simpl; auto.
        replace (tid - ttid) with (S (tid - S ttid)) by lia. simpl. rewrite cnt_app. lia.
Qed.
Lemma qp_queues_eq f Q chs tid k qid tmp : tid < length chs -> qid + k <= Q ->
  qp_queues k (map (fun ch => tab Q (fun q => cnt f q ch)) chs) tid qid (start f qid (concat chs)) tmp =
  Some (map (fun q => start f q (concat chs) + cnt f q (concat (firstn tid chs))) (seq qid k)).
Proof.
  intros Ht. revert qid tmp; induction k as [|k IH]; intros qid tmp Hk; simpl; auto.
  rewrite qp_threads_eq by lia. cbv iota beta delta [obind].
  destruct (Nat.leb_spec 0 tid); [|lia]. destruct (Nat.ltb_spec tid (0 + length chs)); [|lia].
  rewrite <- start_S. cbn [andb]. rewrite IH by lia. rewrite Nat.sub_0_r. reflexivity.
Qed.

(** *** stability *)
(** ys is xs sorted by g, equal keys in input order *)
Definition stable_sort_of (g : T -> N) xs ys : Prop :=
  StronglySorted (fun a b => (g a <= g b)%N) ys /\ forall k, filter (fun x => (g x =? k)%N) ys = filter (fun x => (g x =? k)%N) xs.

Lemma SSorted_filter (R : T -> T -> Prop) (p : T -> bool) xs : StronglySorted R xs -> StronglySorted R (filter p xs).
Proof.
  induction 1 as [|a l H IH F]; simpl; [constructor|]. destruct (p a); auto. constructor; auto.
  rewrite Forall_forall in *. intros y Hy%filter_In. apply F. tauto.
Qed.
Lemma SSorted_app (R : T -> T -> Prop) xs ys : StronglySorted R xs -> StronglySorted R ys ->
  (forall x y, In x xs -> In y ys -> R x y) -> StronglySorted R (xs ++ ys).
Proof.
  induction 1 as [|a l H IH F]; intros Hy Hc; simpl; auto. constructor.
  - apply IH; auto. intros; apply Hc; auto. now right.
  - apply Forall_app. split; auto. apply Forall_forall. intros y Hiny. apply Hc; auto. now left.
Qed.
Lemma filter_filter_and (p q : T -> bool) xs : filter p (filter q xs) = filter (fun x => q x && p x) xs.
Proof. induction xs as [|x xs IH]; simpl; auto. destruct (q x) eqn:E; simpl; rewrite IH; auto. Qed.
Lemma filter_none (p : T -> bool) xs : (forall x, In x xs -> p x = false) -> filter p xs = [].
Proof. induction xs as [|x xs IH]; intros H; simpl; auto. rewrite H by (left; auto). apply IH. intros; apply H; now right. Qed.
Lemma csort_In f Q xs x : In x (csort f Q xs) <-> In x xs /\ f x < Q.
Proof.
  unfold csort. rewrite in_flat_map. split.
  - intros (q & Hq%in_seq & Hx). unfold fil in Hx. apply filter_In in Hx as [Hx E%Nat.eqb_eq]. subst. split; auto; lia.
  - intros [Hx Hq]. exists (f x). split; [apply in_seq; lia|]. apply filter_In. split; auto. apply Nat.eqb_refl.
Qed.
(** [body q] sorts the elements with digit q by g; concatenating over the digits sorts by g if the digit refines g *)
Lemma concat_stable (f : T -> nat) (g : T -> N) Q xs (body : nat -> list T) :
  (forall x, In x xs -> f x < Q) ->
  (forall x y, In x xs -> In y xs -> f x < f y -> (g x <= g y)%N) ->
  (forall x y, In x xs -> In y xs -> g x = g y -> f x = f y) ->
  (forall q, q < Q -> stable_sort_of g (fil f q xs) (body q)) ->
  stable_sort_of g xs (flat_map body (seq 0 Q)).
Proof.
  intros HQ Hm Hi Hb.
  assert (Hin : forall q x, q < Q -> In x (body q) -> In x xs /\ f x = q).
  { intros q x Hq Hx. destruct (Hb q Hq) as [_ F]. specialize (F (g x)).
    assert (Hx' : In x (filter (fun y => (g y =? g x)%N) (body q))) by (apply filter_In; split; auto; apply N.eqb_refl).
    rewrite F in Hx'. apply filter_In in Hx' as [Hx' _]. apply filter_In in Hx' as [Hx1 E%Nat.eqb_eq]. auto. }
  split.
  - clear HQ. assert (G : forall k, k <= Q -> StronglySorted (fun a b => (g a <= g b)%N) (flat_map body (seq 0 k))).
    { induction k as [|k IH]; intros Hk; [constructor|]. rewrite seq_S, flat_map_app. simpl. rewrite app_nil_r.
      apply SSorted_app; [apply IH; lia|apply (Hb k); lia|].
      intros x y Hx Hy. apply in_flat_map in Hx as (q & Hq%in_seq & Hx).
      apply Hin in Hx as [Hx E]; [|lia]. apply Hin in Hy as [Hy E']; [|lia]. apply Hm; auto. lia. }
    apply G. lia.
  - intros k.
    assert (G : forall m, m <= Q -> filter (fun x => (g x =? k)%N) (flat_map body (seq 0 m)) =
                          filter (fun x => (f x <? m) && (g x =? k)%N) xs).
    { induction m as [|m IH]; intros Hmm.
      - simpl. symmetry. apply filter_none. intros; reflexivity.
      - rewrite seq_S, flat_map_app, filter_app, IH by lia. simpl. rewrite app_nil_r.
        destruct (Hb m) as [_ F]; [lia|]. rewrite F. unfold fil. rewrite filter_filter_and.
        (* either the key k has digit m, or not *)
        destruct (existsb (fun x => (f x =? m) && (g x =? k)%N) xs) eqn:Ex.
        + apply existsb_exists in Ex as (x & Hx & [E1%Nat.eqb_eq E2%N.eqb_eq]%andb_prop).
          rewrite (filter_none (fun x => (f x <? m) && (g x =? k)%N)).
          * simpl. apply filter_ext_in. intros y Hy. destruct (N.eqb_spec (g y) k) as [E|E]; [|now rewrite !andb_false_r].
            rewrite (Hi y x Hy Hx) by congruence. rewrite E1, Nat.eqb_refl. symmetry. rewrite andb_true_r. apply Nat.ltb_lt. lia.
          * intros y Hy. destruct (N.eqb_spec (g y) k) as [E|E]; [|now rewrite andb_false_r].
            rewrite (Hi y x Hy Hx) by congruence. rewrite E1, Nat.ltb_irrefl. reflexivity.
        + rewrite (filter_none (fun x => (f x =? m) && (g x =? k)%N)).
          * rewrite app_nil_r. apply filter_ext_in. intros y Hy.
            destruct (N.eqb_spec (g y) k) as [E|E]; [|now rewrite !andb_false_r]. rewrite !andb_true_r.
            assert (f y <> m). { intros Em. enough (true = false) by discriminate. rewrite <- Ex. symmetry. apply existsb_exists.
              exists y. split; auto. apply andb_true_intro. split; [now apply Nat.eqb_eq|now apply N.eqb_eq]. }
            destruct (Nat.ltb_spec (f y) m), (Nat.ltb_spec (f y) (S m)); auto; lia.
          * intros y Hy. destruct ((f y =? m) && (g y =? k)%N) eqn:E; auto.
            enough (true = false) by congruence. rewrite <- Ex. symmetry. apply existsb_exists. exists y. auto. }
    rewrite G by lia. apply filter_ext_in. intros y Hy.
    destruct (Nat.ltb_spec (f y) Q) as [H|H]; auto. specialize (HQ y Hy). lia.
Qed.
Lemma stable_refl_const (g : T -> N) xs : (forall x y, In x xs -> In y xs -> g x = g y) -> stable_sort_of g xs xs.
Proof.
  intros H. split; auto. induction xs as [|a xs IH]; constructor.
  - apply IH. intros; apply H; now right.
  - apply Forall_forall. intros y Hy. rewrite (H a y); [apply N.le_refl|now left|now right].
Qed.
Lemma stable_In g xs ys x : stable_sort_of g xs ys -> (In x ys <-> In x xs).
Proof.
  intros [_ F]. specialize (F (g x)).
  assert (E : forall l, In x l <-> In x (filter (fun y => (g y =? g x)%N) l)).
  { intros l. rewrite filter_In, N.eqb_refl. tauto. }
  rewrite (E ys), F, <- E. reflexivity.
Qed.
Lemma stable_ext_on (g h : T -> N) xs ys : (forall x, In x xs -> g x = h x) -> stable_sort_of g xs ys -> stable_sort_of h xs ys.
Proof.
  intros H Hs. pose proof Hs as [S F].
  assert (Hy : forall y, In y ys -> g y = h y) by (intros y Hy; apply H; apply (stable_In g xs ys y Hs); exact Hy).
  split.
  - clear - S Hy. induction S as [|a l S IH Fa]; constructor.
    + apply IH. intros; apply Hy; now right.
    + rewrite Forall_forall in *. intros y Hiny. rewrite <- !Hy; [apply Fa; auto|now right|now left].
  - intros k. rewrite <- (filter_ext_in (fun x => (g x =? k)%N)) by (intros a Ha; now rewrite Hy).
    rewrite F. apply filter_ext_in. intros a Ha. now rewrite H.
Qed.
(** one LSD step *)
Lemma lsd_step (f : T -> nat) (g : T -> N) (m : N) Q xs ys :
  (forall x, In x xs -> f x < Q) -> (forall x, In x xs -> (g x < m)%N) ->
  stable_sort_of g xs ys -> stable_sort_of (fun x => (N.of_nat (f x) * m + g x)%N) xs (csort f Q ys).
Proof.
  intros HQ Hg Hs. unfold csort. apply (concat_stable f _ Q xs (fun q => fil f q ys)); auto.
  - intros x y Hx Hy Hlt. specialize (Hg x Hx). nia.
  - intros x y Hx Hy E. pose proof (Hg x Hx). pose proof (Hg y Hy).
    destruct (N.lt_trichotomy (N.of_nat (f x)) (N.of_nat (f y))) as [L|[L|L]]; [exfalso; nia|lia|exfalso; nia].
  - intros q Hq. destruct Hs as [S F].
    assert (Hst : stable_sort_of g (fil f q xs) (fil f q ys)).
    { split; [apply SSorted_filter; exact S|]. intros k. unfold fil. rewrite !filter_filter_and.
      rewrite (filter_ext _ (fun x => (g x =? k)%N && (f x =? q)) (fun a => andb_comm _ _)).
      rewrite <- (filter_filter_and (fun x => f x =? q) (fun x => (g x =? k)%N)), F, filter_filter_and.
      apply filter_ext. intros; apply andb_comm. }
    destruct Hst as [S' F']. split.
    + assert (Hf : forall x, In x (fil f q ys) -> f x = q) by (intros x Hx; apply filter_In in Hx as [_ E%Nat.eqb_eq]; auto).
      revert S' Hf. generalize (fil f q ys) as zs. clear. induction 1 as [|a l S IH Fa]; intros Hf; constructor.
      * apply IH. intros; apply Hf; now right.
      * rewrite Forall_forall in *. intros y Hy. rewrite (Hf a), (Hf y) by (simpl; auto). specialize (Fa y Hy). lia.
    + intros k.
      assert (G : forall l, (forall x, In x l -> In x (fil f q ys) \/ In x (fil f q xs)) ->
        filter (fun x => (N.of_nat (f x) * m + g x =? k)%N) l =
        if (N.of_nat q * m <=? k)%N then filter (fun x => (g x =? k - N.of_nat q * m)%N) l else []).
      { intros l Hl. assert (Hq' : forall x, In x l -> f x = q).
        { intros x Hx. destruct (Hl x Hx) as [G|G]; apply filter_In in G as [_ E%Nat.eqb_eq]; auto. }
        destruct (N.leb_spec (N.of_nat q * m) k) as [L|L].
        - apply filter_ext_in. intros x Hx. rewrite (Hq' x Hx).
          destruct (N.eqb_spec (N.of_nat q * m + g x) k), (N.eqb_spec (g x) (k - N.of_nat q * m)); auto; lia.
        - apply filter_none. intros x Hx. rewrite (Hq' x Hx). apply N.eqb_neq. lia. }
      rewrite !G by auto. destruct (N.of_nat q * m <=? k)%N; auto.
Qed.
End Csort.
