(** Correctness of the whole radix sort. *)
From Coq Require Import Arith NArith List Bool Permutation Lia Sorted.
From Verif Require Import Base Sched IntSort_Model IntSort_Proofs.
Import ListNotations.

(** ** numeric facts *)
Lemma pos_shifts_spec p : (2 ^ N.of_nat (pos_shifts p) <= N.pos p < 2 * 2 ^ N.of_nat (pos_shifts p))%N.
Proof.
  induction p as [p IH|p IH|]; cbn [pos_shifts]; rewrite ?Nat2N.inj_succ, ?N.pow_succ_r'; cbn [N.of_nat]; [lia|lia|simpl; lia].
Qed.
Lemma ilog2_spec x : (x <= 2 ^ N.of_nat (ilog2 x))%N.
Proof.
  destruct x as [|p]; [simpl; lia|]. unfold ilog2. pose proof (pos_shifts_spec p) as H.
  rewrite N.shiftl_1_l. destruct (N.ltb_spec (2 ^ N.of_nat (pos_shifts p)) (N.pos p)) as [L|L].
  - rewrite Nat2N.inj_add. change (N.of_nat 1) with 1%N. rewrite N.add_1_r, N.pow_succ_r'. lia.
  - rewrite Nat.add_0_r. exact L.
Qed.
Lemma ilog2_le x k : (x <= 2 ^ N.of_nat k)%N -> ilog2 x <= k.
Proof.
  destruct x as [|p]; intros H; [simpl; lia|]. unfold ilog2. pose proof (pos_shifts_spec p) as Hs. rewrite N.shiftl_1_l.
  destruct (N.ltb_spec (2 ^ N.of_nat (pos_shifts p)) (N.pos p)) as [L|L].
  - assert (2 ^ N.of_nat (pos_shifts p) < 2 ^ N.of_nat k)%N by lia.
    apply N.pow_lt_mono_r_iff in H0; lia.
  - assert (2 ^ N.of_nat (pos_shifts p) <= 2 ^ N.of_nat k)%N by lia.
    apply N.pow_le_mono_r_iff in H0; lia.
Qed.
Lemma idiv_ceil_ge a b : b <> 0 -> a <= b * idiv_ceil a b.
Proof.
  intros H. unfold idiv_ceil. pose proof (Nat.div_mod (a + b - 1) b H). pose proof (Nat.mod_upper_bound (a + b - 1) b H). lia.
Qed.
Lemma idiv_ceil_le a b k : b <> 0 -> a <= b * k -> idiv_ceil a b <= k.
Proof.
  intros H Hk. unfold idiv_ceil. destruct a as [|a]; [rewrite Nat.div_small; lia|].
  apply Nat.lt_succ_r. apply Nat.div_lt_upper_bound; [assumption|]. nia.
Qed.
Lemma idiv_ceil_pos a b : b <> 0 -> a <> 0 -> 1 <= idiv_ceil a b.
Proof. intros Hb Ha. pose proof (idiv_ceil_ge a b Hb). destruct (idiv_ceil a b); lia. Qed.
Lemma idiv_ceil_pred a b : b <> 0 -> a <> 0 -> b * (idiv_ceil a b - 1) < a.
Proof.
  intros Hb Ha. unfold idiv_ceil. pose proof (Nat.div_mod (a + b - 1) b Hb). nia.
Qed.

Section Params.
Variables (w : nat) (mk : N).
Hypothesis Hw : 1 <= w.
Hypothesis Hmk : (mk < 2 ^ 32)%N.
Let P := mk_params w mk.

Lemma max_bits_le : max_bits P <= 32.
Proof. unfold P, mk_params; cbn [max_bits]. apply ilog2_le. change (N.of_nat 32) with 32%N. lia. Qed.
Lemma msb_shift_lt : msb_shift P < 32.
Proof. pose proof max_bits_le. unfold P, mk_params in *; cbn [max_bits msb_shift] in *. lia. Qed.
Lemma lsb_eq : lsb_remaining_width P = msb_shift P.
Proof. reflexivity. Qed.
Lemma no_iters_pos : 1 <= no_iters P.
Proof. unfold P, mk_params; cbn [no_iters]. apply idiv_ceil_pos; lia. Qed.
Lemma aw_le : adaptive_width P <= w.
Proof.
  pose proof no_iters_pos as H. unfold P, mk_params in *; cbn [no_iters adaptive_width] in *.
  set (L := ilog2 mk - Nat.min (ilog2 mk) w) in *. apply idiv_ceil_le; [lia|].
  pose proof (idiv_ceil_ge (Nat.max 1 L) w). nia.
Qed.
Lemma iters_cover : lsb_remaining_width P <= no_iters P * adaptive_width P.
Proof.
  pose proof no_iters_pos as H. unfold P, mk_params in *; cbn [no_iters adaptive_width lsb_remaining_width] in *.
  apply idiv_ceil_ge. lia.
Qed.
Lemma iter_shift it : it < no_iters P -> it * adaptive_width P < 32.
Proof.
  intros Hi. pose proof msb_shift_lt as Hs. pose proof aw_le as Ha.
  assert (Hn : w * (no_iters P - 1) < Nat.max 1 (lsb_remaining_width P)).
  { unfold P, mk_params; cbn [no_iters lsb_remaining_width]. apply idiv_ceil_pred; lia. }
  rewrite lsb_eq in Hn. nia.
Qed.

Definition dig (it : nat) (k : N) : nat :=
  N.to_nat ((k / 2 ^ N.of_nat (it * adaptive_width P)) mod 2 ^ N.of_nat (adaptive_width P)).
Definition msd (k : N) : nat := N.to_nat (k / 2 ^ N.of_nat (msb_shift P)).

Lemma pow2N_pos k : (0 < 2 ^ k)%N.
Proof. apply N.neq_0_lt_0. apply N.pow_nonzero. discriminate. Qed.
Lemma to_nat_pow2 k : N.to_nat (2 ^ N.of_nat k) = 2 ^ k.
Proof. rewrite N2Nat.inj_pow, Nat2N.id. reflexivity. Qed.

Lemma get_queue_index_eq it k : it < no_iters P -> get_queue_index P k it = Some (dig it k).
Proof.
  intros Hi. unfold get_queue_index, shr32. pose proof (iter_shift it Hi) as H. apply Nat.ltb_lt in H. rewrite H. cbn [obind].
  f_equal. unfold dig. f_equal. rewrite N.shiftr_div_pow2, N.shiftl_1_l. rewrite N.sub_1_r, <- N.ones_equiv. apply N.land_ones.
Qed.
Lemma dig_lt it k : dig it k < adaptive_no_queues P.
Proof.
  unfold dig. change (adaptive_no_queues P) with (2 ^ adaptive_width P). rewrite <- to_nat_pow2.
  pose proof (N.mod_lt (k / 2 ^ N.of_nat (it * adaptive_width P)) (2 ^ N.of_nat (adaptive_width P))) as H.
  specialize (H ltac:(apply N.pow_nonzero; discriminate)). lia.
Qed.
Lemma msb_index_eq k : msb_index P k = Some (msd k).
Proof.
  unfold msb_index, shr32. pose proof msb_shift_lt as H. apply Nat.ltb_lt in H. rewrite H. cbn [obind].
  rewrite N.shiftr_div_pow2. reflexivity.
Qed.
Lemma msd_lt k : (k < mk)%N -> msd k < msb_radix P.
Proof.
  intros Hk. unfold msd. change (msb_radix P) with (2 ^ msb_radix_width P). rewrite <- to_nat_pow2.
  apply Nat.compare_lt_iff. rewrite <- N2Nat.inj_compare. apply N.compare_lt_iff.
  apply N.div_lt_upper_bound; [apply N.pow_nonzero; discriminate|]. rewrite <- N.pow_add_r.
  assert (E : (N.of_nat (msb_shift P) + N.of_nat (msb_radix_width P) = N.of_nat (ilog2 mk))%N).
  { unfold P, mk_params; cbn [msb_shift msb_radix_width]. lia. }
  rewrite E. pose proof (ilog2_spec mk). lia.
Qed.
Lemma radix_le : msb_radix P <= no_queues P.
Proof. unfold no_queues, P, mk_params; cbn [msb_radix rw]. apply Nat.pow_le_mono_r; lia. Qed.
Lemma radix_pos : 1 <= msb_radix P.
Proof. change (msb_radix P) with (2 ^ msb_radix_width P). pose proof (Nat.pow_nonzero 2 (msb_radix_width P)). lia. Qed.
Lemma Qa_pos : 1 <= adaptive_no_queues P.
Proof. change (adaptive_no_queues P) with (2 ^ adaptive_width P). pose proof (Nat.pow_nonzero 2 (adaptive_width P)). lia. Qed.

Lemma dig_low it k :
  (N.of_nat (dig it k) * 2 ^ N.of_nat (it * adaptive_width P) + k mod 2 ^ N.of_nat (it * adaptive_width P) =
   k mod 2 ^ N.of_nat (S it * adaptive_width P))%N.
Proof.
  unfold dig. rewrite N2Nat.id. replace (S it * adaptive_width P) with (it * adaptive_width P + adaptive_width P) by lia.
  rewrite Nat2N.inj_add, N.pow_add_r. rewrite N.mod_mul_r by (apply N.pow_nonzero; discriminate). lia.
Qed.

(** ** LSD passes *)
Section Lists.
Context {T : Type} (key : T -> N).
Let Qa := adaptive_no_queues P.
Definition fdig it (x : T) := dig it (key x).

Fixpoint lsd (k : nat) (xs : list T) : list T :=
  match k with O => xs | S k' => csort (fdig k') Qa (lsd k' xs) end.

Lemma lsd_stable k xs : stable_sort_of (fun x => key x mod 2 ^ N.of_nat (k * adaptive_width P))%N xs (lsd k xs).
Proof.
  induction k as [|k IH]; cbn [lsd].
  - apply stable_refl_const. intros. simpl. now rewrite !N.mod_1_r.
  - eapply stable_ext_on; [|eapply (lsd_step (fdig k) _ (2 ^ N.of_nat (k * adaptive_width P)) Qa); [| |exact IH]].
    + intros x _. cbv beta. apply dig_low.
    + intros. apply dig_lt.
    + intros. cbv beta. apply N.mod_lt. apply N.pow_nonzero; discriminate.
Qed.

Lemma csort_lt_same (f : T -> nat) k x xs : k <= f x -> csort f k (x :: xs) = csort f k xs.
Proof.
  induction k as [|k IH]; intros Hk; [reflexivity|]. rewrite !csort_S, IH by lia. f_equal.
  unfold fil; simpl. destruct (Nat.eqb_spec (f x) k); [lia|reflexivity].
Qed.
Lemma csort_perm (f : T -> nat) Q xs : (forall x, In x xs -> f x < Q) -> Permutation (csort f Q xs) xs.
Proof.
  induction xs as [|x xs IH]; intros H.
  - unfold csort. induction (seq 0 Q); simpl; auto.
  - assert (Hx : f x < Q) by (apply H; now left).
    assert (IH' : Permutation (csort f Q xs) xs) by (apply IH; intros; apply H; now right).
    rewrite (csort_split f (f x)) by assumption. rewrite (csort_split f (f x)) in IH' by assumption.
    rewrite csort_lt_same by lia.
    assert (E0 : fil f (f x) (x :: xs) = x :: fil f (f x) xs) by (unfold fil; simpl; now rewrite Nat.eqb_refl).
    rewrite E0. rewrite <- app_comm_cons, <- Permutation_middle. constructor.
    assert (E : flat_map (fun q => fil f q (x :: xs)) (seq (S (f x)) (Q - S (f x))) =
                flat_map (fun q => fil f q xs) (seq (S (f x)) (Q - S (f x)))).
    { rewrite !flat_map_concat_map. f_equal. apply map_ext_in. intros q Hq%in_seq. unfold fil; simpl.
      destruct (Nat.eqb_spec (f x) q); [lia|reflexivity]. }
    rewrite E. exact IH'.
Qed.
Lemma cnt_perm (f : T -> nat) q xs ys : Permutation xs ys -> cnt f q xs = cnt f q ys.
Proof. induction 1; rewrite ?cnt_cons; lia. Qed.

Lemma partial_sum_start (f : T -> nat) xs k q :
  partial_sum (start f q xs) (map (fun q => cnt f q xs) (seq q k)) = map (fun q => start f q xs) (seq (S q) k).
Proof.
  revert q; induction k as [|k IH]; intros q; simpl; auto. rewrite <- start_S. f_equal. apply IH.
Qed.
Lemma pointers_eq (f : T -> nat) xs Q : 1 <= Q ->
  0 :: partial_sum 0 (firstn (Q - 1) (tab Q (fun q => cnt f q xs))) = tab Q (fun q => start f q xs).
Proof.
  intros H. destruct Q as [|Q]; [lia|]. rewrite (tab_S' Q (fun q => start f q xs)), start_0. f_equal. replace (S Q - 1) with Q by lia.
  rewrite tab_S. rewrite firstn_app, tab_length, Nat.sub_diag, firstn_all2 by (rewrite tab_length; lia).
  simpl. rewrite app_nil_r. change 0 with (start f 0 xs) at 1. unfold tab at 1. rewrite partial_sum_start.
  unfold tab. now rewrite <- seq_shift, map_map.
Qed.

Lemma fdig_ok it xs : it < no_iters P ->
  forall x, In x xs -> get_queue_index P (key x) it = Some (fdig it x) /\ fdig it x < Qa.
Proof. intros Hi x _. split; [apply get_queue_index_eq; exact Hi|apply dig_lt]. Qed.

Lemma move_spec it (count : bool) inp tgt :
  it < no_iters P -> (count = true -> S it < no_iters P) -> length tgt = length inp ->
  move_to_queues P key inp tgt (tab Qa (fun q => cnt (fdig it) q inp)) it count =
  Some (csort (fdig it) Qa inp,
        if count then tab Qa (fun q => cnt (fdig (S it)) q inp) else tab Qa (fun q => cnt (fdig it) q inp)).
Proof.
  intros Hi Hc HL. unfold move_to_queues. fold Qa.
  rewrite pointers_eq by apply Qa_pos.
  rewrite (scatter_tab _ (fdig it) Qa) by (apply fdig_ok; exact Hi).
  assert (E : apply_writes (wr (fdig it) (fun q => start (fdig it) q inp) inp) tgt = Some (csort (fdig it) Qa inp)).
  { apply scatter_writes; auto; [|intros; reflexivity]. intros. apply dig_lt. }
  destruct count; cbn [obind]; [|now rewrite E].
  rewrite (count_all_tab _ (fdig (S it)) Qa).
  - cbn [obind]. rewrite E. reflexivity.
  - rewrite Nat.add_1_r. apply fdig_ok. auto.
Qed.

(** after m moves (and swaps) of the bucket [xs] *)
Definition bst_ok (xs : list T) (m : nat) (s : bucket_state T) : Prop :=
  b_input s = lsd m xs /\ length (b_target s) = length xs /\ inB s = Nat.even m.

Lemma lsd_perm m xs : Permutation (lsd m xs) xs.
Proof. induction m as [|m IH]; cbn [lsd]; auto. rewrite csort_perm; [exact IH|]. intros; apply dig_lt. Qed.
Lemma lsd_length m xs : length (lsd m xs) = length xs.
Proof. apply Permutation_length, lsd_perm. Qed.

Definition ctab it m (xs : list T) := tab Qa (fun q => cnt (fdig it) q (lsd m xs)).
Lemma ctab_S it m xs : ctab it (S m) xs = ctab it m xs.
Proof. unfold ctab. apply tab_ext. intros. apply cnt_perm. rewrite !lsd_perm. reflexivity. Qed.

Lemma b_move_spec xs m s count : bst_ok xs m s -> m < no_iters P -> (count = true -> S m < no_iters P) ->
  exists s', b_move P key s (ctab m m xs) m count = Some (s', if count then ctab (S m) (S m) xs else ctab m m xs) /\
    b_target s' = lsd (S m) xs /\ length (b_input s') = length xs /\ inB s' = inB s.
Proof.
  intros (H1 & H2 & H3) Hm Hc. unfold b_move. rewrite H1. unfold ctab.
  rewrite move_spec by (auto; rewrite lsd_length; auto). cbn [obind].
  exists (b_write s (csort (fdig m) Qa (lsd m xs))). split.
  - f_equal. f_equal. destruct count; auto. change (ctab (S m) m xs = ctab (S m) (S m) xs). symmetry. apply ctab_S.
  - unfold b_write, b_target, b_input in *. destruct (inB s) eqn:E; cbn; rewrite ?E; cbn; repeat split; auto;
    rewrite H1; apply lsd_length.
Qed.
Lemma b_swap_ok xs m s' b : b_target s' = lsd (S m) xs -> length (b_input s') = length xs -> inB s' = b -> b = Nat.even m ->
  bst_ok xs (S m) (b_swap s').
Proof.
  intros H1 H2 H3 H4. unfold bst_ok, b_swap, b_input, b_target in *. cbn [inB bA bB]. rewrite H3 in *.
  rewrite Nat.even_succ, <- Nat.negb_even, <- H4. destruct b; cbn [negb]; auto.
Qed.
Lemma mid_spec xs k m s : bst_ok xs m s -> m + k < no_iters P ->
  exists s', mid_iters P key k m s (ctab m m xs) = Some (s', ctab (m + k) (m + k) xs) /\ bst_ok xs (m + k) s'.
Proof.
  revert m s; induction k as [|k IH]; intros m s Hs Hk; cbn [mid_iters].
  - rewrite Nat.add_0_r. eauto.
  - destruct (b_move_spec xs m s true Hs) as (s' & E & H1 & H2 & H3); [lia|lia|].
    rewrite E. cbn [obind].
    assert (Hs' : bst_ok xs (S m) (b_swap s')) by (eapply b_swap_ok; eauto; apply Hs).
    destruct (IH (S m) (b_swap s') Hs') as (s'' & E' & H'); [lia|]. rewrite E'. exists s''.
    replace (m + S k) with (S m + k) by lia. auto.
Qed.
Lemma sort_bucket_spec (sA xs : list T) : length sA = length xs ->
  exists s, sort_bucket P key {| bA := sA; bB := xs; inB := true |} = Some s /\
    length (bA s) = length xs /\ length (bB s) = length xs /\
    (if Nat.even (no_iters P) then bB s else bA s) = lsd (no_iters P) xs.
Proof.
  intros HL. pose proof no_iters_pos as Hn. unfold sort_bucket.
  set (s0 := {| bA := sA; bB := xs; inB := true |}).
  assert (H0 : bst_ok xs 0 s0) by (repeat split; auto).
  assert (E0 : count_all (fun x => get_queue_index P (key x) 0) (adaptive_no_queues P) (b_input s0) = Some (ctab 0 0 xs)).
  { apply (count_all_tab _ (fdig 0)). apply fdig_ok. lia. }
  rewrite E0. cbn [obind].
  destruct (b_move_spec xs 0 s0 (negb (no_iters P =? 1)) H0) as (s1 & E1 & H1 & H2 & H3); [lia| |].
  { intros H. apply Bool.negb_true_iff, Nat.eqb_neq in H. lia. }
  rewrite E1. cbn [obind].
  destruct (Nat.eqb_spec (no_iters P) 1) as [Hone|Hone].
  - rewrite Hone in *. change (1 - 2) with 0. cbn [mid_iters obind Nat.ltb Nat.leb]. eexists; split; [reflexivity|].
    assert (H3' : inB s1 = true) by exact H3. unfold b_target, b_input in H1, H2. rewrite H3' in H1, H2.
    cbn [bA bB b_swap Nat.even]. rewrite H1. repeat split; auto. apply lsd_length.
  - cbn [negb] in *. destruct (mid_spec xs (no_iters P - 2) 1 (b_swap s1)) as (s2 & E2 & Hs2).
    { apply (b_swap_ok xs 0 s1 (inB s0)); auto. } { lia. }
    rewrite E2. cbn [obind]. replace (1 + (no_iters P - 2)) with (no_iters P - 1) in * by lia.
    destruct (Nat.ltb_spec 1 (no_iters P)); [|lia].
    destruct (b_move_spec xs (no_iters P - 1) s2 false Hs2) as (s3 & E3 & H1' & H2' & H3'); [lia|discriminate|].
    rewrite E3. cbn [obind]. exists s3. split; auto.
    replace (S (no_iters P - 1)) with (no_iters P) in H1' by lia.
    destruct Hs2 as (_ & _ & Hb). rewrite Hb in H3'.
    assert (Ev : Nat.even (no_iters P) = negb (Nat.even (no_iters P - 1))).
    { replace (no_iters P) with (S (no_iters P - 1)) at 1 by lia. rewrite Nat.even_succ, <- Nat.negb_even. reflexivity. }
    rewrite Ev. unfold b_target, b_input in *. rewrite H3' in *.
    pose proof (lsd_length (no_iters P) xs). destruct (Nat.even (no_iters P - 1)); cbn [negb]; rewrite H1'; repeat split; auto; congruence.
Qed.

(** ** bucket tasks *)
Lemma slice_mid (l1 a l2 : list T) b e : b = length l1 -> e = length l1 + length a -> slice (l1 ++ a ++ l2) b e = Some a.
Proof.
  intros -> ->. unfold slice. rewrite !app_length.
  destruct (Nat.leb_spec (length l1) (length l1 + length a)); [|lia].
  destruct (Nat.leb_spec (length l1 + length a) (length l1 + (length a + length l2))); [|lia]. cbn [andb].
  rewrite skipn_app, skipn_all, Nat.sub_diag. simpl. replace (length l1 + length a - length l1) with (length a) by lia.
  rewrite firstn_app, firstn_all, Nat.sub_diag. simpl. now rewrite app_nil_r.
Qed.
Lemma splice_mid (l1 a l2 a' : list T) b : b = length l1 -> length a' = length a -> splice (l1 ++ a ++ l2) b a' = l1 ++ a' ++ l2.
Proof.
  intros -> H. unfold splice. rewrite firstn_app, firstn_all, Nat.sub_diag. simpl. rewrite app_nil_r. f_equal. f_equal.
  rewrite H, app_assoc, <- app_length, skipn_app, skipn_all, Nat.sub_diag. reflexivity.
Qed.

Definition seglen_ok (f : T -> nat) xs (Ls : list (list T)) : Prop :=
  length Ls = msb_radix P /\ forall i, i < msb_radix P -> length (nth i Ls []) = cnt f i xs.

Lemma seg_start f xs Ls i : seglen_ok f xs Ls -> i <= msb_radix P -> length (concat (firstn i Ls)) = start f i xs.
Proof.
  intros [HL H]. induction i as [|i IH]; intros Hi; [reflexivity|].
  rewrite start_S, <- IH by lia. rewrite <- (H i) by lia.
  assert (E : firstn (S i) Ls = firstn i Ls ++ [nth i Ls []]).
  { clear -HL Hi. assert (Hi' : i < length Ls) by lia. clear HL Hi. revert i Hi'; induction Ls as [|a Ls IH]; intros [|i] H; simpl in *; try lia; auto.
    f_equal. apply IH. lia. }
  rewrite E, concat_app, app_length. simpl. now rewrite app_nil_r.
Qed.
Lemma nth_split_at {A} (l : list A) i d : i < length l -> l = firstn i l ++ nth i l d :: skipn (S i) l.
Proof. revert i; induction l as [|a l IH]; intros [|i] H; simpl in *; try lia; auto. f_equal. apply IH. lia. Qed.

Definition bflag := Nat.even (no_iters P).
Definition bk (xs : list T) i := fil (fun x => msd (key x)) i xs.
Definition task_inv (xs : list T) (done : list nat) (st : list T * list T) : Prop :=
  exists As Bs, st = (concat As, concat Bs) /\
    seglen_ok (fun x => msd (key x)) xs As /\ seglen_ok (fun x => msd (key x)) xs Bs /\
    forall i, i < msb_radix P ->
      if in_dec Nat.eq_dec i done then nth i (if bflag then Bs else As) [] = lsd (no_iters P) (bk xs i)
      else nth i Bs [] = bk xs i.

Definition splitter_of (xs : list T) : list nat :=
  tab (no_queues P) (fun q => start (fun x => msd (key x)) q xs) ++ [length xs].

Lemma splitter_nth xs i : (forall x, In x xs -> msd (key x) < msb_radix P) -> i <= msb_radix P ->
  nth_error (splitter_of xs) i = Some (start (fun x => msd (key x)) i xs).
Proof.
  intros HQ Hi. unfold splitter_of. pose proof radix_le as Hr.
  destruct (Nat.lt_ge_cases i (no_queues P)) as [L|L].
  - rewrite nth_error_app1 by (rewrite tab_length; lia).
    exact (tab_nth (no_queues P) (fun q => start (fun x => msd (key x)) q xs) i L).
  - assert (i = no_queues P) by lia. subst i. rewrite nth_error_app2 by (rewrite tab_length; lia).
    rewrite tab_length, Nat.sub_diag. simpl. f_equal. unfold start.
    rewrite csort_length; auto. intros x Hx. specialize (HQ x Hx). lia.
Qed.

Lemma nth_upd_at {A} (l1 l2 : list A) a j d :
  nth j (l1 ++ a :: l2) d = if j =? length l1 then a else nth j (l1 ++ d :: l2) d.
Proof.
  destruct (Nat.eqb_spec j (length l1)) as [->|H].
  - rewrite app_nth2, Nat.sub_diag by lia. reflexivity.
  - destruct (Nat.lt_ge_cases j (length l1)).
    + rewrite !app_nth1 by lia. reflexivity.
    + rewrite !app_nth2 by lia. destruct (j - length l1) eqn:E; [lia|reflexivity].
Qed.
Lemma nth_other {A} (l1 l2 : list A) a a' j d : j <> length l1 -> nth j (l1 ++ a :: l2) d = nth j (l1 ++ a' :: l2) d.
Proof. intros H. rewrite (nth_upd_at l1 l2 a), (nth_upd_at l1 l2 a'). apply Nat.eqb_neq in H. rewrite H. reflexivity. Qed.

Lemma task_step xs done st i : (forall x, In x xs -> msd (key x) < msb_radix P) ->
  task_inv xs done st -> i < msb_radix P -> ~ In i done ->
  exists st', bucket_task P key (splitter_of xs) st i = Some st' /\ task_inv xs (i :: done) st'.
Proof.
  intros HQ (As & Bs & -> & HA & HB & Hinv) Hi Hd. unfold bucket_task.
  rewrite !splitter_nth by (auto; lia). cbn [obind]. set (f := fun x => msd (key x)) in *.
  pose proof (Hinv i Hi) as Hi0. destruct (in_dec Nat.eq_dec i done) as [|_]; [tauto|].
  destruct (Nat.eqb_spec (start f i xs) (start f (S i) xs)) as [E|E].
  - (* empty bucket *)
    rewrite start_S in E. assert (Hnil : cnt f i xs = 0) by lia.
    eexists; split; [reflexivity|]. exists As, Bs. repeat split; auto; try apply HA; try apply HB.
    intros j Hj. specialize (Hinv j Hj). destruct (in_dec Nat.eq_dec j (i :: done)) as [Hin|Hnin].
    + destruct (Nat.eq_dec i j) as [<-|Hne].
      * assert (Hb : bk xs i = []) by (apply length_zero_iff_nil; exact Hnil).
        rewrite Hb. assert (Hl0 : lsd (no_iters P) [] = []) by (apply length_zero_iff_nil; now rewrite lsd_length).
        rewrite Hl0. apply length_zero_iff_nil. destruct bflag; [rewrite (proj2 HB i Hi)|rewrite (proj2 HA i Hi)]; exact Hnil.
      * destruct (in_dec Nat.eq_dec j done) as [|Hn]; auto. destruct Hin; [congruence|tauto].
    + destruct (in_dec Nat.eq_dec j done) as [Hy|Hn]; auto. exfalso. apply Hnin. now right.
  - assert (LA : i < length As) by (rewrite (proj1 HA); exact Hi). assert (LB : i < length Bs) by (rewrite (proj1 HB); exact Hi).
    pose proof (nth_split_at As i [] LA) as EA. pose proof (nth_split_at Bs i [] LB) as EB.
    pose proof (seg_start f xs As i HA ltac:(lia)) as SA. pose proof (seg_start f xs Bs i HB ltac:(lia)) as SB.
    pose proof (proj2 HA i Hi) as CA. pose proof (proj2 HB i Hi) as CB.
    set (a := nth i As []) in *. set (b := nth i Bs []) in *.
    set (A1 := firstn i As) in *. set (A2 := skipn (S i) As) in *. set (B1 := firstn i Bs) in *. set (B2 := skipn (S i) Bs) in *.
    assert (LA1 : length A1 = i) by (apply firstn_length_le; lia). assert (LB1 : length B1 = i) by (apply firstn_length_le; lia).
    rewrite EA, EB. rewrite !concat_app. cbn [concat].
    rewrite !slice_mid by (rewrite ?start_S; lia). cbn [obind].
    destruct (sort_bucket_spec a b) as (s & Es & La & Lb & Hres); [lia|]. rewrite Es. cbn [obind].
    rewrite !splice_mid by lia.
    eexists; split; [reflexivity|]. exists (A1 ++ bA s :: A2), (B1 ++ bB s :: B2).
    split; [now rewrite !concat_app|].
    assert (Hkeep : forall (L1 L2 : list (list T)) l l', length L1 = i -> length l' = length l -> seglen_ok f xs (L1 ++ l :: L2) -> seglen_ok f xs (L1 ++ l' :: L2)).
    { intros L1 L2 l l' H1 H2 [HL HH]. split; [rewrite app_length in *; simpl in *; lia|]. intros j Hj. specialize (HH j Hj).
      rewrite nth_upd_at in *. destruct (j =? length L1); [congruence|exact HH]. }
    split; [apply (Hkeep A1 A2 a); auto; [congruence|rewrite <- EA; exact HA]|].
    split; [apply (Hkeep B1 B2 b); auto; rewrite <- EB; exact HB|].
    intros j Hj. specialize (Hinv j Hj). rewrite EA, EB in Hinv.
    destruct (Nat.eq_dec i j) as [<-|Hne].
    + destruct (in_dec Nat.eq_dec i (i :: done)) as [_|Hn]; [|exfalso; apply Hn; now left].
      fold bflag in Hres. rewrite <- Hi0. rewrite <- Hres. destruct bflag; rewrite nth_upd_at, ?LA1, ?LB1, Nat.eqb_refl; reflexivity.
    + assert (Hd' : (if in_dec Nat.eq_dec j (i :: done) then true else false) = (if in_dec Nat.eq_dec j done then true else false)).
      { destruct (in_dec Nat.eq_dec j (i :: done)) as [[?|?]|?], (in_dec Nat.eq_dec j done); auto; try congruence; try tauto. exfalso. apply n. now right. }
      destruct (in_dec Nat.eq_dec j (i :: done)), (in_dec Nat.eq_dec j done); try discriminate Hd'.
      * destruct bflag; [rewrite (nth_other B1 B2 _ b) by congruence|rewrite (nth_other A1 A2 _ a) by congruence]; exact Hinv.
      * rewrite (nth_other B1 B2 _ b) by congruence. exact Hinv.
Qed.

Lemma tasks_run xs order done st : (forall x, In x xs -> msd (key x) < msb_radix P) ->
  task_inv xs done st -> NoDup (order ++ done) -> (forall i, In i order -> i < msb_radix P) ->
  exists st', bucket_tasks P key (splitter_of xs) st order = Some st' /\ task_inv xs (rev order ++ done) st'.
Proof.
  intros HQ. revert done st; induction order as [|i order IH]; intros done st Hst Hnd Hin; cbn [bucket_tasks].
  - eauto.
  - inversion Hnd as [|? ? Hni Hnd']; subst. rewrite in_app_iff in Hni.
    destruct (task_step xs done st i HQ Hst) as (st' & E & H'); [apply Hin; now left|tauto|].
    rewrite E. cbn [obind]. destruct (IH (i :: done) st' H') as (st'' & E' & H'').
    + apply Permutation_NoDup with (l := i :: order ++ done); [apply Permutation_middle|exact Hnd].
    + intros; apply Hin; now right.
    + exists st''. split; auto. simpl. rewrite <- app_assoc. exact H''.
Qed.

(** ** the MSB pass *)
Definition chunks_ok (n t : nat) : Prop := 1 <= t /\ idiv_ceil n t * (t - 1) <= n.

Lemma chunks_concat (xs : list T) t : chunks_ok (length xs) t ->
  exists chs, omap (chunk xs t) (seq 0 t) = Some chs /\ length chs = t /\ concat chs = xs.
Proof.
  intros [Ht Hc]. set (n := length xs) in *. set (cs := idiv_ceil n t) in *.
  set (b := fun i => Nat.min (cs * i) n).
  exists (map (fun i => firstn (b (S i) - b i) (skipn (b i) xs)) (seq 0 t)). split.
  - apply omap_map. intros tid Htid%in_seq. unfold chunk, chunk_bounds. fold n cs.
    assert (Hb : b tid = cs * tid) by (unfold b; nia).
    replace (tid + 1) with (S tid) by lia. fold (b (S tid)). rewrite Hb.
    destruct (Nat.leb_spec (cs * tid) (b (S tid))) as [|L]; auto. unfold b in L. nia.
  - split; [now rewrite map_length, seq_length|]. rewrite concat_blocks.
    + assert (Hbt : b t = n). { unfold b. pose proof (idiv_ceil_ge n t ltac:(lia)). fold cs in H. nia. }
      rewrite Hbt. apply firstn_all.
    + unfold b. nia.
    + intros i. unfold b. nia.
Qed.

Lemma combine_wr (f : T -> nat) (st : nat -> nat) chs pre k :
  k = length pre ->
  concat (map (fun '(tid, ch) => wr f (fun q => st q + cnt f q (concat (firstn tid (pre ++ chs)))) ch) (combine (seq k (length chs)) chs))
  = wr f (fun q => st q + cnt f q (concat pre)) (concat chs).
Proof.
  revert pre k; induction chs as [|ch chs IH]; intros pre k Hk; cbn [length seq combine map concat]; auto.
  rewrite wr_app. f_equal.
  - apply wr_ext. intros q. subst k. rewrite firstn_app, firstn_all, Nat.sub_diag. simpl. now rewrite app_nil_r.
  - specialize (IH (pre ++ [ch]) (S k)). rewrite <- app_assoc in IH. cbn [app] in IH. rewrite IH by (rewrite app_length; simpl; lia).
    apply wr_ext. intros q. rewrite concat_app, cnt_app. simpl. rewrite app_nil_r. lia.
Qed.

Lemma combine_seq_In {A} (l : list A) k tid ch : In (tid, ch) (combine (seq k (length l)) l) -> In ch l /\ k <= tid < k + length l.
Proof.
  intros H. split; [eapply in_combine_r; exact H|]. apply in_combine_l in H. apply in_seq in H. exact H.
Qed.

Lemma msb_pass_spec xs t : (forall x, In x xs -> msd (key x) < no_queues P) -> chunks_ok (length xs) t ->
  exists ws, msb_pass P key t xs = Some (ws, splitter_of xs) /\
    concat ws = wr (fun x => msd (key x)) (fun q => start (fun x => msd (key x)) q xs) xs.
Proof.
  intros HQ Ht. set (f := fun x => msd (key x)) in *. destruct (chunks_concat xs t Ht) as (chs & E & HL & HC).
  unfold msb_pass. rewrite E. cbn [obind].
  assert (Hf : forall x, In x xs -> msb_index P (key x) = Some (f x) /\ f x < no_queues P).
  { intros x Hx. split; [apply msb_index_eq|]. exact (HQ x Hx). }
  assert (Hch : forall ch x, In ch chs -> In x ch -> In x xs).
  { intros ch x Hc Hx. rewrite <- HC. apply in_concat. eauto. }
  rewrite (omap_map _ (fun ch => tab (no_queues P) (fun q => cnt f q ch))).
  2:{ intros ch Hc. apply count_all_tab. intros x Hx. apply Hf. eapply Hch; eauto. }
  cbn [obind].
  assert (Hqp : forall tid, tid < t -> queue_pointer P (map (fun ch => tab (no_queues P) (fun q => cnt f q ch)) chs) tid =
     Some (tab (no_queues P) (fun q => start f q xs + cnt f q (concat (firstn tid chs))))).
  { intros tid Htid. unfold queue_pointer. change 0 with (start f 0 (concat chs)) at 2. rewrite qp_queues_eq by lia. rewrite HC. reflexivity. }
  rewrite (omap_map _ (fun '(tid, ch) => wr f (fun q => start f q xs + cnt f q (concat (firstn tid chs))) ch)).
  2:{ intros [tid ch] Hin. rewrite <- HL in Hin. apply combine_seq_In in Hin as [Hin Htid]. rewrite Hqp by lia. cbn [obind].
      apply scatter_tab. intros x Hx. apply Hf. eapply Hch; eauto. }
  cbn [obind]. rewrite Hqp by (destruct Ht; lia). cbn [obind].
  eexists; split.
  - f_equal. f_equal. unfold splitter_of. f_equal. apply tab_ext. intros q Hq. simpl. unfold cnt. simpl. fold f. lia.
  - rewrite <- HL. etransitivity; [exact (combine_wr f (fun q => start f q xs) chs [] 0 eq_refl)|]. rewrite HC.
    apply wr_ext. intros q. simpl. unfold cnt. simpl. lia.
Qed.

(** ** main theorem *)
Definition sorted_out (xs : list T) : list T := flat_map (fun i => lsd (if lsb_remaining_width P =? 0 then 0 else no_iters P) (bk xs i)) (seq 0 (msb_radix P)).

Lemma sorted_out_stable xs : (forall x, In x xs -> msd (key x) < msb_radix P) -> stable_sort_of key xs (sorted_out xs).
Proof.
  intros HQ. unfold sorted_out. apply (concat_stable (fun x => msd (key x))).
  - exact HQ.
  - intros x y Hx Hy Hlt. unfold msd in Hlt.
    destruct (N.le_gt_cases (key x) (key y)) as [L|L]; auto. exfalso.
    assert (key y / 2 ^ N.of_nat (msb_shift P) <= key x / 2 ^ N.of_nat (msb_shift P))%N by (apply N.div_le_mono; [apply N.pow_nonzero; discriminate|lia]). lia.
  - intros x y _ _ ->. reflexivity.
  - intros i Hi. set (m := if lsb_remaining_width P =? 0 then 0 else no_iters P).
    assert (Hm : msb_shift P <= m * adaptive_width P).
    { unfold m. rewrite lsb_eq. destruct (Nat.eqb_spec (msb_shift P) 0); [lia|]. rewrite <- lsb_eq. apply iters_cover. }
    pose proof (lsd_stable m (bk xs i)) as Hs.
    (* sorting by the low bits = sorting by hi*2^.. + low *)
    set (W := (2 ^ N.of_nat (m * adaptive_width P))%N) in *.
    assert (HW : (W <> 0)%N) by (apply N.pow_nonzero; discriminate).
    assert (Hhi : forall x y, In x (bk xs i) -> In y (bk xs i) -> (key x / W = key y / W)%N).
    { assert (EW : (W = 2 ^ N.of_nat (msb_shift P) * 2 ^ N.of_nat (m * adaptive_width P - msb_shift P))%N).
      { unfold W. rewrite <- N.pow_add_r. f_equal. lia. }
      intros x y Hx Hy. apply filter_In in Hx as [_ Ex%Nat.eqb_eq], Hy as [_ Ey%Nat.eqb_eq]. unfold msd in *.
      rewrite EW. rewrite <- !N.div_div by (apply N.pow_nonzero; discriminate). f_equal. lia. }
    assert (Hle : forall x y, In x (bk xs i) -> In y (bk xs i) -> ((key x mod W <= key y mod W)%N <-> (key x <= key y)%N) /\ (key x mod W = key y mod W <-> key x = key y)%N).
    { intros x y Hx Hy. specialize (Hhi x y Hx Hy).
      pose proof (N.div_mod (key x) W HW) as D1. pose proof (N.div_mod (key y) W HW) as D2. rewrite Hhi in D1.
      set (cc := (W * (key y / W))%N) in *. clearbody cc. generalize dependent (key x mod W)%N. generalize dependent (key y mod W)%N.
      clear. intros. split; split; lia. }
    pose proof Hs as [S F]. split.
    + assert (Hin : forall y, In y (lsd m (bk xs i)) -> In y (bk xs i)) by (intros y Hy; apply (stable_In _ _ _ y Hs); exact Hy).
      revert S Hin. generalize (lsd m (bk xs i)) as zs. intros zs. induction 1 as [|a l S IH Fa]; intros Hin; constructor.
      * apply IH; auto. intros; apply Hin; now right.
      * rewrite Forall_forall in *. intros y Hy. apply Hle; [apply Hin; now left|apply Hin; now right|]. apply Fa. exact Hy.
    + intros k. destruct (existsb (fun x => (key x =? k)%N) (bk xs i)) eqn:Ex.
      * apply existsb_exists in Ex as (x & Hx & E%N.eqb_eq).
        assert (G : forall l, (forall y, In y l -> In y (bk xs i)) -> filter (fun y => (key y =? k)%N) l = filter (fun y => (key y mod W =? key x mod W)%N) l).
        { intros l Hl. apply filter_ext_in. intros y Hy. destruct (Hle y x (Hl y Hy) Hx) as [_ He].
          destruct (N.eqb_spec (key y) k), (N.eqb_spec (key y mod W) (key x mod W)); auto; exfalso; [apply n; apply He; congruence|apply n; rewrite <- E; apply He; congruence]. }
        rewrite !G; auto. intros y Hy. apply (stable_In _ _ _ y Hs). exact Hy.
      * assert (G : forall y, In y (bk xs i) -> (key y =? k)%N = false).
        { intros y Hy. destruct (key y =? k)%N eqn:E; auto. enough (true = false) by congruence. rewrite <- Ex. symmetry. apply existsb_exists. eauto. }
        rewrite !filter_none; auto. intros y Hy. apply G. apply (stable_In _ _ _ y Hs). exact Hy.
Qed.

(** keys the first pass can distinguish *)
Definition keys_ok (xs : list T) : Prop :=
  (mk = 0%N -> forall x y, In x xs -> In y xs -> key x = key y) /\
  (forall x, In x xs -> msd (key x) < no_queues P) /\
  (lsb_remaining_width P <> 0 -> forall x, In x xs -> msd (key x) < msb_radix P).

Theorem intsort_main xs buf t tr order :
  keys_ok xs -> length buf = length xs -> chunks_ok (length xs) t ->
  valid_schedule P key t xs tr order ->
  exists out, intsort w key mk t xs buf tr order = Some out /\ stable_sort_of key xs out.
Proof.
  intros (HK0 & HQ' & HQQ) HL Ht [(ws & sp & Ews & Htr) Hord]. unfold intsort. fold P. unfold sort_exec.
  destruct (sort_trivial P (length xs)) eqn:Etriv.
  - cbn [obind]. exists xs. split; auto. apply stable_refl_const. intros x y Hx Hy.
    unfold sort_trivial in Etriv. apply orb_prop in Etriv as [H%Nat.ltb_lt|H%N.ltb_lt].
    + destruct xs as [|a [|b xs]]; simpl in *; [tauto| |lia]. destruct Hx as [<-|[]], Hy as [<-|[]]. reflexivity.
    + change (max_key P) with mk in H. apply HK0; auto. lia.
  - destruct (msb_pass_spec xs t HQ' Ht) as (ws' & E & Hws). rewrite E in Ews. inversion Ews; subst ws' sp. clear Ews.
    rewrite E. cbn [obind].
    assert (Eb : apply_writes tr buf = Some (csort (fun x => msd (key x)) (no_queues P) xs)).
    { apply scatter_writes; auto. intros wv. rewrite (interleaving_In _ _ wv Htr), Hws. reflexivity. }
    rewrite Eb. cbn [obind].
    destruct (Nat.eqb_spec (lsb_remaining_width P) 0) as [El|El].
    + cbn [obind orb]. eexists; split; [reflexivity|].
      assert (Emsd : forall x, msd (key x) = N.to_nat (key x)).
      { intros x. unfold msd. rewrite <- lsb_eq, El. change (2 ^ N.of_nat 0)%N with 1%N. now rewrite N.div_1_r. }
      apply (concat_stable (fun x => msd (key x)) key (no_queues P) xs (fun q => fil (fun x => msd (key x)) q xs)); auto.
      * intros x y _ _ H. rewrite !Emsd in H. lia.
      * intros x y _ _ H. now rewrite H.
      * intros q Hq. apply stable_refl_const. intros x y Hx Hy.
        apply filter_In in Hx as [_ Hx%Nat.eqb_eq], Hy as [_ Hy%Nat.eqb_eq]. rewrite Emsd in *. lia.
    + assert (HQ : forall x, In x xs -> msd (key x) < msb_radix P) by (apply HQQ; exact El).
      rewrite (csort_more _ (msb_radix P)) by (auto; apply radix_le).
      pose proof (sorted_out_stable xs HQ) as Hso. unfold sorted_out in Hso.
      destruct (Nat.eqb_spec (lsb_remaining_width P) 0) as [El'|_]; [tauto|].
      assert (Hinit : task_inv xs [] (xs, csort (fun x => msd (key x)) (msb_radix P) xs)).
      { set (b := fun i => start (fun x => msd (key x)) i xs).
        exists (map (fun i => firstn (b (S i) - b i) (skipn (b i) xs)) (seq 0 (msb_radix P))),
               (map (bk xs) (seq 0 (msb_radix P))).
        assert (Hbn : b (msb_radix P) = length xs) by (apply csort_length; exact HQ).
        assert (Hnth : forall (g : nat -> list T) i, i < msb_radix P -> nth i (map g (seq 0 (msb_radix P))) [] = g i).
        { intros g i Hi. rewrite (nth_indep _ [] (g 0)) by (rewrite map_length, seq_length; exact Hi). rewrite map_nth, seq_nth; auto. }
        split; [f_equal|].
        - rewrite concat_blocks; [|reflexivity|intros; apply start_mono; lia]. rewrite Hbn. symmetry. apply firstn_all.
        - unfold csort. apply flat_map_concat_map.
        - split; [split|split; [split|]].
          + now rewrite map_length, seq_length.
          + intros i Hi. rewrite Hnth by exact Hi. rewrite firstn_length, skipn_length.
            assert (b (S i) <= length xs) by (rewrite <- Hbn; apply start_mono; lia).
            assert (b (S i) = b i + cnt (fun x => msd (key x)) i xs) by (apply start_S). lia.
          + now rewrite map_length, seq_length.
          + intros i Hi. rewrite Hnth by exact Hi. reflexivity.
          + intros i Hi. destruct (in_dec Nat.eq_dec i []) as [[]|_]. apply Hnth. exact Hi. }
      destruct (tasks_run xs order [] _ HQ Hinit) as (st' & Es & Hinv).
      { rewrite app_nil_r. eapply Permutation_NoDup; [apply Permutation_sym; exact Hord|apply seq_NoDup]. }
      { intros i Hi. apply (Permutation_in _ Hord) in Hi. apply in_seq in Hi. lia. }
      rewrite Es. destruct Hinv as (As & Bs & -> & HA & HB & Hinv). cbn [obind orb].
      eexists; split; [reflexivity|].
      assert (Ef : (no_iters P mod 2 =? 0) = bflag).
      { unfold bflag. destruct (Nat.even (no_iters P)) eqn:Ev.
        - apply Nat.even_spec in Ev as [k ->]. rewrite Nat.mul_comm, Nat.mod_mul by lia. reflexivity.
        - apply Nat.eqb_neq. intros Hmod. apply Nat.mod_divides in Hmod as [c Hc]; [|lia].
          rewrite Hc, Nat.even_mul in Ev. discriminate. }
      rewrite Ef. rewrite flat_map_concat_map in Hso.
      replace (if bflag then concat Bs else concat As) with (concat (if bflag then Bs else As)) by (destruct bflag; reflexivity).
      assert (EL : (if bflag then Bs else As) = map (fun i => lsd (no_iters P) (bk xs i)) (seq 0 (msb_radix P))).
      { apply (nth_ext _ _ [] []).
        - rewrite map_length, seq_length. destruct bflag; [apply HB|apply HA].
        - intros i Hi. assert (Hi' : i < msb_radix P) by (destruct bflag; [rewrite <- (proj1 HB)|rewrite <- (proj1 HA)]; exact Hi).
          specialize (Hinv i Hi'). destruct (in_dec Nat.eq_dec i (rev order ++ [])) as [_|Hn].
          + rewrite Hinv. rewrite (nth_indep _ [] ((fun i => lsd (no_iters P) (bk xs i)) 0)) by (rewrite map_length, seq_length; exact Hi').
            rewrite (map_nth (fun i => lsd (no_iters P) (bk xs i))), seq_nth; auto.
          + exfalso. apply Hn. rewrite app_nil_r. apply in_rev. rewrite rev_involutive.
            apply (Permutation_in _ (Permutation_sym Hord)). apply in_seq. lia. }
      rewrite EL. exact Hso.
Qed.

Lemma keys_lt_ok xs : (forall x, In x xs -> (key x < mk)%N) -> keys_ok xs.
Proof.
  intros H. split; [|split].
  - intros E x y Hx. specialize (H x Hx). lia.
  - intros x Hx. pose proof (msd_lt (key x) (H x Hx)). pose proof radix_le. lia.
  - intros _ x Hx. apply msd_lt, H, Hx.
Qed.
End Lists.
End Params.
