(** Properties C15, C16, C17: the radix sort. *)
From Coq Require Import Arith NArith List Bool Permutation Lia Sorted.
From Verif Require Import Base Sched IntSort_Model IntSort_Proofs IntSort_Main.
Import ListNotations.

(** *** Specification *)
(** [out] is a stable sort of [xs]: a rearrangement, ascending, and elements with equal keys keep their order. *)
Definition is_stable_sort {T} (key : T -> N) (xs out : list T) : Prop :=
  Permutation xs out /\ StronglySorted (fun a b => (key a <= key b)%N) out /\
  forall k, filter (fun x => (key x =? k)%N) out = filter (fun x => (key x =? k)%N) xs.

Lemma filter_len_le {T} (p : T -> bool) xs : length (filter p xs) <= length xs.
Proof. induction xs as [|x xs IH]; simpl; auto. destruct (p x); simpl; lia. Qed.
Lemma filter_partition_perm {T} (key : T -> N) (xs out : list T) :
  (forall k, filter (fun x => (key x =? k)%N) out = filter (fun x => (key x =? k)%N) xs) -> Permutation xs out.
Proof.
  remember (length xs) as n eqn:E. revert xs out E. induction n as [n IH] using lt_wf_ind. intros xs out E H.
  destruct xs as [|x xs].
  - destruct out as [|y out]; [constructor|]. specialize (H (key y)). simpl in H. rewrite N.eqb_refl in H. discriminate.
  - set (p := fun y => (key y =? key x)%N).
    assert (Hp : forall l : list T, Permutation l (filter p l ++ filter (fun y => negb (p y)) l)).
    { induction l as [|a l IHl]; simpl; auto. destruct (p a); simpl; [constructor; auto|].
      apply Permutation_cons_app. exact IHl. }
    rewrite (Hp (x :: xs)), (Hp out). apply Permutation_app.
    + unfold p. rewrite (H (key x)). reflexivity.
    + eapply (IH (length (filter (fun y => negb (p y)) (x :: xs)))); [|reflexivity|].
      * subst n. simpl. unfold p at 1. rewrite N.eqb_refl. simpl. pose proof (filter_len_le (fun y => negb (p y)) xs). lia.
      * intros k. rewrite !filter_filter_and.
        destruct (N.eqb_spec k (key x)) as [->|Hk].
        -- rewrite !filter_none; auto; intros y _; unfold p; destruct (key y =? key x)%N; auto.
        -- assert (G : forall l : list T, filter (fun y => negb (p y) && (key y =? k)%N) l = filter (fun y => (key y =? k)%N) l).
           { intros l. apply filter_ext. intros y. unfold p. destruct (N.eqb_spec (key y) k) as [Ey|Ey]; [|apply andb_false_r].
             rewrite Ey. apply N.eqb_neq in Hk. rewrite Hk. reflexivity. }
           rewrite !G. apply H.
Qed.
Lemma stable_is {T} (key : T -> N) xs out : stable_sort_of key xs out -> is_stable_sort key xs out.
Proof. intros [S F]. split; [|split]; auto. eapply filter_partition_perm; eauto. Qed.

(** a stable sort is unique *)
Lemma is_stable_sort_unique {T} (key : T -> N) xs o1 o2 : is_stable_sort key xs o1 -> is_stable_sort key xs o2 -> o1 = o2.
Proof.
  intros (_ & S1 & F1) (_ & S2 & F2). assert (F : forall k, filter (fun x => (key x =? k)%N) o1 = filter (fun x => (key x =? k)%N) o2) by (intros k; now rewrite F1, F2).
  clear F1 F2 xs. revert o2 S2 F. induction S1 as [|a l S IH Fa]; intros o2 S2 F.
  - destruct o2 as [|b o2]; auto. specialize (F (key b)). simpl in F. rewrite N.eqb_refl in F. discriminate.
  - destruct o2 as [|b o2]; [specialize (F (key a)); simpl in F; rewrite N.eqb_refl in F; discriminate|].
    inversion S2 as [|? ? S2' Fb]; subst. rewrite Forall_forall in Fa, Fb.
    assert (Hin : forall (p q : T) l1 l2, (forall k, filter (fun x => (key x =? k)%N) (p :: l1) = filter (fun x => (key x =? k)%N) (q :: l2)) -> In p (q :: l2)).
    { intros p q l1 l2 H. specialize (H (key p)).
      assert (Hi : In p (filter (fun x => (key x =? key p)%N) (q :: l2))) by (rewrite <- H; apply filter_In; split; [now left|apply N.eqb_refl]).
      apply filter_In in Hi. tauto. }
    assert (Eab : key a = key b).
    { apply N.le_antisymm.
      - destruct (Hin b a o2 l) as [->|Hi]; [intros; symmetry; apply F|apply N.le_refl|apply Fa; exact Hi].
      - destruct (Hin a b l o2 F) as [->|Hi]; [apply N.le_refl|apply Fb; exact Hi]. }
    pose proof (F (key a)) as F0. simpl in F0. rewrite N.eqb_refl, <- Eab, N.eqb_refl in F0. inversion F0; subst b.
    f_equal. apply IH; auto. intros k. specialize (F k). simpl in F. destruct (key a =? k)%N; [now inversion F|exact F].
Qed.

Lemma short_list {T} (xs : list T) x y : length xs < 2 -> In x xs -> In y xs -> x = y.
Proof.
  destruct xs as [|a [|b xs]]; simpl; intros H Hx Hy; [tauto| |lia].
  destruct Hx as [<-|[]], Hy as [<-|[]]. reflexivity.
Qed.
Lemma threads_chunks_ok n omp_max t : omp_max <= 2 ^ 17 + 1 -> 1 <= t <= max_threads omp_max n -> chunks_ok n t.
Proof.
  intros Ho [Ht Hm]. split; [exact Ht|]. unfold max_threads in Hm.
  assert (Hn : n <> 0). { intros ->. change (idiv_ceil 0 (2 ^ 17)) with ((2 ^ 17 - 1) / 2 ^ 17) in Hm. rewrite Nat.div_small in Hm; [lia|].
    pose proof (Nat.pow_nonzero 2 17). lia. }
  pose proof (idiv_ceil_pred n (2 ^ 17) ltac:(apply Nat.pow_nonzero; lia) Hn) as Hp.
  pose proof (idiv_ceil_pred n t ltac:(lia) Hn) as Hq. set (c := idiv_ceil n t) in *. set (K := 2 ^ 17) in *. clearbody K.
  assert (H1 : (t - 1) * (t - 1) <= n) by nia. destruct c as [|c]; [lia|].
  replace (S c - 1) with c in Hq by lia. destruct t as [|t]; [lia|]. replace (S t - 1) with t in * by lia.
  destruct (Nat.lt_ge_cases c t) as [L|L]; nia.
Qed.

(** *** C15: intsort sorts, for every input length, thread count, schedule and key bound (keys below max_key). *)
Theorem C15_radix_sort_sorts {T} (key : T -> N) (radix_width : nat) (max_key : N) (omp_max : nat) (xs buf : list T) :
  1 <= radix_width -> (max_key < 2 ^ 32)%N -> 1 <= omp_max <= 2 ^ 17 + 1 ->
  (forall x, In x xs -> (key x < max_key)%N) -> length buf = length xs ->
  (exists o, intsort_outcome radix_width key max_key omp_max xs buf o) /\
  (forall o, intsort_outcome radix_width key max_key omp_max xs buf o ->
     exists out, o = Some out /\ is_stable_sort key xs out).
Proof.
  intros Hw Hmk Ho HK HL. pose proof (keys_lt_ok radix_width max_key Hw Hmk key xs HK) as Hok.
  unfold intsort_outcome. destruct (sort_trivial (mk_params radix_width max_key) (length xs)) eqn:Et.
  - split; [eauto|]. intros o ->. exists xs. split; auto. apply stable_is.
    unfold sort_trivial in Et. apply stable_refl_const. intros x y Hx Hy.
    apply orb_prop in Et as [H%Nat.ltb_lt|H%N.ltb_lt].
    + now rewrite (short_list xs x y H Hx Hy).
    + cbn in H. pose proof (HK x Hx). lia.
  - assert (Hpass : forall t, 1 <= t <= max_threads omp_max (length xs) ->
      exists ws, msb_pass (mk_params radix_width max_key) key t xs = Some (ws, splitter_of radix_width max_key key xs)).
    { intros t Ht. destruct (msb_pass_spec radix_width max_key Hw Hmk key xs t) as (ws & E & _); [apply Hok| |eauto].
      eapply threads_chunks_ok; [apply Ho|exact Ht]. }
    split.
    + assert (H1 : 1 <= 1 <= max_threads omp_max (length xs)).
      { split; [lia|]. unfold max_threads. apply Nat.min_glb; [lia|]. apply idiv_ceil_pos; [apply Nat.pow_nonzero; lia|].
        unfold sort_trivial in Et. apply orb_false_elim in Et as [Et _]. apply Nat.ltb_ge in Et. lia. }
      destruct (Hpass 1 H1) as (ws & E). eexists. exists 1. split; [exact H1|]. rewrite E.
      exists (concat ws), (seq 0 (msb_radix (mk_params radix_width max_key))).
      repeat split; [apply interleaving_concat|apply Permutation_refl].
    + intros o (t & Ht & H). destruct (Hpass t Ht) as (ws & E). rewrite E in H. destruct H as (tr & order & Htr & Hor & ->).
      destruct (intsort_main radix_width max_key Hw Hmk key xs buf t tr order Hok HL) as (out & Eo & Hs).
      * eapply threads_chunks_ok; [apply Ho|exact Ht].
      * split; [exists ws, (splitter_of radix_width max_key key xs); auto|exact Hor].
      * exists out. split; [exact Eo|now apply stable_is].
Qed.
(** the hypotheses are met by a concrete input with three bits-groups of key, two of them equal *)
Example C15_witness :
  let xs := [(70000, 1); (3, 2); (70000, 3); (4096, 4)]%N in
  (100000 < 2 ^ 32)%N /\ (forall x, In x xs -> (fst x < 100000)%N) /\
  is_stable_sort fst xs [(3, 2); (4096, 4); (70000, 1); (70000, 3)]%N.
Proof.
  cbv zeta. split; [lia|]. split.
  - intros x H. simpl in H. repeat (destruct H as [<-|H]; [simpl; lia|]). tauto.
  - apply stable_is. split; [repeat constructor; simpl; lia|]. intros k. cbn [filter fst].
    destruct (N.eqb_spec 3 k), (N.eqb_spec 4096 k), (N.eqb_spec 70000 k); subst; try lia; reflexivity.
Qed.

(** *** C16: a key equal to max_key.  The documented range is wrong for powers of two >= 2^RADIX_WIDTH ... *)
Lemma count_into_oob {T} (fo : T -> option nat) xs c x q : In x xs -> fo x = Some q -> length c <= q -> count_into fo xs c = None.
Proof.
  revert c; induction xs as [|a xs IH]; intros c Hin Hf Hq; [destruct Hin|]. simpl. destruct Hin as [->|Hin].
  - rewrite Hf. simpl. unfold incr. rewrite (proj2 (nth_error_None c q) Hq). reflexivity.
  - destruct (fo a) as [r|]; auto. simpl. unfold incr. destruct (nth_error c r) as [v|] eqn:E; auto. simpl.
    destruct (upd_Some c r (S v)) as (c' & E' & L & _); [apply nth_error_Some; congruence|]. rewrite E'. simpl.
    apply IH; auto. lia.
Qed.
Lemma omap_None {A B} (f : A -> option B) l x : In x l -> f x = None -> omap f l = None.
Proof.
  induction l as [|a l IH]; intros Hin Hf; [destruct Hin|]. simpl. destruct Hin as [->|Hin].
  - now rewrite Hf.
  - rewrite (IH Hin Hf). destruct (f a); reflexivity.
Qed.
Lemma ilog2_pow2 k : ilog2 (2 ^ N.of_nat k) = k.
Proof.
  apply Nat.le_antisymm; [apply ilog2_le; lia|]. pose proof (ilog2_spec (2 ^ N.of_nat k)) as H.
  apply N.pow_le_mono_r_iff in H; lia.
Qed.
Theorem C16_refuted {T} (key : T -> N) (radix_width k omp_max : nat) (xs buf : list T) :
  1 <= radix_width <= k -> k < 32 -> 1 <= omp_max <= 2 ^ 17 + 1 -> 2 <= length xs ->
  (forall x, In x xs -> (key x <= 2 ^ N.of_nat k)%N) -> (exists x, In x xs /\ key x = (2 ^ N.of_nat k)%N) ->
  forall o, intsort_outcome radix_width key (2 ^ N.of_nat k) omp_max xs buf o -> o = None.
Proof.
  intros Hw Hk Ho Hn HK (x & Hx & Ex) o. set (mk := (2 ^ N.of_nat k)%N) in *.
  assert (Hmk : (mk < 2 ^ 32)%N) by (unfold mk; apply N.pow_lt_mono_r; lia).
  unfold intsort_outcome. destruct (sort_trivial (mk_params radix_width mk) (length xs)) eqn:Et.
  - unfold sort_trivial in Et. apply orb_prop in Et as [H%Nat.ltb_lt|H%N.ltb_lt]; [lia|]. cbn in H.
    pose proof (pow2N_pos (N.of_nat k)). unfold mk in H. lia.
  - intros (t & Ht & H).
    assert (Hc : chunks_ok (length xs) t) by (eapply threads_chunks_ok; [apply Ho|exact Ht]).
    destruct (chunks_concat radix_width mk (proj1 Hw) Hmk xs t Hc) as (chs & E & HL & HC).
    enough (En : msb_pass (mk_params radix_width mk) key t xs = None) by (rewrite En in H; exact H).
    unfold msb_pass. rewrite E. cbn [obind].
    rewrite <- HC in Hx. apply in_concat in Hx as (ch & Hch & Hx).
    rewrite (omap_None _ chs ch Hch); [reflexivity|].
    unfold count_all. apply (count_into_oob _ ch _ x (2 ^ radix_width) Hx).
    + rewrite msb_index_eq by (lia || exact Hmk). f_equal. unfold msd. rewrite Ex.
      assert (Es : msb_shift (mk_params radix_width mk) = k - radix_width).
      { unfold mk_params; cbn [msb_shift]. unfold mk. rewrite ilog2_pow2. lia. }
      rewrite Es. unfold mk. rewrite <- N.pow_sub_r by (try discriminate; lia).
      replace (N.of_nat k - N.of_nat (k - radix_width))%N with (N.of_nat radix_width) by lia. apply to_nat_pow2.
    + rewrite repeat_length. unfold no_queues. cbn [rw mk_params]. lia.
Qed.
(** ... and right for every other max_key. *)
Theorem C16_inclusive_bound_otherwise {T} (key : T -> N) (radix_width : nat) (max_key : N) (omp_max : nat) (xs buf : list T) :
  1 <= radix_width -> (max_key < 2 ^ 32)%N -> 1 <= omp_max <= 2 ^ 17 + 1 ->
  (forall k, radix_width <= k -> max_key <> (2 ^ N.of_nat k)%N) ->
  (forall x, In x xs -> (key x <= max_key)%N) -> length buf = length xs ->
  forall o, intsort_outcome radix_width key max_key omp_max xs buf o -> exists out, o = Some out /\ is_stable_sort key xs out.
Proof.
  intros Hw Hmk Ho Hp HK HL.
  assert (Hok : keys_ok radix_width max_key key xs).
  { pose proof (ilog2_spec max_key) as Hsp. split; [|split].
    - intros -> x y Hx Hy. pose proof (HK x Hx). pose proof (HK y Hy). lia.
    - intros x Hx. destruct (N.eq_dec max_key (2 ^ N.of_nat (ilog2 max_key))) as [E|E].
      + destruct (Nat.le_gt_cases radix_width (ilog2 max_key)) as [L|L]; [exfalso; exact (Hp _ L E)|].
        assert (Es : msb_shift (mk_params radix_width max_key) = 0) by (unfold mk_params; cbn [msb_shift]; lia).
        unfold msd. rewrite Es. change (2 ^ N.of_nat 0)%N with 1%N. rewrite N.div_1_r.
        unfold no_queues. cbn [rw mk_params]. rewrite <- to_nat_pow2.
        assert (key x < 2 ^ N.of_nat radix_width)%N; [|lia].
        eapply N.le_lt_trans; [exact (HK x Hx)|]. rewrite E. apply N.pow_lt_mono_r; lia.
      + assert (L : (max_key + 1 <= 2 ^ N.of_nat (ilog2 max_key))%N) by lia.
        pose proof (radix_le radix_width max_key Hw Hmk) as Hr.
        assert (Hlt : msd radix_width max_key (key x) < msb_radix (mk_params radix_width max_key)); [|lia].
        unfold msd. change (msb_radix _) with (2 ^ msb_radix_width (mk_params radix_width max_key)). rewrite <- to_nat_pow2.
        enough (H : (key x / 2 ^ N.of_nat (msb_shift (mk_params radix_width max_key)) < 2 ^ N.of_nat (msb_radix_width (mk_params radix_width max_key)))%N) by lia.
        apply N.div_lt_upper_bound; [apply N.pow_nonzero; discriminate|]. rewrite <- N.pow_add_r.
        replace (N.of_nat (msb_shift (mk_params radix_width max_key)) + N.of_nat (msb_radix_width (mk_params radix_width max_key)))%N
          with (N.of_nat (ilog2 max_key)) by (unfold mk_params; cbn [msb_shift msb_radix_width]; lia).
        pose proof (HK x Hx). lia.
    - intros Hl x Hx. assert (Hsh : radix_width < ilog2 max_key) by (unfold mk_params in Hl; cbn [lsb_remaining_width] in Hl; lia).
      assert (E : max_key <> (2 ^ N.of_nat (ilog2 max_key))%N) by (apply Hp; lia).
      unfold msd. change (msb_radix _) with (2 ^ msb_radix_width (mk_params radix_width max_key)). rewrite <- to_nat_pow2.
      enough (H : (key x / 2 ^ N.of_nat (msb_shift (mk_params radix_width max_key)) < 2 ^ N.of_nat (msb_radix_width (mk_params radix_width max_key)))%N) by lia.
      apply N.div_lt_upper_bound; [apply N.pow_nonzero; discriminate|]. rewrite <- N.pow_add_r.
      replace (N.of_nat (msb_shift (mk_params radix_width max_key)) + N.of_nat (msb_radix_width (mk_params radix_width max_key)))%N
        with (N.of_nat (ilog2 max_key)) by (unfold mk_params; cbn [msb_shift msb_radix_width]; lia).
      pose proof (HK x Hx). lia. }
  intros o. unfold intsort_outcome. destruct (sort_trivial (mk_params radix_width max_key) (length xs)) eqn:Et.
  - intros ->. exists xs. split; auto. apply stable_is.
    unfold sort_trivial in Et. apply stable_refl_const. intros x y Hx Hy.
    apply orb_prop in Et as [H%Nat.ltb_lt|H%N.ltb_lt].
    + now rewrite (short_list xs x y H Hx Hy).
    + cbn in H. apply Hok; auto. lia.
  - intros (t & Ht & H).
    destruct (msb_pass_spec radix_width max_key Hw Hmk key xs t) as (ws & E & _); [apply Hok|eapply threads_chunks_ok; [apply Ho|exact Ht]|].
    rewrite E in H. destruct H as (tr & order & Htr & Hor & ->).
    destruct (intsort_main radix_width max_key Hw Hmk key xs buf t tr order Hok HL) as (out & Eo & Hs).
    + eapply threads_chunks_ok; [apply Ho|exact Ht].
    + split; [exists ws, (splitter_of radix_width max_key key xs); auto|exact Hor].
    + exists out. split; [exact Eo|now apply stable_is].
Qed.
Example C16_witness : exists xs : list N, 2 <= length xs /\ (forall x, In x xs -> x <= 2 ^ N.of_nat 8)%N /\ In (2 ^ N.of_nat 8)%N xs.
Proof. exists [5; 256]%N. split; [simpl; lia|]. split; [|right; left; reflexivity]. intros x [<-|[<-|[]]]; vm_compute; discriminate. Qed.

(** *** C17: the chunks [begin, end) of the t threads tile [0, n) *)
Theorem C17_chunks_tile (n omp_max t : nat) :
  omp_max <= 2 ^ 17 + 1 -> 1 <= t <= max_threads omp_max n ->
  fst (chunk_bounds n t 0) = 0 /\ snd (chunk_bounds n t (t - 1)) = n /\
  forall tid, tid < t ->
    fst (chunk_bounds n t tid) <= snd (chunk_bounds n t tid) <= n /\
    (S tid < t -> fst (chunk_bounds n t (S tid)) = snd (chunk_bounds n t tid)).
Proof.
  intros Ho Ht. destruct (threads_chunks_ok n omp_max t Ho Ht) as [H1 H2].
  pose proof (idiv_ceil_ge n t ltac:(lia)) as H3. unfold chunk_bounds. set (c := idiv_ceil n t) in *. cbn [fst snd]. clearbody c.
  split; [lia|]. split; [replace (t - 1 + 1) with t by lia; nia|]. intros tid Htid. split; [nia|intros; nia].
Qed.
Example C17_witness : 1 <= 3 <= max_threads 8 (3 * 2 ^ 17).
Proof.
  unfold max_threads. split; [lia|]. apply Nat.min_glb; [lia|]. pose proof (Nat.pow_nonzero 2 17 ltac:(lia)) as H0.
  set (K := 2 ^ 17) in *. clearbody K. pose proof (idiv_ceil_ge (3 * K) K H0) as H. nia.
Qed.
(** the bound on the number of threads is needed: with q + 3 threads on q(q+3)+1 elements (q = 2^17) the last chunk begins after
    its end, although the code would use that many threads *)
Theorem C17_thread_bound_is_sharp : let q := 2 ^ 17 in let n := q * (q + 3) + 1 in
  q + 3 <= max_threads (q + 3) n /\ snd (chunk_bounds n (q + 3) (q + 2)) < fst (chunk_bounds n (q + 3) (q + 2)).
Proof.
  assert (H : forall q, q = 2 ^ 17 -> 3 <= q -> let n := q * (q + 3) + 1 in
    q + 3 <= max_threads (q + 3) n /\ snd (chunk_bounds n (q + 3) (q + 2)) < fst (chunk_bounds n (q + 3) (q + 2))).
  { intros q Hq H3 n. unfold max_threads, chunk_bounds. rewrite <- Hq. cbn [fst snd].
    assert (E : idiv_ceil n (q + 3) = q + 1).
    { apply Nat.le_antisymm; [apply idiv_ceil_le; unfold n; nia|]. pose proof (idiv_ceil_ge n (q + 3) ltac:(lia)) as Hg.
      destruct (Nat.le_gt_cases (q + 1) (idiv_ceil n (q + 3))); auto. unfold n in *. nia. }
    rewrite E. split.
    - apply Nat.min_glb; [lia|]. pose proof (idiv_ceil_ge n q ltac:(lia)) as Hg.
      destruct (Nat.le_gt_cases (q + 3) (idiv_ceil n q)); auto. unfold n in *. nia.
    - unfold n. nia. }
  intros q n. apply H; [reflexivity|]. unfold q. transitivity (2 ^ 2); [simpl; lia|apply Nat.pow_le_mono_r; lia].
Qed.
Print Assumptions C15_radix_sort_sorts.
Print Assumptions C16_refuted.
Print Assumptions C16_inclusive_bound_otherwise.
Print Assumptions C17_chunks_tile.
Print Assumptions C17_thread_bound_is_sharp.
