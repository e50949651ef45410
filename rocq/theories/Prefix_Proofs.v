(** Proofs about the cell index construction. *)
From Coq Require Import Arith NArith List Bool Permutation Lia Sorted.
From Verif Require Import Base Sched IntSort_Proofs Prefix_Model.
Import ListNotations.

Definition cntlt (c : nat) (ids : list nat) : nat := length (filter (fun x => x <? c) ids).

Lemma cntlt_nth l j k x : StronglySorted le l -> nth_error l k = Some x -> (x < j <-> k < cntlt j l).
Proof.
  intros S. revert k. induction S as [|a l S IH F]; intros k Hk; [destruct k; discriminate|].
  unfold cntlt in *. simpl. destruct (Nat.ltb_spec a j) as [L|L].
  - destruct k as [|k]; simpl in *; [inversion Hk; subst; lia|]. rewrite (IH k Hk). lia.
  - rewrite (filter_none (fun x => x <? j)).
    + simpl. assert (a <= x); [|lia]. destruct k as [|k]; simpl in Hk; [inversion Hk; auto|].
      rewrite Forall_forall in F. apply F. eapply nth_error_In; eauto.
    + rewrite Forall_forall in F. intros y Hy. apply Nat.ltb_ge. specialize (F y Hy). lia.
Qed.
Lemma sorted_nth_le l i k x y : StronglySorted le l -> i <= k -> nth_error l i = Some x -> nth_error l k = Some y -> x <= y.
Proof.
  intros S. revert i k. induction S as [|a l S IH F]; intros i k Hik Hi Hk; [destruct i; discriminate|].
  destruct i as [|i], k as [|k]; simpl in *; try lia.
  - assert (x = y) by congruence. lia.
  - inversion Hi; subst. rewrite Forall_forall in F. apply F. eapply nth_error_In; eauto.
  - apply (IH i k); auto. lia.
Qed.
Lemma cntlt_le c l : cntlt c l <= length l.
Proof. unfold cntlt. induction l as [|a l IH]; simpl; auto. destruct (a <? c); simpl; lia. Qed.
Lemma cntlt_mono c d l : c <= d -> cntlt c l <= cntlt d l.
Proof. intros H. unfold cntlt. induction l as [|a l IH]; simpl; auto. destruct (Nat.ltb_spec a c), (Nat.ltb_spec a d); simpl; lia. Qed.
Lemma cntlt_S_empty c l : ~ In c l -> cntlt (S c) l = cntlt c l.
Proof.
  intros H. unfold cntlt. f_equal. apply filter_ext_in. intros a Ha. assert (a <> c) by (intros ->; auto).
  destruct (Nat.ltb_spec a c), (Nat.ltb_spec a (S c)); auto; lia.
Qed.
Lemma cntlt_all c l : (forall x, In x l -> x < c) -> cntlt c l = length l.
Proof.
  intros H. unfold cntlt. f_equal. induction l as [|a l IH]; simpl; auto.
  destruct (Nat.ltb_spec a c) as [|L]; [f_equal; apply IH; intros; apply H; now right|]. specialize (H a (or_introl eq_refl)). lia.
Qed.

Section Term.
Variables M t : nat.
(** *** termination: every step decreases a measure, and a thread that is not done can step *)
Definition tmeas (r : nat) (s : tstate) : nat :=
  let b := rep_begin M t r in
  match s with
  | TLoop i => 5 * (i - b) + 1
  | TBody i => 5 * (i - b) + 5
  | TGotA i _ | TGotB i _ => 5 * (i - b) + 4
  | TReload i _ => 5 * (i - b) + 3
  | TStore i _ => 5 * (i - b) + 2
  | TDone => 0
  end.
Fixpoint tsum (r : nat) (ts : list tstate) : nat :=
  match ts with [] => 0 | s :: rest => tmeas r s + tsum (S r) rest end.
Lemma tsum_app r ts1 ts2 : tsum r (ts1 ++ ts2) = tsum r ts1 + tsum (r + length ts1) ts2.
Proof. revert r; induction ts1 as [|s ts1 IH]; intros r; simpl; [f_equal; lia|]. rewrite IH. replace (S r + length ts1) with (r + S (length ts1)) by lia. lia. Qed.
Definition team_meas (s : team) : nat := match s with Some (_, ts) => S (tsum 0 ts) | None => 0 end.
Lemma step_decreases s s' : team_step M t s s' -> team_meas s' < team_meas s.
Proof.
  intros H. inversion H as [arr ts1 s0 ts2 arr' s0' Hst|]; subst; simpl; [|lia].
  rewrite !tsum_app. simpl. enough (tmeas (length ts1) s0' < tmeas (length ts1) s0) by lia.
  inversion Hst; subst; simpl; try lia;
  repeat match goal with H : obind ?e _ = Some _ |- _ => destruct e; cbn [obind] in H; [|discriminate H]; inversion H; subst; clear H end; simpl; lia.
Qed.
Lemma steps_bounded k s s' : team_steps M t k s s' -> k + team_meas s' <= team_meas s.
Proof. induction 1 as [|k s s1 s2 H1 _ IH]; [lia|]. pose proof (step_decreases _ _ H1). lia. Qed.
Lemma can_step arr ts : ~ all_done ts -> exists s', team_step M t (Some (arr, ts)) s'.
Proof.
  intros H. assert (Hex : exists ts1 s ts2, ts = ts1 ++ s :: ts2 /\ s <> TDone).
  { induction ts as [|s ts IH]; [exfalso; apply H; constructor|].
    assert (Hdec : s = TDone \/ s <> TDone) by (destruct s; auto; right; discriminate). destruct Hdec as [->|Hd].
    - destruct IH as (ts1 & s' & ts2 & -> & Hs'); [intros Ha; apply H; constructor; auto|]. exists (TDone :: ts1), s', ts2. auto.
    - exists [], s, ts. auto. }
  destruct Hex as (ts1 & s & ts2 & -> & Hd). set (b := rep_begin M t (length ts1)).
  assert (Hst : exists o, tstep b arr s o).
  { destruct s; try (eexists; constructor; fail).
    - destruct (Nat.le_gt_cases i b); eexists; [apply ts_exit|apply ts_enter]; assumption.
    - congruence. }
  destruct Hst as ([[arr' s']|] & Hst); eexists; [eapply team_ok|eapply team_bad]; exact Hst.
Qed.
End Term.

Section Index.
Variables (ids : list nat) (M : nat).
Hypothesis Hsorted : StronglySorted le ids.
Hypothesis Hlt : forall x, In x ids -> x < M.
Hypothesis Hn : 1 <= length ids.
Hypothesis Hsmall : (N.of_nat (length ids) < GAP)%N.

Definition fin (c : nat) : N := N.of_nat (cntlt c ids).
Lemma fin_lt_gap c : (fin c < GAP)%N.
Proof. unfold fin. pose proof (cntlt_le c ids). lia. Qed.
Lemma fin_mono c d : c <= d -> (fin c <= fin d)%N.
Proof. intros H. unfold fin. pose proof (cntlt_mono c d ids H). lia. Qed.
Lemma fin_M : fin M = N.of_nat (length ids).
Proof. unfold fin. now rewrite cntlt_all. Qed.
Lemma fin_gap_run a k : a <= k -> (forall j, a <= j < k -> ~ In j ids) -> fin a = fin k.
Proof.
  induction 1 as [|k H IH]; intros Hg; auto. rewrite IH by (intros; apply Hg; lia).
  unfold fin. rewrite cntlt_S_empty; [reflexivity|apply Hg; lia].
Qed.

Definition mt (j : nat) : N := if in_dec Nat.eq_dec j ids then fin j else if j =? M then fin j else GAP.

(** partially repaired index *)
Definition part_ok (arr : list N) : Prop :=
  length arr = M + 1 /\
  (forall j, j <= M -> nth_error arr j = Some GAP \/ nth_error arr j = Some (fin j)) /\
  (forall j, In j ids \/ j = M -> nth_error arr j = Some (fin j)).

Lemma mark_write_in i b v ws : mark_write ids i = Some ws -> In (b, v) ws -> 1 <= i -> v = fin b /\ In b ids /\ v = N.of_nat i.
Proof.
  unfold mark_write. destruct (nth_error ids (i - 1)) as [a|] eqn:Ea; [|discriminate]. cbn [obind].
  destruct (nth_error ids i) as [b'|] eqn:Eb; [|discriminate]. cbn [obind]. intros E Hin Hi. inversion E; subst ws. clear E.
  destruct (Nat.eqb_spec a b') as [|Hd]; [destruct Hin|]. destruct Hin as [E|[]]. inversion E; subst b' v. split; [|split; auto; eapply nth_error_In; eauto].
  unfold fin. f_equal.
  assert (a <= b) by (eapply (sorted_nth_le ids (i - 1) i); eauto; lia).
  pose proof (cntlt_nth ids b (i - 1) a Hsorted Ea). pose proof (cntlt_nth ids b i b Hsorted Eb). lia.
Qed.

Lemma mark_writes_spec t : 1 <= t ->
  exists ws, mark_writes ids t = Some ws /\
    forall b v, In (b, v) (concat ws) <-> exists i l, 1 <= i < length ids /\ mark_write ids i = Some l /\ In (b, v) l.
Proof.
  intros Ht. set (g := fun i => match mark_write ids i with Some l => l | None => [] end).
  assert (Hg : forall i, 1 <= i < length ids -> mark_write ids i = Some (g i)).
  { intros i Hi. unfold g, mark_write. destruct (nth_error ids (i - 1)) as [a|] eqn:Ea; [|apply nth_error_None in Ea; lia].
    destruct (nth_error ids i) as [b|] eqn:Eb; [|apply nth_error_None in Eb; lia]. reflexivity. }
  exists (map (fun blk => concat (map g blk)) (static_split (seq 1 (length ids - 1)) t)). split.
  - unfold mark_writes. apply omap_map. intros blk Hblk.
    rewrite (omap_map _ g); [reflexivity|]. intros i Hi. apply Hg.
    assert (In i (seq 1 (length ids - 1))).
    { rewrite <- (static_split_concat (seq 1 (length ids - 1)) t) by lia. apply in_concat. eauto. }
    apply in_seq in H. lia.
  - intros b v.
    assert (E : forall (ls : list (list nat)), concat (map (fun blk => concat (map g blk)) ls) = flat_map g (concat ls)).
    { induction ls as [|l ls IH]; simpl; auto. rewrite IH, flat_map_app, (flat_map_concat_map g l). reflexivity. }
    rewrite E, static_split_concat by lia. rewrite in_flat_map. split.
    + intros (i & Hi%in_seq & Hin). exists i, (g i). split; [lia|]. split; auto. apply Hg. lia.
    + intros (i & l & Hi & El & Hin). exists i. split; [apply in_seq; lia|]. rewrite Hg in El by lia. congruence.
Qed.

Lemma mark_init_spec : exists c0 arr0, nth_error ids 0 = Some c0 /\ mark_init ids M = Some arr0 /\ length arr0 = M + 1 /\
  forall j, j <= M -> nth_error arr0 j = Some (if j =? c0 then 0%N else if j =? M then N.of_nat (length ids) else GAP).
Proof.
  destruct (nth_error ids 0) as [c0|] eqn:E0; [|apply nth_error_None in E0; lia]. exists c0.
  assert (Hc0 : c0 < M) by (apply Hlt; eapply nth_error_In; eauto).
  destruct (upd_Some (repeat GAP (M + 1)) M (N.of_nat (length ids))) as (a1 & E1 & L1 & N1 & O1); [rewrite repeat_length; lia|].
  rewrite repeat_length in L1.
  destruct (upd_Some a1 c0 0%N) as (a2 & E2 & L2 & N2 & O2); [lia|].
  exists a2. unfold mark_init. rewrite E1, E0. cbn [obind]. repeat split; auto; [lia|].
  intros j Hj. destruct (Nat.eqb_spec j c0) as [->|Hd]; auto. rewrite O2 by auto.
  destruct (Nat.eqb_spec j M) as [->|Hd2]; auto. rewrite O1 by auto.
  apply nth_error_repeat. lia.
Qed.

Lemma fin_first c0 : nth_error ids 0 = Some c0 -> fin c0 = 0%N.
Proof. intros H. unfold fin. pose proof (cntlt_nth ids c0 0 c0 Hsorted H). lia. Qed.

Lemma mark_ok t tr : 1 <= t -> (exists ws, mark_writes ids t = Some ws /\ interleaving ws tr) ->
  exists arr0 arr1, mark_init ids M = Some arr0 /\ apply_writes tr arr0 = Some arr1 /\ part_ok arr1.
Proof.
  intros Ht (ws & Ews & Htr). destruct (mark_writes_spec t Ht) as (ws' & E & Hin). rewrite E in Ews. inversion Ews; subst ws'. clear Ews.
  destruct mark_init_spec as (c0 & arr0 & E0 & Ei & L0 & H0). exists arr0.
  set (tgt := tab (M + 1) mt).
  assert (Htgt : forall j, j <= M -> nth_error tgt j = Some (mt j)) by (intros; apply tab_nth; lia).
  destruct (apply_writes_agree tr arr0 tgt) as (arr1 & E1 & L1 & H1).
  - unfold tgt. now rewrite tab_length.
  - intros i x Hix. apply (interleaving_In _ _ _ Htr), Hin in Hix as (i' & l & Hi' & El & Hil).
    destruct (mark_write_in i' i x l El Hil) as (-> & Hb & _); [lia|].
    rewrite Htgt by (specialize (Hlt i Hb); lia). unfold mt. destruct (in_dec Nat.eq_dec i ids); tauto.
  - exists arr1. split; auto. split; auto. unfold tgt in L1. rewrite tab_length in L1.
    assert (Hval : forall j, j <= M -> nth_error arr1 j = Some (mt j)).
    { intros j Hj. rewrite H1. destruct (in_dec Nat.eq_dec j (map fst tr)) as [|Hnw]; [now apply Htgt|].
      rewrite H0 by assumption. f_equal. unfold mt. destruct (Nat.eqb_spec j c0) as [->|Hd].
      - destruct (in_dec Nat.eq_dec c0 ids) as [_|Hn0]; [now rewrite fin_first|]. exfalso. apply Hn0. eapply nth_error_In; eauto.
      - destruct (in_dec Nat.eq_dec j ids) as [Hj'|_]; [|destruct (Nat.eqb_spec j M) as [->|]; [now rewrite fin_M|reflexivity]].
        exfalso. apply Hnw. apply In_nth_error in Hj' as (k & Hk).
        assert (Hc : cntlt j ids <= k) by (pose proof (cntlt_nth ids j k j Hsorted Hk); lia).
        assert (Hkl : k < length ids) by (apply nth_error_Some; congruence).
        set (i := cntlt j ids) in *. destruct (nth_error ids i) as [y|] eqn:Ey; [|apply nth_error_None in Ey; lia].
        assert (y <= j) by (apply (sorted_nth_le ids i k y j); auto).
        assert (~ y < j) by (rewrite (cntlt_nth ids j i y Hsorted Ey); unfold i; lia).
        assert (y = j) by lia. subst y.
        assert (Hi0 : i <> 0) by (intros Hz; rewrite Hz in Ey; congruence).
        destruct (nth_error ids (i - 1)) as [a|] eqn:Ea; [|apply nth_error_None in Ea; lia].
        assert (a < j) by (rewrite (cntlt_nth ids j (i - 1) a Hsorted Ea); unfold i in *; lia).
        assert (Hw : mark_write ids i = Some [(j, N.of_nat i)]).
        { unfold mark_write. rewrite Ea, Ey. cbn [obind]. destruct (Nat.eqb_spec a j); [lia|reflexivity]. }
        apply (in_map fst tr (j, N.of_nat i)). apply (interleaving_In _ _ _ Htr), Hin. exists i, [(j, N.of_nat i)].
        split; [lia|]. split; auto. now left. }
    split; [lia|]. split.
    + intros j Hj. rewrite Hval by assumption. unfold mt. destruct (in_dec Nat.eq_dec j ids); auto. destruct (j =? M); auto.
    + intros j [Hj| ->].
      * rewrite Hval by (specialize (Hlt j Hj); lia). unfold mt. destruct (in_dec Nat.eq_dec j ids); tauto.
      * rewrite Hval by lia. unfold mt. rewrite Nat.eqb_refl. destruct (in_dec Nat.eq_dec M ids); reflexivity.
Qed.

(** *** the chunks *)
Variable t : nat.
Hypothesis Ht : 1 <= t.
Lemma HM : 1 <= M.
Proof. destruct ids as [|x l]; [simpl in Hn; lia|]. specialize (Hlt x (or_introl eq_refl)). lia. Qed.
Lemma chunk_pos : 1 <= rep_chunk M t.
Proof. pose proof HM. unfold rep_chunk. apply Nat.div_le_lower_bound; lia. Qed.
Lemma chunk_cover : M <= rep_chunk M t * t.
Proof. unfold rep_chunk. pose proof (Nat.div_mod (M + t - 1) t ltac:(lia)). pose proof (Nat.mod_upper_bound (M + t - 1) t ltac:(lia)). lia. Qed.
Lemma rep_start_end r : rep_start M t r = rep_end M t r.
Proof. unfold rep_start, rep_end, rep_begin. rewrite Nat.mul_add_distr_l. lia. Qed.
Lemma rep_end_begin r : rep_end M t r = rep_begin M t (S r).
Proof. unfold rep_end, rep_begin. f_equal. f_equal. lia. Qed.
Lemma rep_begin_mono r r' : r <= r' -> rep_begin M t r <= rep_begin M t r'.
Proof. intros H. unfold rep_begin. nia. Qed.
Lemma rep_end_pos r : 1 <= rep_end M t r <= M.
Proof. pose proof chunk_pos. pose proof HM. unfold rep_end. nia. Qed.

Definition ends_fixed (arr : list N) (rs : nat -> Prop) : Prop :=
  forall r, rs r -> nth_error arr (rep_end M t r - 1) = Some (fin (rep_end M t r - 1)).

Lemma part_set arr i : part_ok arr -> i <= M -> exists arr', upd arr i (fin i) = Some arr' /\ part_ok arr' /\
  nth_error arr' i = Some (fin i) /\ forall j, j <> i -> nth_error arr' j = nth_error arr j.
Proof.
  intros (L & H1 & H2) Hi. destruct (upd_Some arr i (fin i)) as (arr' & E & L' & N' & O'); [lia|]. exists arr'.
  repeat split; auto; try lia.
  - intros j Hj. destruct (Nat.eq_dec j i) as [->|]; auto. rewrite O' by auto. auto.
  - intros j Hj. destruct (Nat.eq_dec j i) as [->|]; auto. rewrite O' by auto. auto.
Qed.

Lemma first_valid_spec arr : part_ok arr -> forall fuel k, k <= M -> M < fuel + k ->
  exists k', first_valid fuel arr k = Some k' /\ k <= k' <= M /\ nth_error arr k' = Some (fin k') /\
    forall j, k <= j < k' -> nth_error arr j = Some GAP.
Proof.
  intros (L & H1 & H2). induction fuel as [|f IH]; intros k Hk Hf; [lia|]. cbn [first_valid].
  destruct (nth_error arr k) as [v|] eqn:E; [|apply nth_error_None in E; lia]. cbn [obind].
  destruct (N.eqb_spec v GAP) as [->|Hv].
  - assert (k <> M). { intros ->. rewrite (H2 M) in E by auto. pose proof (fin_lt_gap M). inversion E. lia. }
    destruct (IH (S k)) as (k' & E' & Hk' & Hv' & Hg); [lia|lia|]. exists k'. split; [exact E'|]. split; [lia|]. split; [exact Hv'|].
    intros j Hj. destruct (Nat.eq_dec j k) as [->|]; auto. apply Hg. lia.
  - exists k. split; [reflexivity|]. split; [lia|]. split; [|intros; lia]. destruct (H1 k Hk) as [G|G]; [congruence|]. congruence.
Qed.

Lemma fix_end_spec arr r rs : part_ok arr -> ends_fixed arr rs -> exists arr', fix_end M t arr r = Some arr' /\ part_ok arr' /\
  ends_fixed arr' (fun r' => rs r' \/ r' = r).
Proof.
  intros Hp He. pose proof (rep_end_pos r) as Hre. unfold fix_end.
  destruct (Nat.eqb_spec (rep_end M t r) 0); [lia|].
  destruct (first_valid_spec arr Hp (S (length arr)) (rep_end M t r - 1)) as (k & E & Hk & Hv & Hg); [lia|destruct Hp; lia|].
  rewrite E. cbn [obind]. rewrite Hv. cbn [obind].
  assert (Ef : fin k = fin (rep_end M t r - 1)).
  { symmetry. apply fin_gap_run; [lia|]. intros j Hj Hin. destruct Hp as (_ & _ & H2). specialize (H2 j (or_introl Hin)).
    rewrite Hg in H2 by lia. inversion H2. pose proof (fin_lt_gap j). lia. }
  rewrite Ef. destruct (part_set arr (rep_end M t r - 1) Hp) as (arr' & E' & Hp' & Hn' & Ho'); [lia|].
  exists arr'. repeat split; auto; try apply Hp'. intros r' [Hr|Hr]; [|subst r'; exact Hn'].
  destruct (Nat.eq_dec (rep_end M t r' - 1) (rep_end M t r - 1)) as [Eq|Hne]; [rewrite Eq; exact Hn'|].
  rewrite Ho' by assumption. apply He. exact Hr.
Qed.
Lemma fix_ends_spec rl : forall arr rs, part_ok arr -> ends_fixed arr rs -> exists arr', fix_ends M t arr rl = Some arr' /\ part_ok arr' /\
  ends_fixed arr' (fun r' => rs r' \/ In r' rl).
Proof.
  induction rl as [|r rl IH]; intros arr rs Hp He; cbn [fix_ends].
  - exists arr. repeat split; auto; try apply Hp. intros r [H|[]]. auto.
  - destruct (fix_end_spec arr r rs Hp He) as (arr1 & E1 & Hp1 & He1). rewrite E1. cbn [obind].
    destruct (IH arr1 _ Hp1 He1) as (arr2 & E2 & Hp2 & He2). exists arr2. split; auto. split; auto.
    intros r' H. apply He2. destruct H as [H|[H|H]]; auto.
Qed.

(** *** invariant of the concurrent repair *)
Definition isfin (arr : list N) j := nth_error arr j = Some (fin j).
Definition bnd r i := rep_begin M t r <= i < rep_end M t r.
Definition linv (arr : list N) (r : nat) (s : tstate) : Prop :=
  match s with
  | TLoop i => rep_begin M t r <= i <= rep_end M t r /\ (forall j, i <= j < rep_end M t r -> isfin arr j)
  | TBody i => bnd r i /\ (forall j, i < j < rep_end M t r -> isfin arr j)
  | TGotA i a => bnd r i /\ (forall j, i < j < rep_end M t r -> isfin arr j) /\ nth_error arr i = Some a
  | TGotB i b => bnd r i /\ (forall j, i < j < rep_end M t r -> isfin arr j) /\ (b = GAP \/ (b = fin (i + 1) /\ isfin arr (i + 1))) /\
                 (i + 1 < rep_end M t r -> b = fin (i + 1))
  | TReload i k => bnd r i /\ (forall j, i < j < rep_end M t r -> isfin arr j) /\ k <= M /\ isfin arr k /\ fin k = fin i
  | TStore i v => bnd r i /\ (forall j, i < j < rep_end M t r -> isfin arr j) /\ v = fin i
  | TDone => forall j, rep_begin M t r <= j < rep_end M t r -> isfin arr j
  end.
Definition ginv (arr : list N) (ts : list tstate) : Prop :=
  part_ok arr /\ ends_fixed arr (fun r => r < t) /\ length ts = t /\
  forall r s, nth_error ts r = Some s -> linv arr r s.

(** writes by another thread keep the local invariant *)
Lemma linv_other arr arr' r s i : linv arr r s -> ~ bnd r i -> nth_error arr' i = Some (fin i) ->
  (forall j, j <> i -> nth_error arr' j = nth_error arr j) -> linv arr' r s.
Proof.
  intros H Hb Hi Ho.
  assert (Hf : forall j, isfin arr j -> isfin arr' j).
  { intros j Hj. unfold isfin in *. destruct (Nat.eq_dec j i) as [->|]; auto. rewrite Ho; auto. }
  destruct s as [k|k|k a|k b|k m|k v|]; cbn [linv] in *; intuition auto.
  rewrite Ho; auto. intros ->. apply Hb. assumption.
Qed.

Lemma choose arr r i a b : part_ok arr -> ends_fixed arr (fun r => r < t) -> r < t -> bnd r i ->
  (forall j, i < j < rep_end M t r -> isfin arr j) ->
  nth_error arr i = Some a -> (b = GAP \/ (b = fin (i + 1) /\ isfin arr (i + 1))) -> (i + 1 < rep_end M t r -> b = fin (i + 1)) ->
  let k := if (b <? a)%N then i + 1 else i in k <= M /\ isfin arr k /\ fin k = fin i.
Proof.
  intros Hp He Hr Hb Hj Ha Hbv Hb1. pose proof Hp as (L & H1 & H2). pose proof (rep_end_pos r) as Hre. unfold bnd in Hb.
  pose proof (fin_lt_gap i) as G0. pose proof (fin_lt_gap (i + 1)) as G1. pose proof (fin_mono i (i + 1) ltac:(lia)) as G2.
  destruct (Nat.eq_dec (i + 1) (rep_end M t r)) as [E|E].
  - assert (Ea : nth_error arr i = Some (fin i)).
    { specialize (He r Hr). replace (rep_end M t r - 1) with i in He by lia. exact He. }
    rewrite Ea in Ha. inversion Ha; subst a.
    assert (~ (b < fin i)%N) by (destruct Hbv as [->|[-> _]]; lia).
    destruct (N.ltb_spec b (fin i)); [lia|]. cbv zeta. repeat split; auto; lia.
  - assert (Eb : b = fin (i + 1)) by (apply Hb1; lia).
    destruct (N.ltb_spec b a) as [Hl|Hl]; cbv zeta.
    + assert (Hgap : a = GAP). { destruct (H1 i ltac:(lia)) as [G|G]; rewrite G in Ha; inversion Ha; auto. subst. lia. }
      assert (Hni : ~ In i ids). { intros Hin. rewrite (H2 i (or_introl Hin)) in Ha. inversion Ha. lia. }
      split; [lia|]. split; [apply Hj; lia|]. unfold fin. rewrite Nat.add_1_r. now rewrite cntlt_S_empty.
    + repeat split; try lia. destruct (H1 i ltac:(lia)) as [G|G]; auto. rewrite G in Ha. inversion Ha; subst a. lia.
Qed.

Lemma tstep_ok arr ts1 s ts2 o : ginv arr (ts1 ++ s :: ts2) -> tstep (rep_begin M t (length ts1)) arr s o ->
  exists arr' s', o = Some (arr', s') /\ ginv arr' (ts1 ++ s' :: ts2).
Proof.
  intros (Hp & He & Hl & Hinv) Hs. set (r := length ts1) in *.
  assert (Hr : r < t) by (unfold r; rewrite app_length in Hl; simpl in Hl; lia).
  assert (Hs0 : linv arr r s) by (apply Hinv; unfold r; rewrite nth_error_app2, Nat.sub_diag by lia; reflexivity).
  pose proof Hp as (L & H1 & H2). pose proof (rep_end_pos r) as Hre.
  (* steps that do not write *)
  assert (Hkeep : forall s', linv arr r s' -> ginv arr (ts1 ++ s' :: ts2)).
  { intros s' Hs'. repeat split; auto; [rewrite app_length in *; simpl in *; lia|].
    intros r' s'' Hn'. destruct (Nat.eq_dec r' r) as [->|Hd].
    - unfold r in Hn'. rewrite nth_error_app2, Nat.sub_diag in Hn' by lia. inversion Hn'; subst. exact Hs'.
    - apply Hinv. destruct (Nat.lt_ge_cases r' r) as [Hlt'|Hge].
      + rewrite nth_error_app1 in * by exact Hlt'. exact Hn'.
      + unfold r in *. rewrite nth_error_app2 in * by lia. destruct (r' - length ts1) eqn:E; [lia|exact Hn']. }
  assert (Hread : forall j, j <= M -> exists v, nth_error arr j = Some v /\ (v = GAP \/ (v = fin j /\ isfin arr j))).
  { intros j Hj. destruct (H1 j Hj) as [G|G]; rewrite G; eauto. }
  inversion Hs; subst; clear Hs; cbn [linv] in Hs0.
  - exists arr, TDone. split; auto. apply Hkeep. cbn. intros j Hj. apply Hs0. lia.
  - exists arr, (TBody (i - 1)). split; auto. apply Hkeep. cbn. unfold bnd. split; [lia|]. intros j Hj. apply Hs0. lia.
  - destruct Hs0 as (Hb & Hj). unfold bnd in Hb. destruct (Hread i ltac:(lia)) as (v & Ev & _). rewrite Ev. cbn [obind]. eexists _, _. split; [reflexivity|].
    apply Hkeep. cbn. auto.
  - destruct Hs0 as (Hb & Hj). unfold bnd in Hb. destruct (Hread (i + 1) ltac:(lia)) as (v & Ev & Hv). rewrite Ev. cbn [obind]. eexists _, _. split; [reflexivity|].
    apply Hkeep. cbn. unfold bnd. split; [lia|]. split; [exact Hj|]. split; [exact Hv|]. intros Hi. specialize (Hj (i + 1) ltac:(lia)). unfold isfin in Hj. congruence.
  - destruct Hs0 as (Hb & Hj & Ha). pose proof Hb as Hb'. unfold bnd in Hb'. destruct (Hread (i + 1) ltac:(lia)) as (v & Ev & Hv). rewrite Ev. cbn [obind]. eexists _, _. split; [reflexivity|].
    apply Hkeep. cbn [linv]. split; auto. split; auto. apply (choose arr r i a v); auto.
    intros Hi. specialize (Hj (i + 1) ltac:(lia)). unfold isfin in Hj. congruence.
  - destruct Hs0 as (Hb & Hj & Hv & Hv1). pose proof Hb as Hb'. unfold bnd in Hb'. destruct (Hread i ltac:(lia)) as (a & Ea & _). rewrite Ea. cbn [obind]. eexists _, _. split; [reflexivity|].
    apply Hkeep. cbn [linv]. split; auto. split; auto. apply (choose arr r i a b); auto.
  - destruct Hs0 as (Hb & Hj & Hk & Hf & Hfe). unfold isfin in Hf. rewrite Hf. cbn [obind]. eexists _, _. split; [reflexivity|].
    apply Hkeep. cbn [linv]. auto.
  - destruct Hs0 as (Hb & Hj & ->). pose proof Hb as Hb'. unfold bnd in Hb'.
    destruct (part_set arr i Hp) as (arr' & E' & Hp' & Hn' & Ho'); [lia|]. rewrite E'. cbn [obind]. exists arr', (TLoop i). split; auto.
    assert (Hf : forall j, isfin arr j -> isfin arr' j).
    { intros j Hj'. unfold isfin in *. destruct (Nat.eq_dec j i) as [->|]; auto. rewrite Ho'; auto. }
    split; [exact Hp'|]. split; [intros r' Hr'; apply (Hf _ (He r' Hr'))|]. split; [rewrite app_length in *; simpl in *; lia|].
    intros r' s'' Hn''. destruct (Nat.eq_dec r' r) as [->|Hd].
    + unfold r in Hn''. rewrite nth_error_app2, Nat.sub_diag in Hn'' by lia. inversion Hn''; subst. cbn [linv]. fold r. split; [lia|].
      intros j Hjj. destruct (Nat.eq_dec j i) as [->|]; [exact Hn'|]. apply Hf, Hj. lia.
    + apply (linv_other arr arr' r' s'' i); auto.
      * apply Hinv. destruct (Nat.lt_ge_cases r' r) as [Hlt'|Hge].
        -- rewrite nth_error_app1 in * by exact Hlt'. exact Hn''.
        -- unfold r in *. rewrite nth_error_app2 in * by lia. destruct (r' - length ts1) eqn:E; [lia|exact Hn''].
      * unfold bnd. rewrite !rep_end_begin in *. destruct (Nat.lt_ge_cases r' r) as [Hlt'|Hge].
        -- pose proof (rep_begin_mono (S r') r Hlt'). lia.
        -- pose proof (rep_begin_mono (S r) r' ltac:(lia)). lia.
Qed.

Lemma team_steps_ok k s s' : team_steps M t k s s' -> (exists arr ts, s = Some (arr, ts) /\ ginv arr ts) ->
  exists arr ts, s' = Some (arr, ts) /\ ginv arr ts.
Proof.
  induction 1 as [s|k s s1 s2 Hstep _ IH]; auto. intros (arr & ts & -> & Hg). apply IH. inversion Hstep as [? ? ? ? ? ? Hts|? ? ? ? Hts]; subst.
  - destruct (tstep_ok _ _ _ _ _ Hg Hts) as (a' & s'' & E & Hg'). inversion E; subst. eauto.
  - destruct (tstep_ok _ _ _ _ _ Hg Hts) as (a' & s'' & E & _). discriminate.
Qed.

Definition index_final : list N := tab (M + 1) fin.

Lemma ginv_done arr ts : ginv arr ts -> all_done ts -> arr = index_final.
Proof.
  intros ((L & H1 & H2) & He & Hl & Hinv) Hd. apply list_eq_nth; [unfold index_final; now rewrite tab_length|].
  intros j Hj. unfold index_final. rewrite tab_nth by lia.
  destruct (Nat.eq_dec j M) as [->|Hne]; [apply H2; auto|].
  assert (Hx : exists r, r < t /\ bnd r j).
  { assert (G : forall k, k <= t -> j < rep_begin M t k -> exists r, r < k /\ bnd r j).
    { induction k as [|k IH]; intros Hk Hjk; [unfold rep_begin in Hjk; lia|].
      destruct (Nat.lt_ge_cases j (rep_begin M t k)) as [Hlt'|Hge].
      - destruct (IH ltac:(lia) Hlt') as (r & Hr & Hb). exists r. split; [lia|exact Hb].
      - exists k. split; [lia|]. unfold bnd. rewrite rep_end_begin. lia. }
    destruct (G t) as (r & Hr & Hb); [lia| |eauto]. pose proof chunk_cover. unfold rep_begin. lia. }
  destruct Hx as (r & Hr & Hb). destruct (nth_error ts r) as [s|] eqn:E; [|apply nth_error_None in E; lia].
  assert (Es : s = TDone). { unfold all_done in Hd. rewrite Forall_forall in Hd. apply Hd. eapply nth_error_In; eauto. }
  subst s. specialize (Hinv r TDone E). cbn in Hinv. apply Hinv. exact Hb.
Qed.

Lemma ginv_init arr : part_ok arr -> ends_fixed arr (fun r => r < t) ->
  exists a ts, repair_init M t arr = Some (a, ts) /\ ginv a ts.
Proof.
  intros Hp He. eexists _, _. split; [reflexivity|]. repeat split; auto; try apply Hp.
  - now rewrite map_length, seq_length.
  - intros r s Hs. assert (Hr : r < t). { assert (H : nth_error (map (fun r => TLoop (rep_start M t r)) (seq 0 t)) r <> None) by congruence.
      apply nth_error_Some in H. now rewrite map_length, seq_length in H. }
    rewrite nth_error_map, nth_error_seq in Hs by exact Hr. cbn in Hs. inversion Hs; subst. cbn. rewrite rep_start_end.
    split; [split; [|lia]|intros; lia]. rewrite rep_end_begin. apply rep_begin_mono. lia.
Qed.

Lemma run_to_end s : (exists arr ts, s = Some (arr, ts) /\ ginv arr ts) ->
  exists k arr ts, team_steps M t k s (Some (arr, ts)) /\ all_done ts.
Proof.
  remember (team_meas M t s) as m eqn:Em. revert s Em. induction m as [m IH] using lt_wf_ind. intros s Em (arr & ts & -> & Hg).
  assert (Hdec : all_done ts \/ ~ all_done ts).
  { unfold all_done. assert (Dt : forall s : tstate, s = TDone \/ s <> TDone) by (intros []; auto; right; discriminate).
    clear -Dt. induction ts as [|s ts IH]; [left; constructor|]. destruct (Dt s) as [->|Hd]; [|right; intros H; inversion H; auto].
    destruct IH as [H|H]; [left; constructor; auto|right; intros H'; inversion H'; auto]. }
  destruct Hdec as [Hd|Hd]; [exists 0, arr, ts; split; [constructor|auto]|].
  destruct (can_step M t arr ts Hd) as (s' & Hs). pose proof (step_decreases M t _ _ Hs) as Hlt'.
  destruct (IH (team_meas M t s') ltac:(lia) s' eq_refl) as (k & a' & ts' & Hk & Hdone).
  - eapply team_steps_ok; [eapply (steps_trans M t 0); [exact Hs|constructor]|]. eauto.
  - exists (S k), a', ts'. split; auto. econstructor; eauto.
Qed.
End Index.

(** main result *)
Theorem index_correct ids M t1 t2 :
  StronglySorted le ids -> (forall x, In x ids -> x < M) -> 1 <= length ids -> (N.of_nat (length ids) < GAP)%N ->
  1 <= t1 -> 1 <= t2 ->
  (exists o, index_outcome ids M t1 t2 o) /\
  (forall o, index_outcome ids M t1 t2 o -> o = Some (index_final ids M)).
Proof.
  intros Hs Hlt Hn Hsm Ht1 Ht2. unfold index_outcome.
  destruct (mark_writes_spec ids Hn Hsm t1 Ht1) as (ws & Ews & _).
  assert (Hmark : forall tr, interleaving ws tr -> exists arr0 arr1 arr2, mark_init ids M = Some arr0 /\ apply_writes tr arr0 = Some arr1 /\
     fix_ends M t2 arr1 (seq 0 t2) = Some arr2 /\ exists a ts, repair_init M t2 arr2 = Some (a, ts) /\ ginv ids M t2 a ts).
  { intros tr Htr. destruct (mark_ok ids M Hs Hlt Hn Hsm t1 tr Ht1) as (arr0 & arr1 & E0 & E1 & Hp); [eauto|].
    destruct (fix_ends_spec ids M Hs Hlt Hn Hsm t2 Ht2 (seq 0 t2) arr1 (fun _ => False) Hp) as (arr2 & E2 & Hp2 & He2); [intros r []|].
    exists arr0, arr1, arr2. repeat split; auto. eapply ginv_init; eauto. intros r Hr. apply He2. right. apply in_seq. lia. }
  rewrite Ews. split.
  - destruct (Hmark _ (interleaving_concat ws)) as (arr0 & arr1 & arr2 & E0 & E1 & E2 & Hg). rewrite E0.
    destruct (run_to_end ids M Hs Hlt Hn Hsm t2 Ht2 (repair_init M t2 arr2) Hg) as (k & a & ts & Hk & Hd).
    exists (Some a), (concat ws). split; [apply interleaving_concat|]. rewrite E1, E2. left. exists k, ts, a. auto.
  - intros o. destruct (mark_init ids M) as [arr0|] eqn:E0.
    + intros (tr & Htr & H). destruct (Hmark tr Htr) as (arr0' & arr1 & arr2 & E0' & E1 & E2 & Hg). inversion E0'; subst arr0'. clear E0'.
      rewrite E1, E2 in H. destruct H as [(k & ts & a & Hk & Hd & ->)|(k & Hk & ->)];
        destruct (team_steps_ok ids M Hs Hlt Hn Hsm t2 Ht2 _ _ _ Hk Hg) as (a' & ts' & E & Hg'); [|discriminate E].
      inversion E; subst. f_equal. eapply ginv_done; eauto.
    + destruct (Hmark _ (interleaving_concat ws)) as (? & ? & ? & E & _). discriminate E.
Qed.
