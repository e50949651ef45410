(** What the estimator for threshold graphs computes. *)
From Coq Require Import Arith NArith ZArith List Bool Reals Lia Lra Sorting.Sorted Permutation.
From Flocq Require Import Core.
From Verif Require Import Base Scaling_Model Scaling_Lazy Scaling_Loops.
Import ListNotations.
Local Open Scope R_scope.

(** sum over all ordered pairs of distinct vertices *)
Definition pair_sum (F : R -> R -> R) (ws : list R) : R :=
  let V := seq 0 (length ws) in
  fold_right Rplus 0 (map (fun u => fold_right Rplus 0 (map (fun v => if (u =? v)%nat then 0 else F (nth u ws 0) (nth v ws 0)) V)) V).

Lemma sumf_single {A} (eqd : forall a b : A, {a = b} + {a <> b}) (f : A -> R) x l : NoDup l -> In x l -> (forall y, In y l -> y <> x -> f y = 0) -> sumf f l = f x.
Proof.
  intros ND Hin H. apply in_split in Hin as (a & b & ->). apply NoDup_remove_2 in ND. rewrite sumf_app, sumf_cons.
  rewrite (sumf_zero f a), (sumf_zero f b); [lra| |]; intros y Hy; apply H; try (apply in_or_app; cbn; tauto); intros ->; apply ND; apply in_or_app; tauto.
Qed.
Lemma sumf_nth (g : R -> R) ws : sumf (fun u => g (nth u ws 0)) (seq 0 (length ws)) = sumf g ws.
Proof.
  rewrite <- (sumf_map g (fun u => nth u ws 0)). f_equal. clear. induction ws as [|w ws IH]; [reflexivity|]. cbn [length seq map nth]. f_equal. rewrite <- seq_shift, map_map. exact IH.
Qed.
Lemma pair_sum_psum F ws : pair_sum F ws = psum F ws.
Proof.
  unfold pair_sum, psum. set (V := seq 0 (length ws)).
  change (sumf (fun u => sumf (fun v => if (u =? v)%nat then 0 else F (nth u ws 0) (nth v ws 0)) V) V = sumf (fun x => sumf (F x) ws) ws - sumf (fun x => F x x) ws).
  rewrite <- (sumf_nth (fun x => sumf (F x) ws)), <- (sumf_nth (fun x => F x x)). fold V. rewrite <- sumf_minus. apply sumf_ext. intros u Hu.
  rewrite <- (sumf_nth (F (nth u ws 0))). fold V.
  assert (E : sumf (fun v => if (u =? v)%nat then F (nth u ws 0) (nth v ws 0) else 0) V = F (nth u ws 0) (nth u ws 0)).
  { rewrite (sumf_single Nat.eq_dec _ u); [now rewrite Nat.eqb_refl|apply seq_NoDup|exact Hu|]. intros y _ Hy. destruct (Nat.eqb_spec u y); [congruence|reflexivity]. }
  rewrite <- E, <- sumf_minus. apply sumf_ext. intros v _. destruct (u =? v)%nat; lra.
Qed.

Lemma sumf_pos {A} (f : A -> R) l : l <> [] -> (forall x, In x l -> 0 < f x) -> 0 < sumf f l.
Proof.
  intros Hn H. destruct l as [|x l]; [congruence|]. rewrite sumf_cons. pose proof (H x (or_introl eq_refl)). pose proof (sumf_ge0 f l (fun y Hy => Rlt_le _ _ (H y (or_intror Hy)))). lra.
Qed.

Lemma valid_pos ws x : valid_weights ws -> In x ws -> 0 < x.
Proof. intros V H. pose proof dbl_min_pos. unfold valid_weights in V. rewrite Forall_forall in V. specialize (V x H). lra. Qed.

(** ** any kernel phi (q x y) with product threshold q x y >= 1: the rich club evaluation is the pair sum up to one diagonal entry *)
Section Kernel.
  Variables (phi : R -> R).
  Definition capped (z : R) : R := if Rge_dec z 1 then 1 else phi z.
  Hypothesis Hphi1 : phi 1 = 1.
  Hypothesis Hmono : forall y z, 0 < y <= z -> z <= 1 -> phi y <= phi z.
  Hypothesis Hpos : forall z, 0 < z <= 1 -> 0 < phi z.
  Lemma capped_mono y z : 0 < y <= z -> capped y <= capped z.
  Proof.
    intros H. unfold capped. destruct (Rge_dec y 1), (Rge_dec z 1); try lra.
    - rewrite <- Hphi1. apply Hmono; lra.
    - apply Hmono; lra.
  Qed.
  Lemma capped_range z : 0 < z -> 0 < capped z <= 1.
  Proof. intros H. unfold capped. destruct (Rge_dec z 1); [lra|]. split; [apply Hpos; lra|]. rewrite <- Hphi1. apply Hmono; lra. Qed.
  Variable ws : list R.
  Hypothesis V : valid_weights ws.
  Hypothesis Hne : ws <> [].
  Definition kern (q x y : R) : R := phi (q * (x * y)).
  Definition deg_sum (q : R) : R := psum (fun x y => capped (q * (x * y))) ws.
  (** what an evaluation yields *)
  Definition est (q v : R) : Prop := exists k arr, query_ok ws (1 / q / max_from 0 ws) k arr /\
    INR (length ws) * v = deg_sum q + sumf (off (1 / q) (kern q) (firstn k arr)) (with_index (firstn k arr)).
  Lemma ge_q q z : 0 < q -> (z >= 1 / q <-> q * z >= 1).
  Proof.
    intros Hq. split; intros H.
    - apply Rle_ge. apply Rge_le in H. apply Rmult_le_compat_l with (r := q) in H; [|lra]. replace (q * (1 / q)) with 1 in H by (field; lra). exact H.
    - apply Rle_ge. apply Rmult_le_reg_l with q; [exact Hq|]. replace (q * (1 / q)) with 1 by (field; lra). lra.
  Qed.
  Theorem club_sum (q : R) (k : nat) (arr : list R) : 0 < q -> query_ok ws (1 / q / max_from 0 ws) k arr ->
    sumf (cterm (1 / q) (kern q) (firstn k arr)) (with_index (firstn k arr)) =
    psum (kern q) ws - deg_sum q - sumf (off (1 / q) (kern q) (firstn k arr)) (with_index (firstn k arr)).
  Proof.
    intros Hq Q. destruct Q as [QP Qk QS QI QO]. assert (Hth : 0 < 1 / q) by (apply Rdiv_lt_0_compat; lra). set (theta := 1 / q) in *.
    assert (Hedge : forall x y, x * y = theta -> kern q x y = 1).
    { intros x y E. unfold kern. rewrite E. unfold theta. replace (q * (1 / q)) with 1 by (field; lra). exact Hphi1. }
    assert (Ppos : forall x, In x arr -> 0 < x). { intros x Hx. apply (valid_pos ws x V). eapply Permutation_in; eassumption. }
    rewrite cterm_sum; auto.
    2:{ intros x Hx. apply Ppos. rewrite <- (firstn_skipn k arr). apply in_or_app. now left. }
    f_equal.
    assert (E1 : psum (kern q) ws - deg_sum q = psum (cut theta (kern q)) ws).
    { unfold deg_sum. rewrite <- psum_minus. apply psum_ext. intros x y _ _. unfold cut, capped, kern. pose proof (ge_q q (x * y) Hq) as G. fold theta in G.
      destruct (Rge_dec (q * (x * y)) 1), (Rge_dec (x * y) theta); try lra; exfalso; tauto. }
    rewrite E1, <- (psum_perm (cut theta (kern q)) arr ws QP). symmetry. pose proof (psum_prefix (cut theta (kern q)) (firstn k arr) (skipn k arr)) as PP. rewrite firstn_skipn in PP. apply PP. clear PP.
    intros x y Hx Hy. rewrite Forall_forall in QO. specialize (QO x Hx).
    assert (Hx' : In x arr) by (rewrite <- (firstn_skipn k arr); apply in_or_app; now right).
    destruct (max_from_ge 0 ws) as [_ Hmax]. pose proof (Hmax y (Permutation_in _ QP Hy)) as Hym.
    pose proof (Ppos x Hx'). pose proof (Ppos y Hy). set (m := max_from 0 ws) in *.
    assert (Hxy : x * y <= theta).
    { apply Rle_trans with (theta / m * y); [apply Rmult_le_compat_r; lra|]. apply Rle_trans with (theta / m * m); [|right; field; lra].
      apply Rmult_le_compat_l; [|exact Hym]. left. apply Rdiv_lt_0_compat; lra. }
    unfold cut. split.
    - destruct (Rge_dec (x * y) theta) as [G|G]; [|reflexivity]. rewrite Hedge; lra.
    - destruct (Rge_dec (y * x) theta) as [G|G]; [|reflexivity]. rewrite Hedge; lra.
  Qed.
  Lemma club_pos q k arr : query_ok ws q k arr -> forall x, In x (firstn k arr) -> In x ws /\ 0 < x.
  Proof.
    intros [QP _ _ _ _] x Hx. assert (In x ws). { eapply Permutation_in; [exact QP|]. rewrite <- (firstn_skipn k arr). apply in_or_app. now left. }
    split; [assumption|]. now apply (valid_pos ws).
  Qed.
  (** the value is the pair sum minus a number in [0,1), namely 0 or one missing self loop probability *)
  Theorem est_delta q v : 0 < q -> est q v -> exists delta, INR (length ws) * v = deg_sum q - delta /\ 0 <= delta < 1 /\
    (delta = 0 \/ exists w, In w ws /\ q * (w * w) < 1 /\ delta = 1 - phi (q * (w * w))).
  Proof.
    intros Hq (k & arr & Q & Hv). assert (Hth : 0 < 1 / q) by (apply Rdiv_lt_0_compat; lra). pose proof (club_pos _ _ _ Q) as CP.
    destruct (off_cases (1 / q) (kern q) (firstn k arr) Hth (qo_sorted _ _ _ _ Q) (fun x H => proj2 (CP x H))) as [E|(i & w & Hw & _ & Hww & E)]; rewrite E in Hv.
    - exists 0. split; [lra|]. split; [lra|now left].
    - apply nth_error_In in Hw. destruct (CP w Hw) as [Hw1 Hw2]. assert (G : ~ w * w >= 1 / q) by lra. rewrite (ge_q q (w * w) Hq) in G. apply Rnot_ge_lt in G.
      assert (0 < q * (w * w)) by (repeat apply Rmult_lt_0_compat; assumption). exists (1 - kern q w w). unfold kern. split; [unfold kern in Hv; lra|].
      pose proof (Hpos (q * (w * w)) ltac:(lra)) as P1. pose proof (Hmono (q * (w * w)) 1 ltac:(lra) ltac:(lra)) as P2. rewrite Hphi1 in P2.
      split; [lra|]. right. eauto.
  Qed.

  (** sorted prefixes are prefixes of the sorted weights *)
  Lemma sorted_unique (a b : list R) : StronglySorted Rge a -> StronglySorted Rge b -> Permutation a b -> a = b.
  Proof.
    intros Ha. revert b. induction Ha as [|x a Hs IH Hf]; intros b Hb P; [now apply Permutation_nil in P|].
    destruct b as [|y b]; [symmetry in P; now apply Permutation_nil in P|]. inversion_clear Hb as [|? ? Hs' Hf'].
    assert (x = y).
    { rewrite Forall_forall in Hf, Hf'. assert (In x (y :: b)) as H1 by (eapply Permutation_in; [exact P|now left]). assert (In y (x :: a)) as H2 by (eapply Permutation_in; [symmetry; exact P|now left]).
      destruct H1 as [H1|H1]; [now symmetry|]. destruct H2 as [H2|H2]; [assumption|]. specialize (Hf y H2). specialize (Hf' x H1). lra. }
    subst y. f_equal. apply IH; [assumption|]. now apply Permutation_cons_inv in P.
  Qed.
  Lemma club_prefix t k arr : query_ok ws t k arr -> firstn k arr = firstn k (isort ws).
  Proof.
    intros [QP Qk QS QI QO]. pose proof (Permutation_length QP) as LE.
    assert (E : firstn k arr ++ isort (skipn k arr) = isort ws).
    { apply sorted_unique; [|apply isort_sorted|].
      - apply sorted_app; [exact QS|apply isort_sorted|]. intros x y Hx Hy. rewrite Forall_forall in QI, QO. specialize (QI x Hx).
        assert (Hy' : In y (skipn k arr)) by (eapply Permutation_in; [symmetry; apply isort_perm|exact Hy]). specialize (QO y Hy'). lra.
      - etransitivity; [|etransitivity; [exact QP|apply isort_perm]]. rewrite <- (firstn_skipn k arr) at 3. apply Permutation_app_head. symmetry. apply isort_perm. }
    rewrite <- E. symmetry. apply firstn_app_len. apply firstn_length_le. lia.
  Qed.
  Lemma pfx_firstn_mono t t' k k' S : t' <= t -> (k <= k')%nat -> (pfx t (firstn k S) <= pfx t' (firstn k' S))%nat.
  Proof.
    intros Ht. revert k k'. induction S as [|x S IH]; intros k k' Hk; [rewrite !firstn_nil; cbn; lia|].
    destruct k as [|k]; [cbn; lia|]. destruct k' as [|k']; [lia|]. cbn. destruct (Rge_dec x t), (Rge_dec x t'); try lia; [|lra]. specialize (IH k k' ltac:(lia)). lia.
  Qed.
  (** all pairs, including the diagonal *)
  Definition all_sum (q : R) : R := sumf (fun x => sumf (fun y => capped (q * (x * y))) ws) ws.
  Lemma mul_pos_in q x y : 0 < q -> In x ws -> In y ws -> 0 < q * (x * y).
  Proof. intros Hq Hx Hy. pose proof (valid_pos ws x V Hx). pose proof (valid_pos ws y V Hy). apply Rmult_lt_0_compat; [exact Hq|nra]. Qed.
  Lemma capped_step q q' x y : 0 < q <= q' -> In x ws -> In y ws -> capped (q * (x * y)) <= capped (q' * (x * y)).
  Proof.
    intros Hq Hx Hy. pose proof (mul_pos_in q x y ltac:(lra) Hx Hy). apply capped_mono. split; [assumption|]. pose proof (valid_pos ws x V Hx). pose proof (valid_pos ws y V Hy). apply Rmult_le_compat_r; nra.
  Qed.
  Lemma all_deg q : all_sum q = deg_sum q + sumf (fun w => capped (q * (w * w))) ws.
  Proof. unfold all_sum, deg_sum, psum. lra. Qed.
  (** an evaluation at a larger argument is not much larger *)
  Theorem est_one_sided q q' v v' : 0 < q < q' -> est q v -> est q' v' -> INR (length ws) * (v' - v) <= all_sum q' - all_sum q.
  Proof.
    intros Hq (k & arr & Q & Hv) (k' & arr' & Q' & Hv'). assert (Hq0 : 0 < q) by lra. assert (Hq0' : 0 < q') by lra.
    assert (Hth : 0 < 1 / q) by (apply Rdiv_lt_0_compat; lra). assert (Hth' : 0 < 1 / q') by (apply Rdiv_lt_0_compat; lra).
    assert (Hlt : 1 / q' < 1 / q). { unfold Rdiv. rewrite !Rmult_1_l. apply Rinv_lt_contravar; [apply Rmult_lt_0_compat|]; lra. }
    pose proof (club_pos _ _ _ Q) as CP. pose proof (club_pos _ _ _ Q') as CP'.
    assert (SL : StronglySorted Rge (firstn k arr)) by apply (qo_sorted _ _ _ _ Q). assert (SL' : StronglySorted Rge (firstn k' arr')) by apply (qo_sorted _ _ _ _ Q').
    rewrite (club_prefix _ _ _ Q) in *. rewrite (club_prefix _ _ _ Q') in *.
    assert (Hmx : 0 < max_from 0 ws). { apply (valid_pos ws _ V). apply max_from_in; [exact Hne|]. intros x Hx. now apply (valid_pos ws). }
    assert (Hk : (k <= k')%nat).
    { destruct (Nat.le_gt_cases k k') as [H|H]; [exact H|]. exfalso. pose proof (qo_k _ _ _ _ Q) as Kn.
      assert (Ll : length (isort ws) = length ws) by (symmetry; apply Permutation_length, isort_perm).
      destruct (nth_error (isort ws) k') as [x|] eqn:E; [|apply nth_error_None in E; lia].
      assert (H1 : In x (firstn k arr)). { rewrite (club_prefix _ _ _ Q). rewrite <- (firstn_skipn k (isort ws)) in E. rewrite nth_error_app1 in E; [eapply nth_error_In; exact E|]. rewrite firstn_length_le; lia. }
      pose proof (qo_in _ _ _ _ Q) as QI. rewrite Forall_forall in QI. specialize (QI x H1).
      assert (H2 : In x (skipn k' arr')).
      { assert (P : Permutation (skipn k' arr') (skipn k' (isort ws))).
        { apply Permutation_app_inv_l with (l := firstn k' arr'). rewrite firstn_skipn. rewrite (club_prefix _ _ _ Q'), firstn_skipn. etransitivity; [apply (qo_perm _ _ _ _ Q')|apply isort_perm]. }
        eapply Permutation_in; [symmetry; exact P|]. rewrite <- (firstn_skipn k' (isort ws)) in E. rewrite nth_error_app2 in E; rewrite firstn_length_le in * by lia; [|lia]. eapply nth_error_In; exact E. }
      pose proof (qo_out _ _ _ _ Q') as QO. rewrite Forall_forall in QO. specialize (QO x H2).
      assert (1 / q' / max_from 0 ws < 1 / q / max_from 0 ws) by (unfold Rdiv at 1 3; apply Rmult_lt_compat_r; [now apply Rinv_0_lt_compat|exact Hlt]). lra. }
    set (L := firstn k (isort ws)) in *. set (L' := firstn k' (isort ws)) in *.
    assert (Pw : forall x, In x L -> 0 < x) by (intros x Hx; now apply CP). assert (Pw' : forall x, In x L' -> 0 < x) by (intros x Hx; now apply CP').
    assert (D' : sumf (off (1 / q') (kern q') L') (with_index L') <= 0).
    { destruct (off_cases (1 / q') (kern q') L' Hth' SL' Pw') as [E|(i & w & Hn & _ & Hww & E)]; rewrite E; [lra|].
      assert (Hw : 0 < w) by (apply Pw'; eapply nth_error_In; exact Hn). assert (G : ~ w * w >= 1 / q') by lra. rewrite (ge_q q' (w * w) Hq0') in G. apply Rnot_ge_lt in G.
      assert (0 < q' * (w * w)) by (repeat apply Rmult_lt_0_compat; assumption). pose proof (Hmono (q' * (w * w)) 1 ltac:(lra) ltac:(lra)). unfold kern. lra. }
    assert (MD : forall l, (forall x, In x l -> In x ws) -> 0 <= sumf (fun w => capped (q' * (w * w))) l - sumf (fun w => capped (q * (w * w))) l).
    { intros l Hl. rewrite <- sumf_minus. apply sumf_ge0. intros x Hx. pose proof (capped_step q q' x x ltac:(lra) (Hl x Hx) (Hl x Hx)). lra. }
    rewrite !all_deg. destruct (off_cases (1 / q) (kern q) L Hth SL Pw) as [E|(i & w & Hn & Hi & Hww & E)]; rewrite E in Hv.
    - pose proof (MD ws (fun x H => H)). lra.
    - assert (HwL : In w L) by (eapply nth_error_In; exact Hn). destruct (CP w HwL) as [Hw Hwp].
      assert (Gq : q * (w * w) < 1). { assert (G : ~ w * w >= 1 / q) by lra. rewrite (ge_q q (w * w) Hq0) in G. lra. }
      assert (Ek : kern q w w = capped (q * (w * w))). { unfold kern, capped. destruct (Rge_dec (q * (w * w)) 1); [lra|reflexivity]. }
      assert (HD : capped (q' * (w * w)) - capped (q * (w * w)) <= sumf (fun w => capped (q' * (w * w))) ws - sumf (fun w => capped (q * (w * w))) ws).
      { apply in_split in Hw as (a & b & Eab). rewrite Eab. rewrite !sumf_app, !sumf_cons.
        pose proof (MD a ltac:(intros; rewrite Eab; apply in_or_app; now left)). pose proof (MD b ltac:(intros; rewrite Eab; apply in_or_app; right; now right)). lra. }
      assert (HwL' : nth_error L' i = Some w).
      { unfold L, L' in *. assert (Hik : (i < k)%nat). { assert (i < length (firstn k (isort ws)))%nat by (apply nth_error_Some; congruence). rewrite firstn_length in H. lia. }
        assert (FN : forall m (l : list R), (i < m)%nat -> nth_error (firstn m l) i = nth_error l i).
        { clear. induction i as [|i IH]; intros m l Hm; destruct m; try lia; destruct l; cbn; auto. apply IH. lia. }
        rewrite FN in Hn |- * by lia. exact Hn. }
      assert (Hci : (ci (1 / q) L w <= ci (1 / q') L' w)%nat).
      { unfold ci, L, L'. apply pfx_firstn_mono; [|exact Hk]. unfold Rdiv at 1 3. apply Rmult_le_compat_r; [left; now apply Rinv_0_lt_compat|lra]. }
      assert (HC : 1 - capped (q * (w * w)) <= capped (q' * (w * w)) - capped (q * (w * w)) - sumf (off (1 / q') (kern q') L') (with_index L')).
      { destruct (Nat.eq_dec i (ci (1 / q') L' w)) as [Ei|Ei].
        - rewrite (off_at (1 / q') (kern q') L' Hth' SL' Pw' i w HwL' Ei).
          assert (Gq' : q' * (w * w) < 1).
          { apply Rnot_ge_lt. intros G. apply (ge_q q' (w * w) Hq0') in G. apply (ge_div (1 / q') w w Hwp) in G. apply (pfx_nth _ _ _ _ SL' HwL') in G. fold (ci (1 / q') L' w) in G. lia. }
          assert (Ek' : kern q' w w = capped (q' * (w * w))). { unfold kern, capped. destruct (Rge_dec (q' * (w * w)) 1); [lra|reflexivity]. } lra.
        - assert (Hlt' : (i < ci (1 / q') L' w)%nat) by lia. apply (pfx_nth _ _ _ _ SL' HwL') in Hlt'. apply (ge_div (1 / q') w w Hwp) in Hlt'. apply (ge_q q' (w * w) Hq0') in Hlt'.
          assert (E1 : capped (q' * (w * w)) = 1) by (unfold capped; destruct (Rge_dec (q' * (w * w)) 1); lra). lra. }
      lra.
  Qed.
End Kernel.
