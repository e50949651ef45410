(** The loops of the two degree estimators. *)
From Coq Require Import Arith NArith ZArith List Bool Reals Lia Lra Sorting.Sorted Permutation.
From Flocq Require Import Core.
From Verif Require Import Base Scaling_Model Scaling_Lazy.
Import ListNotations.
Local Open Scope R_scope.

(** ** finite sums *)
Definition sumf {A} (f : A -> R) (l : list A) : R := fold_right Rplus 0 (map f l).
Lemma sum_by_sumf f l : sum_by f l = sumf f l. Proof. reflexivity. Qed.
Lemma sumf_cons {A} (f : A -> R) x l : sumf f (x :: l) = f x + sumf f l. Proof. reflexivity. Qed.
Lemma sumf_nil {A} (f : A -> R) : sumf f [] = 0. Proof. reflexivity. Qed.
Lemma sumf_app {A} (f : A -> R) a b : sumf f (a ++ b) = sumf f a + sumf f b.
Proof. induction a as [|x a IH]; cbn [app]; rewrite ?sumf_cons, ?sumf_nil; [lra|]. rewrite IH. lra. Qed.
Lemma sumf_perm {A} (f : A -> R) a b : Permutation a b -> sumf f a = sumf f b.
Proof. induction 1; rewrite ?sumf_cons in *; lra. Qed.
Lemma sumf_ext {A} (f g : A -> R) l : (forall x, In x l -> f x = g x) -> sumf f l = sumf g l.
Proof. induction l as [|x l IH]; intros H; [reflexivity|]. rewrite !sumf_cons, (H x (or_introl eq_refl)), IH; [reflexivity|]. intros; apply H; now right. Qed.
Lemma sumf_plus {A} (f g : A -> R) l : sumf (fun x => f x + g x) l = sumf f l + sumf g l.
Proof. induction l as [|x l IH]; rewrite ?sumf_cons, ?sumf_nil; [lra|]. rewrite IH. lra. Qed.
Lemma sumf_minus {A} (f g : A -> R) l : sumf (fun x => f x - g x) l = sumf f l - sumf g l.
Proof. induction l as [|x l IH]; rewrite ?sumf_cons, ?sumf_nil; [lra|]. rewrite IH. lra. Qed.
Lemma sumf_scal {A} c (f : A -> R) l : sumf (fun x => c * f x) l = c * sumf f l.
Proof. induction l as [|x l IH]; rewrite ?sumf_cons, ?sumf_nil; [lra|]. rewrite IH. lra. Qed.
Lemma sumf_scal_r {A} c (f : A -> R) l : sumf (fun x => f x * c) l = sumf f l * c.
Proof. induction l as [|x l IH]; rewrite ?sumf_cons, ?sumf_nil; [lra|]. rewrite IH. lra. Qed.
Lemma sumf_zero {A} (f : A -> R) l : (forall x, In x l -> f x = 0) -> sumf f l = 0.
Proof. induction l as [|x l IH]; intros H; [reflexivity|]. rewrite sumf_cons, (H x (or_introl eq_refl)), IH; [lra|]. intros; apply H; now right. Qed.
Lemma sumf_const {A} c (l : list A) : sumf (fun _ => c) l = c * INR (length l).
Proof. induction l as [|x l IH]; [cbn; lra|]. rewrite sumf_cons, IH. cbn [length]. rewrite S_INR. lra. Qed.
Lemma sumf_map {A B} (f : B -> R) (g : A -> B) l : sumf f (map g l) = sumf (fun x => f (g x)) l.
Proof. unfold sumf. now rewrite map_map. Qed.
Lemma sumf_ge0 {A} (f : A -> R) l : (forall x, In x l -> 0 <= f x) -> 0 <= sumf f l.
Proof. induction l as [|x l IH]; intros H; [cbn; lra|]. rewrite sumf_cons. pose proof (H x (or_introl eq_refl)). specialize (IH (fun y Hy => H y (or_intror Hy))). lra. Qed.
Lemma sumf_le {A} (f g : A -> R) l : (forall x, In x l -> f x <= g x) -> sumf f l <= sumf g l.
Proof. intros H. pose proof (sumf_ge0 (fun x => g x - f x) l) as P. rewrite sumf_minus in P. cbv beta in P. assert (forall x, In x l -> 0 <= g x - f x) by (intros; specialize (H x H0); lra). specialize (P H0). lra. Qed.

(** ** prefixes of sorted lists *)
Fixpoint pfx (t : R) (L : list R) : nat := match L with [] => 0%nat | x :: r => if Rge_dec x t then S (pfx t r) else 0%nat end.
Lemma pfx_le t L : (pfx t L <= length L)%nat.
Proof. induction L as [|x L IH]; cbn; [lia|]. destruct (Rge_dec x t); lia. Qed.
Lemma pfx_mono t t' L : t' <= t -> (pfx t L <= pfx t' L)%nat.
Proof. intros H. induction L as [|x L IH]; cbn; [lia|]. destruct (Rge_dec x t), (Rge_dec x t'); try lia. lra. Qed.
Lemma pfx_skip t L j : (j <= pfx t L)%nat -> pfx t (skipn j L) = (pfx t L - j)%nat.
Proof.
  revert j. induction L as [|x L IH]; intros j H; cbn in *; [now rewrite skipn_nil|]. destruct j as [|j]; [cbn; lia|]. cbn.
  destruct (Rge_dec x t); [|lia]. apply IH. lia.
Qed.
Lemma pfx_in t L x : In x (firstn (pfx t L) L) -> x >= t.
Proof. induction L as [|y L IH]; cbn; [tauto|]. destruct (Rge_dec y t); [|cbn; tauto]. cbn. intros [<-|H]; auto. Qed.
Lemma pfx_out t L x : StronglySorted Rge L -> In x (skipn (pfx t L) L) -> x < t.
Proof.
  induction 1 as [|y L Hs IH Hf]; cbn; [tauto|]. destruct (Rge_dec y t); [exact IH|]. cbn. intros [<-|H]; [lra|]. rewrite Forall_forall in Hf. specialize (Hf x H). lra.
Qed.
Lemma pfx_nth t L i x : StronglySorted Rge L -> nth_error L i = Some x -> (x >= t <-> (i < pfx t L)%nat).
Proof.
  intros Hs Hx. split; intros H.
  - destruct (Nat.lt_ge_cases i (pfx t L)) as [Hi|Hi]; [exact Hi|]. exfalso.
    assert (In x (skipn (pfx t L) L)).
    { rewrite <- (firstn_skipn (pfx t L) L), nth_error_app2 in Hx; rewrite firstn_length_le in * by apply pfx_le; auto. eapply nth_error_In; exact Hx. }
    apply pfx_out in H0; [lra|exact Hs].
  - assert (In x (firstn (pfx t L) L)).
    { rewrite <- (firstn_skipn (pfx t L) L), nth_error_app1 in Hx; [eapply nth_error_In; exact Hx|]. rewrite firstn_length_le by apply pfx_le. exact H. }
    now apply pfx_in in H0.
Qed.

Lemma advance_w2_eq t rest j s : advance_w2 t rest j s = (skipn (pfx t rest) rest, (j + pfx t rest)%nat, s + sumf (fun x => x) (firstn (pfx t rest) rest)).
Proof.
  revert j s. induction rest as [|x r IH]; intros j s; cbn [advance_w2 pfx].
  - rewrite Nat.add_0_r. cbn. f_equal. lra.
  - destruct (Rge_dec x t); [|cbn; rewrite Nat.add_0_r; f_equal; lra]. rewrite IH. cbn [skipn firstn]. rewrite sumf_cons. f_equal; [f_equal; lia|lra].
Qed.

Lemma sumf_firstn_skip {A} (f : A -> R) L a b : (a <= b)%nat -> sumf f (firstn a L) + sumf f (firstn (b - a) (skipn a L)) = sumf f (firstn b L).
Proof.
  intros H. rewrite <- sumf_app. f_equal. replace b with (a + (b - a))%nat at 2 by lia. generalize (b - a)%nat as k. clear H.
  intros k. revert L. induction a as [|a IH]; intros L; [reflexivity|]. destruct L; cbn; [now rewrite firstn_nil|]. now rewrite IH.
Qed.

(** one iteration of the threshold loop *)
Definition thr_term (W p : R) (L : list R) (iw : nat * R) : R :=
  let '(i, w) := iw in
  let c := pfx (1 / (w / W) / p) L in
  sumf (fun x => x) (firstn c L) * p * (w / W) - INR c - (if (i <=? c)%nat then p * (w / W) * w - 1 else 0).
Lemma threshold_loop_eq W p L is j err :
  StronglySorted (fun a b => 1 / (snd b / W) / p <= 1 / (snd a / W) / p) is ->
  Forall (fun iw => (j <= pfx (1 / (snd iw / W) / p) L)%nat) is ->
  threshold_loop W p is (skipn j L) j (sumf (fun x => x) (firstn j L)) err = err + sumf (thr_term W p L) is.
Proof.
  intros Hs. revert j err. induction Hs as [|[i w] is Hs IH Hf]; intros j err Hj; [cbn; lra|].
  inversion_clear Hj as [|? ? Hj0 Hj']. cbn [snd] in Hj0. cbn [threshold_loop]. rewrite advance_w2_eq.
  set (t := 1 / (w / W) / p) in *. set (c := pfx t L).
  rewrite (pfx_skip t L j Hj0), skipn_skipn'. fold c. replace (j + (c - j))%nat with c by (unfold c; lia).
  rewrite sumf_firstn_skip by exact Hj0. rewrite sumf_cons. cbn [thr_term]. fold t. fold c.
  assert (Hc : Forall (fun iw => (c <= pfx (1 / (snd iw / W) / p) L)%nat) is).
  { eapply Forall_impl; [|exact Hf]. intros [i' w'] H. cbn [snd] in *. apply pfx_mono. exact H. }
  destruct (i <=? c)%nat; rewrite IH by exact Hc; lra.
Qed.

(** ** counting: theta = product threshold, h = kernel *)
Section Count.
  Variables (theta : R) (h : R -> R -> R) (L : list R).
  Hypothesis Hth : 0 < theta.
  Hypothesis HL : StronglySorted Rge L.
  Hypothesis Hpos : forall x, In x L -> 0 < x.
  Definition cut (x y : R) : R := if Rge_dec (x * y) theta then h x y - 1 else 0.
  Definition ci (w : R) : nat := pfx (theta / w) L.
  Definition cterm (iw : nat * R) : R :=
    let '(i, w) := iw in sumf (fun y => h w y - 1) (firstn (ci w) L) - (if (i <=? ci w)%nat then h w w - 1 else 0).
  Lemma ge_div w y : 0 < w -> (y >= theta / w <-> w * y >= theta).
  Proof.
    intros Hw. split; intros H.
    - apply Rle_ge. apply Rge_le in H. apply Rmult_le_compat_l with (r := w) in H; [|lra]. replace (w * (theta / w)) with theta in H by (field; lra). exact H.
    - apply Rle_ge. apply Rmult_le_reg_l with w; [exact Hw|]. replace (w * (theta / w)) with theta by (field; lra). lra.
  Qed.
  Lemma row_sum w : 0 < w -> sumf (fun y => h w y - 1) (firstn (ci w) L) = sumf (cut w) L.
  Proof.
    intros Hw. rewrite <- (firstn_skipn (ci w) L) at 2. rewrite sumf_app, (sumf_zero (cut w) (skipn _ _)).
    - rewrite Rplus_0_r. apply sumf_ext. intros y Hy. apply pfx_in in Hy. apply (ge_div w y Hw) in Hy. unfold cut. destruct (Rge_dec (w * y) theta); [reflexivity|lra].
    - intros y Hy. apply pfx_out in Hy; [|exact HL]. unfold cut. destruct (Rge_dec (w * y) theta) as [H|H]; [|reflexivity]. apply (ge_div w y Hw) in H. lra.
  Qed.
  Lemma in_with_index i w : In (i, w) (with_index L) -> nth_error L i = Some w.
  Proof.
    unfold with_index. enough (H : forall s, In (i, w) (combine (seq s (length L)) L) -> (s <= i)%nat /\ nth_error L (i - s) = Some w).
    { intros Hin. destruct (H 0%nat Hin) as [_ H']. now rewrite Nat.sub_0_r in H'. }
    clear. induction L as [|x l IH]; intros s; cbn; [tauto|]. intros [[= <- <-]|H]; [split; [lia|now rewrite Nat.sub_diag]|].
    destruct (IH (S s) H) as [H1 H2]. split; [lia|]. replace (i - s)%nat with (S (i - S s)) by lia. exact H2.
  Qed.
  Lemma diag_cut i w : In (i, w) (with_index L) -> (if (i <? ci w)%nat then h w w - 1 else 0) = cut w w.
  Proof.
    intros H. apply in_with_index in H. assert (Hw : 0 < w) by (apply Hpos; eapply nth_error_In; exact H).
    pose proof (pfx_nth (theta / w) L i w HL H) as P. fold (ci w) in P. unfold cut.
    destruct (Nat.ltb_spec i (ci w)) as [Hi|Hi]; destruct (Rge_dec (w * w) theta) as [G|G]; try reflexivity.
    - apply P in Hi. apply (ge_div w w Hw) in Hi. lra.
    - apply (ge_div w w Hw) in G. apply P in G. lia.
  Qed.
  (** the wrongly subtracted diagonal entries *)
  Definition off (iw : nat * R) : R := if (fst iw =? ci (snd iw))%nat then h (snd iw) (snd iw) - 1 else 0.
  Lemma cterm_eq iw : In iw (with_index L) -> cterm iw = sumf (cut (snd iw)) L - cut (snd iw) (snd iw) - off iw.
  Proof.
    destruct iw as [i w]. intros H. pose proof (diag_cut i w H) as Dg. assert (Hw : 0 < w) by (apply Hpos; eapply nth_error_In; apply in_with_index; exact H).
    cbn [cterm snd fst]. rewrite row_sum by exact Hw. rewrite <- Dg. unfold off. cbn [fst snd].
    destruct (Nat.leb_spec i (ci w)); destruct (Nat.ltb_spec i (ci w)); destruct (Nat.eqb_spec i (ci w)); try lia; lra.
  Qed.
  Lemma ci_anti i j w v : nth_error L i = Some w -> nth_error L j = Some v -> (i <= j)%nat -> (ci v <= ci w)%nat.
  Proof.
    intros Hi Hj Hij. unfold ci. apply pfx_mono. assert (Hv : 0 < v) by (apply Hpos; eapply nth_error_In; exact Hj).
    assert (v <= w).
    { clear -HL Hi Hj Hij. revert i j Hi Hj Hij. induction HL as [|x l Hs IH Hf]; intros i j Hi Hj Hij; [destruct i; discriminate|].
      destruct i as [|i], j as [|j]; cbn in *; try lia.
      - injection Hi as ->. injection Hj as ->. lra.
      - injection Hi as ->. rewrite Forall_forall in Hf. specialize (Hf v (nth_error_In _ _ Hj)). lra.
      - eapply IH; eauto. lia. }
    unfold Rdiv. apply Rmult_le_compat_l; [lra|]. apply Rinv_le_contravar; lra.
  Qed.
  Lemma with_index_in i w : nth_error L i = Some w -> In (i, w) (with_index L).
  Proof.
    unfold with_index. enough (H : forall s, nth_error L i = Some w -> In ((s + i)%nat, w) (combine (seq s (length L)) L)) by (intros; now apply (H 0%nat)).
    clear. revert i. induction L as [|x l IH]; intros i s Hn; [destruct i; discriminate|].
    cbn. destruct i as [|i]; cbn in Hn; [injection Hn as ->; left; f_equal; lia|]. right. specialize (IH i (S s) Hn). now rewrite Nat.add_succ_r.
  Qed.
  (** at most one index i with i = ci *)
  Lemma off_at i w : nth_error L i = Some w -> i = ci w -> sumf off (with_index L) = h w w - 1.
  Proof.
    intros Hn Hi. pose proof (with_index_in i w Hn) as Hin.
    assert (HU : forall iw, In iw (with_index L) -> iw <> (i, w) -> off iw = 0).
    { intros [j v] Hj Hne. unfold off. cbn [fst snd]. destruct (Nat.eqb_spec j (ci v)) as [Ej|Ej]; [|reflexivity]. exfalso. apply Hne.
      pose proof (in_with_index j v Hj) as Hn'. destruct (Nat.lt_trichotomy i j) as [C|[C|C]].
      - pose proof (ci_anti i j w v Hn Hn' ltac:(lia)). lia.
      - subst j. congruence.
      - pose proof (ci_anti j i v w Hn' Hn ltac:(lia)). lia. }
    assert (HO : off (i, w) = h w w - 1). { unfold off. cbn [fst snd]. rewrite <- Hi, Nat.eqb_refl. reflexivity. }
    rewrite <- HO. apply in_split in Hin as (a & b & Eab). rewrite Eab in *. rewrite sumf_app, sumf_cons.
    assert (ND : NoDup (map fst (a ++ (i, w) :: b))).
    { rewrite <- Eab. unfold with_index. assert (HF : forall {X Y} (p : list X) (q : list Y), length p = length q -> map fst (combine p q) = p).
      { induction p as [|y p IHp]; intros [|z q] Hpq; cbn in *; try discriminate; [reflexivity|]. now rewrite IHp by lia. }
      rewrite HF by apply seq_length. apply seq_NoDup. }
    rewrite map_app in ND. cbn [map fst] in ND. apply NoDup_remove_2 in ND.
    rewrite (sumf_zero off a), (sumf_zero off b); [lra| |].
    * intros iw Hiw. apply HU; [apply in_or_app; right; now right|]. intros ->. apply ND. apply in_or_app. right. change i with (fst (i, w)). now apply in_map.
    * intros iw Hiw. apply HU; [apply in_or_app; now left|]. intros ->. apply ND. apply in_or_app. left. change i with (fst (i, w)). now apply in_map.
  Qed.
  Lemma off_cases : sumf off (with_index L) = 0 \/ exists i w, nth_error L i = Some w /\ i = ci w /\ w * w < theta /\ sumf off (with_index L) = h w w - 1.
  Proof.
    destruct (Exists_dec (fun iw : nat * R => fst iw = ci (snd iw)) (with_index L)) as [H|H].
    { intros iw. apply Nat.eq_dec. }
    - right. apply Exists_exists in H as ([i w] & Hin & Hi). cbn in Hi. pose proof (in_with_index i w Hin) as Hn. exists i, w.
      assert (Hw : In w L) by (eapply nth_error_In; exact Hn). split; [exact Hn|]. split; [exact Hi|]. split; [|now apply (off_at i)].
      apply Rnot_ge_lt. intros G. apply (ge_div w w (Hpos w Hw)) in G. apply (pfx_nth (theta / w) L i w HL Hn) in G. fold (ci w) in G. lia.
    - left. apply sumf_zero. intros iw Hiw. unfold off. destruct (Nat.eqb_spec (fst iw) (ci (snd iw))) as [E|E]; [|reflexivity]. exfalso. apply H. apply Exists_exists. eauto.
  Qed.
  Lemma map_snd_with_index : map snd (with_index L) = L.
  Proof.
    unfold with_index. assert (HF : forall {X Y} (p : list X) (q : list Y), length p = length q -> map snd (combine p q) = q).
    { induction p as [|y p IHp]; intros [|z q] Hpq; cbn in *; try discriminate; [reflexivity|]. now rewrite IHp by lia. }
    apply HF. apply seq_length.
  Qed.
  (** the sum of all iterations *)
  Theorem cterm_sum : sumf cterm (with_index L) = sumf (fun x => sumf (cut x) L) L - sumf (fun x => cut x x) L - sumf off (with_index L).
  Proof.
    rewrite (sumf_ext cterm (fun iw => sumf (cut (snd iw)) L - cut (snd iw) (snd iw) - off iw)) by (intros; now apply cterm_eq).
    assert (HS : forall g, sumf (fun iw : nat * R => g (snd iw)) (with_index L) = sumf g L).
    { intros g. rewrite <- (sumf_map g snd). now rewrite map_snd_with_index. }
    rewrite sumf_minus, sumf_minus, (HS (fun x => sumf (cut x) L)), (HS (fun x => cut x x)). reflexivity.
  Qed.
  (** processing order: indices descending, weights ascending *)
  Lemma rev_sorted : StronglySorted (fun a b : nat * R => theta / snd b <= theta / snd a) (rev (with_index L)).
  Proof.
    assert (H : forall l s, StronglySorted Rge l -> (forall x, In x l -> 0 < x) -> StronglySorted (fun a b : nat * R => theta / snd b <= theta / snd a) (rev (combine (seq s (length l)) l))).
    { induction l as [|x l IH]; intros s Hs Hp; [constructor|]. inversion_clear Hs as [|? ? Hs' Hf]. cbn [length seq combine rev].
      assert (HA : forall a b, StronglySorted (fun a b : nat * R => theta / snd b <= theta / snd a) a -> Forall (fun y => theta / snd b <= theta / snd y) a -> StronglySorted (fun a b : nat * R => theta / snd b <= theta / snd a) (a ++ [b])).
      { clear. induction a as [|y a IHa]; intros b H1 H2; [repeat constructor|]. inversion_clear H1 as [|? ? H3 H4]. inversion_clear H2 as [|? ? H5 H6]. cbn. constructor; [now apply IHa|]. apply Forall_app. split; [exact H4|]. constructor; [exact H5|constructor]. }
      apply HA; [apply IH; auto; intros; apply Hp; now right|]. apply Forall_forall. intros [j v] Hin. apply in_rev in Hin. apply in_combine_r in Hin. cbn [snd].
      rewrite Forall_forall in Hf. specialize (Hf v Hin). assert (0 < v) by (apply Hp; now right). assert (0 < x) by (apply Hp; now left).
      unfold Rdiv. apply Rmult_le_compat_l; [lra|]. apply Rinv_le_contravar; lra. }
    apply H; auto.
  Qed.
End Count.

(** ** The threshold estimator *)
Lemma max_from_ge m ws : m <= max_from m ws /\ forall x, In x ws -> x <= max_from m ws.
Proof.
  revert m. induction ws as [|w ws IH]; intros m; cbn; [split; [lra|tauto]|]. destruct (IH (Rmax m w)) as [H1 H2]. unfold max_from in *. pose proof (Rmax_l m w). pose proof (Rmax_r m w).
  split; [lra|]. intros x [<-|H']; [lra|auto].
Qed.
Lemma max_from_in ws : ws <> [] -> (forall x, In x ws -> 0 < x) -> In (max_from 0 ws) ws.
Proof.
  intros Hne Hp. enough (H : forall m, max_from m ws = m \/ In (max_from m ws) ws).
  { destruct (H 0) as [E|E]; [|exact E]. exfalso. destruct ws as [|w ws]; [congruence|]. destruct (max_from_ge 0 (w :: ws)) as [_ G]. specialize (G w (or_introl eq_refl)). specialize (Hp w (or_introl eq_refl)). lra. }
  clear. induction ws as [|w ws IH]; intros m; [now left|]. cbn. destruct (IH (Rmax m w)) as [E|E]; [|now right; right]. unfold max_from in *. rewrite E. unfold Rmax. destruct (Rle_dec m w); [right; now left|now left].
Qed.

(** the pair sum over all ordered pairs of distinct positions, as a difference *)
Definition psum (F : R -> R -> R) (ws : list R) : R := sumf (fun x => sumf (F x) ws) ws - sumf (fun x => F x x) ws.
Lemma psum_perm F a b : Permutation a b -> psum F a = psum F b.
Proof.
  intros H. unfold psum. rewrite (sumf_perm (fun x => F x x) a b H). f_equal. rewrite (sumf_perm _ a b H). apply sumf_ext. intros x _. now apply sumf_perm.
Qed.
Lemma psum_minus F G ws : psum (fun x y => F x y - G x y) ws = psum F ws - psum G ws.
Proof.
  unfold psum. rewrite sumf_minus. rewrite (sumf_ext (fun x => sumf (fun y => F x y - G x y) ws) (fun x => sumf (F x) ws - sumf (G x) ws)) by (intros; apply sumf_minus).
  rewrite sumf_minus. lra.
Qed.
Lemma psum_ext F G ws : (forall x y, In x ws -> In y ws -> F x y = G x y) -> psum F ws = psum G ws.
Proof. intros H. unfold psum. f_equal; apply sumf_ext; intros x Hx; auto. apply sumf_ext. auto. Qed.
(** pairs with an element outside the prefix do not contribute *)
Lemma psum_prefix G L Q : (forall x y, In x Q -> In y (L ++ Q) -> G x y = 0 /\ G y x = 0) -> psum G (L ++ Q) = sumf (fun x => sumf (G x) L) L - sumf (fun x => G x x) L.
Proof.
  intros H. unfold psum. rewrite (sumf_app (fun x => sumf (G x) (L ++ Q))), (sumf_app (fun x => G x x)).
  rewrite (sumf_zero (fun x => sumf (G x) (L ++ Q)) Q) by (intros x Hx; apply sumf_zero; intros y Hy; exact (proj1 (H x y Hx Hy))).
  rewrite (sumf_zero (fun x => G x x) Q) by (intros x Hx; apply (H x x Hx); apply in_or_app; now right).
  rewrite !Rplus_0_r. f_equal. apply sumf_ext. intros x Hx. rewrite sumf_app, (sumf_zero (G x) Q); [lra|]. intros y Hy. apply (H y x Hy). apply in_or_app. now left.
Qed.
