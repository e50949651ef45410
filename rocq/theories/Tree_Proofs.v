(** The data structure behind generateEdges: classification, sorting, cell index and cell queries. *)
From Coq Require Import Arith NArith ZArith List Bool Reals Permutation Lia Lra Sorted.
From Flocq Require Import Core.
From Verif Require Import Base Sched Bits_Model Bits_Proofs Coord_Model Coord_Proofs Coord_Geo IntSort_Model IntSort_Proofs IntSort_Main
  Prop_IntSort Prefix_Model Prefix_Proofs Prop_Prefix Tree_Model Cover.
Import ListNotations.
Local Open Scope N_scope.

(** ** levels *)
Lemma quot_le_mul a D : (0 < D)%Z -> (D * Z.max (Z.quot a D) 0 <= Z.max a 0)%Z.
Proof.
  intros HD. destruct (Z.le_gt_cases 0 a) as [H|H].
  - rewrite Z.quot_div_nonneg by lia. pose proof (Z.mul_div_le a D HD). pose proof (Z.div_pos a D H HD). lia.
  - assert (Z.quot a D <= 0)%Z; [|lia]. pose proof (Z.quot_opp_l a D ltac:(lia)) as E.
    pose proof (Z.quot_pos (- a) D ltac:(lia) HD). lia.
Qed.
Lemma quot_mono a b D : (0 < D)%Z -> (a <= b)%Z -> (Z.max (Z.quot a D) 0 <= Z.max (Z.quot b D) 0)%Z.
Proof.
  intros HD H. pose proof (Z.quot_le_mono a b D HD H). lia.
Qed.
Section Levels.
  Variables (D : N) (c : Z).
  Hypothesis HD : dim_ok D.
  Lemma dimZ : (0 < Z.of_N D)%Z. Proof. unfold dim_ok in HD. lia. Qed.
  Lemma base_sym i j : base_level D c i j = base_level D c j i.
  Proof. unfold base_level. f_equal. f_equal. f_equal. lia. Qed.
  Lemma base_le_target i j : base_level D c i j <= target_level D c i.
  Proof.
    unfold base_level, target_level. pose proof (quot_mono (c - Z.of_nat i - Z.of_nat j - 2) (c - Z.of_nat i - 1) (Z.of_N D) dimZ ltac:(lia)). lia.
  Qed.
  Lemma base_le_00 i j : base_level D c i j <= base_level D c 0 0.
  Proof.
    unfold base_level. pose proof (quot_mono (c - Z.of_nat i - Z.of_nat j - 2) (c - Z.of_nat 0 - Z.of_nat 0 - 2) (Z.of_N D) dimZ ltac:(lia)). lia.
  Qed.
  Lemma target_bound i : (Z.of_N (D * target_level D c i) <= Z.max (c - Z.of_nat i - 1) 0)%Z.
  Proof. unfold target_level. pose proof (quot_le_mul (c - Z.of_nat i - 1) (Z.of_N D) dimZ). rewrite N2Z.inj_mul, Z2N.id by lia. lia. Qed.
  Lemma base_bound i j : (Z.of_N (D * base_level D c i j) <= Z.max (c - Z.of_nat i - Z.of_nat j - 2) 0)%Z.
  Proof. unfold base_level. pose proof (quot_le_mul (c - Z.of_nat i - Z.of_nat j - 2) (Z.of_N D) dimZ). rewrite N2Z.inj_mul, Z2N.id by lia. lia. Qed.
  (** comparing a layer pair on a positive level means there is room in the constant *)
  Lemma base_pos i j l : 0 < l -> l <= base_level D c i j -> (Z.of_N (D * l) + Z.of_nat i + Z.of_nat j + 2 <= c)%Z.
  Proof.
    intros Hl H. pose proof (base_bound i j) as B. assert (D * l <= D * base_level D c i j) by (apply N.mul_le_mono_l; exact H).
    assert (0 < D * l) by (unfold dim_ok in HD; apply N.mul_pos_pos; lia). lia.
  Qed.
End Levels.

(** ** first_cell_of_layer *)
Section Cells.
  Variables (D : N) (c : Z).
  Hypotheses (HD : dim_ok D) (Hc : (c <= 30)%Z).
  Definition tl (i : nat) : N := target_level D c i.
  Fixpoint fcell (i : nat) : N := match i with O => 0 | S k => fcell k + 2 ^ (D * tl k) end.
  Lemma tl_bound i : D * tl i <= N.of_nat (29 - i).
  Proof. pose proof (target_bound D c HD i). unfold tl. lia. Qed.
  Lemma fcell_bound i : fcell i + 2 ^ (N.of_nat (30 - i)) <= 2 ^ 30 + N.of_nat i.
  Proof.
    induction i as [|i IH]; [simpl; lia|]. cbn [fcell]. pose proof (tl_bound i) as Hb.
    assert (2 ^ (D * tl i) <= 2 ^ N.of_nat (29 - i)) by (apply N.pow_le_mono_r; lia).
    destruct (Nat.le_gt_cases i 29) as [L|L].
    - replace (30 - i)%nat with (S (29 - i)) in IH by lia. rewrite Nat2N.inj_succ, N.pow_succ_r' in IH.
      replace (30 - S i)%nat with (29 - i)%nat by lia. lia.
    - replace (30 - i)%nat with 0%nat in IH by lia. replace (29 - i)%nat with 0%nat in * by lia.
      replace (30 - S i)%nat with 0%nat by lia. change (2 ^ N.of_nat 0) with 1 in *. lia.
  Qed.
  Lemma fcell_lt i : (i <= 4096)%nat -> fcell i < 2 ^ 31.
  Proof. intros H. pose proof (fcell_bound i). change (2 ^ 31) with 2147483648. change (2 ^ 30) with 1073741824 in *. lia. Qed.
  Lemma fcell_mono i j : (i <= j)%nat -> fcell i <= fcell j.
  Proof. induction 1; [lia|]. cbn [fcell]. lia. Qed.
  Lemma first_cells_eq k l sum : (l + k <= 4096)%nat -> sum = fcell l ->
    first_cells D c k l sum = Some (map fcell (seq l (S k))).
  Proof.
    revert l sum; induction k as [|k IH]; intros l sum Hb ->; [reflexivity|]. cbn [first_cells].
    rewrite numCellsInLevel_Some by (pose proof (tl_bound l); unfold tl in *; lia). cbn [obind].
    rewrite w32_small.
    2:{ change (2 ^ (D * target_level D c l)) with (2 ^ (D * tl l)). change (fcell l + 2 ^ (D * tl l)) with (fcell (S l)).
        pose proof (fcell_lt (S l) ltac:(lia)). change (2 ^ 31) with 2147483648 in *. change (2 ^ 32) with 4294967296. lia. }
    rewrite IH by (lia || reflexivity). reflexivity.
  Qed.
  Lemma fcell_inv i j x : x < 2 ^ (D * tl i) -> fcell j <= fcell i + x < fcell (S j) -> i = j.
  Proof.
    intros Hx [H1 H2]. destruct (Nat.lt_trichotomy i j) as [L|[L|L]]; auto; exfalso.
    - pose proof (fcell_mono (S i) j L). cbn [fcell] in *. lia.
    - pose proof (fcell_mono (S j) i L). lia.
  Qed.
End Cells.

(** ** slices of sorted arrays *)
Lemma sorted_split {T} (key : T -> N) xs lo hi : StronglySorted (fun a b => key a <= key b) xs -> lo <= hi ->
  xs = filter (fun x => key x <? lo) xs ++ filter (fun x => (lo <=? key x) && (key x <? hi)) xs ++ filter (fun x => hi <=? key x) xs.
Proof.
  intros S L. induction S as [|a l S IH F]; auto. cbn [filter].
  rewrite Forall_forall in F.
  assert (N1 : lo <= key a -> filter (fun x => key x <? lo) l = []).
  { intros H. apply filter_none. intros x Hx. apply N.ltb_ge. specialize (F x Hx). lia. }
  assert (N2 : hi <= key a -> filter (fun x => (lo <=? key x) && (key x <? hi)) l = []).
  { intros H. apply filter_none. intros x Hx. apply andb_false_iff. right. apply N.ltb_ge. specialize (F x Hx). lia. }
  destruct (N.ltb_spec (key a) lo) as [H1|H1].
  - destruct (N.leb_spec lo (key a)); [lia|]. destruct (N.leb_spec hi (key a)); [lia|]. cbn [andb app]. now rewrite <- IH.
  - destruct (N.leb_spec lo (key a)); [|lia]. rewrite (N1 H1) in *. cbn [app andb] in *. destruct (N.ltb_spec (key a) hi) as [H2|H2].
    + destruct (N.leb_spec hi (key a)); [lia|]. cbn [app]. now rewrite <- IH.
    + destruct (N.leb_spec hi (key a)); [|lia]. rewrite (N2 H2) in *. cbn [app] in *. now rewrite <- IH.
Qed.
Lemma filter_length_map {A B} (f : A -> B) (p : B -> bool) l : length (filter p (map f l)) = length (filter (fun x => p (f x)) l).
Proof. induction l as [|a l IH]; simpl; auto. destruct (p (f a)); simpl; auto. Qed.
Lemma firstn_skipn_mid {T} (a b c : list T) : firstn (length (a ++ b) - length a) (skipn (length a) (a ++ b ++ c)) = b.
Proof.
  rewrite skipn_app, skipn_all, Nat.sub_diag. cbn [app skipn]. rewrite app_length.
  replace (length a + length b - length a)%nat with (length b + 0)%nat by lia. rewrite firstn_app_2. simpl. apply app_nil_r.
Qed.
Lemma slice_sorted {T} (key : T -> N) xs lo hi : StronglySorted (fun a b => key a <= key b) xs -> lo <= hi ->
  slice xs (length (filter (fun x => key x <? lo) xs)) (length (filter (fun x => key x <? hi) xs))
  = Some (filter (fun x => (lo <=? key x) && (key x <? hi)) xs).
Proof.
  intros S L. pose proof (sorted_split key xs lo hi S L) as E.
  assert (E2 : filter (fun x => key x <? hi) xs = filter (fun x => key x <? lo) xs ++ filter (fun x => (lo <=? key x) && (key x <? hi)) xs).
  { pose proof (sorted_split key xs 0 hi S ltac:(lia)) as E0.
    assert (Z : forall l : list T, filter (fun x => (lo <=? key x) && (key x <? hi)) (filter (fun x => hi <=? key x) l) = []).
    { intros l. apply filter_none. intros x Hx. apply filter_In in Hx as [_ Hx]. apply N.leb_le in Hx.
      apply andb_false_iff. right. apply N.ltb_ge. lia. }
    rewrite E at 1. rewrite !filter_app, !filter_filter_and.
    f_equal; [|].
    - apply filter_ext. intros x. destruct (N.ltb_spec (key x) lo); auto. cbn [andb]. apply N.ltb_lt. lia.
    - rewrite (filter_none (fun x => (hi <=? key x) && (key x <? hi))), app_nil_r.
      + apply filter_ext. intros x. destruct (key x <? hi); [now rewrite andb_true_r|now rewrite !andb_false_r].
      + intros x _. destruct (N.leb_spec hi (key x)); auto. apply N.ltb_ge in H. now rewrite H. }
  unfold slice. rewrite E2. set (F1 := filter (fun x => key x <? lo) xs) in *. set (F2 := filter (fun x => (lo <=? key x) && (key x <? hi)) xs) in *.
  set (F3 := filter (fun x => hi <=? key x) xs) in *. clearbody F1 F2 F3. clear E2. subst xs.
  rewrite (proj2 (Nat.leb_le _ _)) by (rewrite app_length; lia).
  rewrite (proj2 (Nat.leb_le _ _)) by (rewrite !app_length; lia). cbn [andb].
  f_equal. apply firstn_skipn_mid.
Qed.

(** a point's cell on a higher level *)
Lemma cellR_ancestor cfg E D p l k : dim_ok D -> valid_pos E D p -> D * (l + N.of_nat k) <= 32 ->
  cellR cfg D l p = cellR cfg D (l + N.of_nat k) p / 2 ^ (D * N.of_nat k).
Proof.
  intros HD V. revert l; induction k as [|k IH]; intros l H.
  - rewrite N.add_0_r, N.mul_0_r, N.pow_0_r, N.div_1_r. reflexivity.
  - rewrite (cellR_parent cfg E D l p HD V).
    2:{ eapply N.le_trans; [|exact H]. apply N.mul_le_mono_l. lia. }
    rewrite (IH (l + 1)) by (replace (l + 1 + N.of_nat k) with (l + N.of_nat (S k)) by lia; exact H).
    replace (l + 1 + N.of_nat k) with (l + N.of_nat (S k)) by lia.
    rewrite N.div_div by (apply N.pow_nonzero; discriminate).
    rewrite <- N.pow_add_r. f_equal. f_equal. lia.
Qed.
