(** The result of scaleWeights does not depend on how std::partition and std::sort arrange elements. *)
From Coq Require Import Arith NArith ZArith List Bool Reals Lia Lra Sorting.Sorted Permutation.
From Verif Require Import Base Scaling_Model.
Import ListNotations.
Local Open Scope R_scope.

(** two states of the sorter with the same sorted part and the same elements *)
Record same (a b : lazy) : Prop := { sm_end : lend a = lend b; sm_low : llow a = llow b; sm_prefix : firstn (lend a) (larr a) = firstn (lend b) (larr b);
  sm_perm : Permutation (larr a) (larr b); sm_len : (lend a <= length (larr a))%nat }.
Lemma same_refl a : (lend a <= length (larr a))%nat -> same a a.
Proof. intros H. now constructor. Qed.
Lemma same_tail a b : same a b -> Permutation (skipn (lend a) (larr a)) (skipn (lend b) (larr b)).
Proof.
  intros [E L P PM _]. rewrite <- (firstn_skipn (lend a) (larr a)), <- (firstn_skipn (lend b) (larr b)), P in PM. now apply Permutation_app_inv_l in PM.
Qed.
Lemma sorted_unique S1 : forall S2, Permutation S1 S2 -> StronglySorted Rge S1 -> StronglySorted Rge S2 -> S1 = S2.
Proof.
  induction S1 as [|x l IH]; intros S2 P H1 H2; [apply Permutation_nil in P; now subst|]. destruct S2 as [|y m]; [symmetry in P; now apply Permutation_nil in P|].
  inversion H1 as [|? ? Hl Fx]; subst. inversion H2 as [|? ? Hm Fy]; subst. rewrite Forall_forall in Fx, Fy.
  assert (E : x = y).
  { assert (I1 : In x (y :: m)) by (eapply Permutation_in; [exact P|now left]). assert (I2 : In y (x :: l)) by (eapply Permutation_in; [symmetry; exact P|now left]).
    destruct I1 as [E|I1]; [now symmetry|]. destruct I2 as [E|I2]; [exact E|]. specialize (Fx y I2). specialize (Fy x I1). lra. }
  subst y. f_equal. apply IH; try assumption. now apply Permutation_cons_inv in P.
Qed.
Lemma parts_unique (P1 Q1 P2 Q2 : list R) th : Permutation (P1 ++ Q1) (P2 ++ Q2) -> Forall (fun x => x >= th) P1 -> Forall (fun x => ~ x >= th) Q1 -> Forall (fun x => x >= th) P2 -> Forall (fun x => ~ x >= th) Q2 ->
  Permutation P1 P2 /\ Permutation Q1 Q2.
Proof.
  intros PM A1 B1 A2 B2. set (p := fun x => if Rge_dec x th then true else false).
  assert (FP : forall P, Forall (fun x => x >= th) P -> filter p P = P /\ filter (fun x => negb (p x)) P = []).
  { intros P H. induction H as [|x P Hx _ [IH1 IH2]]; [split; reflexivity|]. cbn [filter]. assert (EP : p x = true) by (unfold p; destruct (Rge_dec x th); [reflexivity|contradiction]). rewrite EP. cbn [negb]. rewrite IH1, IH2. split; reflexivity. }
  assert (FQ : forall P, Forall (fun x => ~ x >= th) P -> filter p P = [] /\ filter (fun x => negb (p x)) P = P).
  { intros P H. induction H as [|x P Hx _ [IH1 IH2]]; [split; reflexivity|]. cbn [filter]. assert (EP : p x = false) by (unfold p; destruct (Rge_dec x th); [contradiction|reflexivity]). rewrite EP. cbn [negb]. rewrite IH1, IH2. split; reflexivity. }
  assert (PF : forall f (a b : list R), Permutation a b -> Permutation (filter f a) (filter f b)).
  { intros f a b H. induction H; cbn; [constructor| | |eapply perm_trans; eassumption]; repeat destruct (f _); try constructor; try assumption; try apply Permutation_refl. }
  destruct (FP _ A1) as [E1 E2], (FP _ A2) as [E3 E4], (FQ _ B1) as [E5 E6], (FQ _ B2) as [E7 E8]. split.
  - apply (PF p) in PM. rewrite !filter_app, E1, E3, E5, E7, !app_nil_r in PM. exact PM.
  - apply (PF (fun x => negb (p x))) in PM. rewrite !filter_app, E2, E4, E6, E8 in PM. exact PM.
Qed.
Lemma sort_downto_det a b th k1 k2 a' b' : same a b -> sort_downto a th k1 a' -> sort_downto b th k2 b' -> k1 = k2 /\ same a' b' /\ (k1 <= lend a')%nat /\ (lend a <= lend a')%nat.
Proof.
  intros S H1 H2. pose proof (same_tail a b S) as PT. destruct S as [E L P PM LE]. unfold sort_downto in H1, H2. rewrite <- L in H2. destruct (Rlt_dec th (llow a)) as [LT|NL].
  - destruct H1 as (P1 & Q1 & M1 & A1 & B1 & H1), H2 as (P2 & Q2 & M2 & A2 & B2 & H2).
    assert (PQ : Permutation (P1 ++ Q1) (P2 ++ Q2)) by (rewrite <- M1, <- M2; exact PT). destruct (parts_unique _ _ _ _ _ PQ A1 B1 A2 B2) as [PP QQ].
    assert (LF : length (firstn (lend b) (larr b)) = lend a) by (rewrite <- P; rewrite firstn_length; lia).
    destruct P1 as [|x P1].
    + apply Permutation_nil in PP. subst P2. destruct H1 as [-> ->], H2 as [-> ->]. split; [exact E|]. split; [|cbn; lia].
      constructor; cbn [lend llow larr]; try assumption; try reflexivity.
      * rewrite P, !firstn_app, LF, <- E, Nat.sub_diag. rewrite !firstn_O, !app_nil_r. reflexivity.
      * rewrite P. now apply Permutation_app_head.
      * rewrite app_length, P, LF. lia.
    + destruct P2 as [|y P2]; [symmetry in PP; now apply Permutation_nil in PP|]. destruct H1 as (S1 & R1 & O1 & K1 & ->), H2 as (S2 & R2 & O2 & K2 & ->).
      assert (ES : S1 = S2) by (apply sorted_unique; [now rewrite <- R1, <- R2|exact O1|exact O2]). assert (EK : k1 = k2) by (rewrite K1, K2, E; f_equal; now apply Permutation_length).
      split; [exact EK|]. split; [|cbn [lend]; lia].
      assert (LS : length S2 = length (x :: P1)) by (rewrite <- ES; symmetry; now apply Permutation_length).
      assert (LL : length (firstn (lend b) (larr b) ++ S2) = k1) by (rewrite app_length, LF, K1; lia).
      constructor; cbn [lend llow larr].
      * exact EK.
      * rewrite EK. now rewrite (Permutation_length PM).
      * rewrite P, ES, <- EK. rewrite !app_assoc, (firstn_app k1 _ Q1), (firstn_app k1 _ Q2), LL, Nat.sub_diag, !firstn_O, !app_nil_r. reflexivity.
      * rewrite P, ES. apply Permutation_app_head, Permutation_app_head. exact QQ.
      * rewrite P, ES, app_assoc, app_length. lia.
  - destruct H1 as (K1 & A1 & B1 & ->), H2 as (K2 & A2 & B2 & ->). split; [|split; [now constructor|lia]].
    (* the partition point *)
    assert (X : forall (l : list R) e k, (k <= e)%nat -> firstn (e - k) (skipn k l) = skipn k (firstn e l)) by (intros l e k Hk; rewrite skipn_firstn_comm; reflexivity).
    assert (Y : forall (l : list R) e k, (k <= e)%nat -> firstn k l = firstn k (firstn e l)) by (intros l e k Hk; rewrite firstn_firstn; f_equal; lia).
    rewrite (X _ _ _ K1) in B1. rewrite (X _ _ _ K2) in B2. rewrite (Y _ _ _ K1) in A1. rewrite (Y _ _ _ K2) in A2. rewrite <- P in A2, B2. rewrite <- E in K2.
    set (l := firstn (lend a) (larr a)) in *. assert (LEN : length l = lend a) by (unfold l; rewrite firstn_length; lia). rewrite <- LEN in K1, K2. clearbody l. clear -A1 B1 A2 B2 K1 K2.
    assert (Z : forall j k, (k <= length l)%nat -> Forall (fun x => ~ x > th) (skipn j l) -> Forall (fun x => x > th) (firstn k l) -> (k <= j)%nat).
    { intros j k Hk F1 F2. destruct (Nat.le_gt_cases k j) as [H|H]; [exact H|exfalso]. rewrite Forall_forall in F1, F2. apply (F1 (nth j l 0)).
      - replace (nth j l 0) with (nth 0 (skipn j l) 0) by (rewrite nth_skipn_0 || (rewrite <- (firstn_skipn j l) at 2; rewrite app_nth2; rewrite firstn_length, Nat.min_l by lia; [now rewrite Nat.sub_diag|lia])). apply nth_In. rewrite skipn_length. lia.
      - apply F2. rewrite <- (firstn_skipn k l) at 1. rewrite app_nth1 by (rewrite firstn_length; lia). apply nth_In. rewrite firstn_length. lia. }
    apply Nat.le_antisymm; [eapply Z; eassumption|eapply Z; eassumption].
Qed.
Lemma same_firstn a b k : same a b -> (k <= lend a)%nat -> firstn k (larr a) = firstn k (larr b).
Proof.
  intros S H. replace k with (Nat.min k (lend a)) at 1 by lia. rewrite <- firstn_firstn, (sm_prefix _ _ S), firstn_firstn. f_equal. pose proof (sm_end _ _ S). lia.
Qed.
Lemma threshold_f_det ws d a b c v1 v2 a' b' : same a b -> threshold_f ws d a c v1 a' -> threshold_f ws d b c v2 b' -> v1 = v2 /\ same a' b'.
Proof.
  intros S (k1 & H1 & ->) (k2 & H2 & ->). destruct (sort_downto_det _ _ _ _ _ _ _ S H1 H2) as (<- & S' & LE & _). split; [|exact S']. rewrite (same_firstn a' b' k1 S' LE). reflexivity.
Qed.
Definition same2 (a b : lazy * list R) : Prop := same (fst a) (fst b) /\ snd a = snd b.
Lemma general_f_det ws d alpha a b c v1 v2 a' b' : same2 a b -> general_f ws d alpha a c v1 a' -> general_f ws d alpha b c v2 b' -> v1 = v2 /\ same2 a' b'.
Proof.
  intros [S ES] (k1 & H1 & V1) (k2 & H2 & V2). destruct (sort_downto_det _ _ _ _ _ _ _ S H1 H2) as (<- & S' & LE & _). rewrite <- ES in V2. destruct (k1 =? 0)%nat.
  - destruct V1 as [-> E1], V2 as [-> E2]. split; [reflexivity|]. split; [exact S'|congruence].
  - rewrite <- (same_firstn (fst a') (fst b') k1 S' LE) in V2. cbv zeta in V1, V2. destruct (general_loop _ _ _ _ _ _ _ _ _ _ _) as [[x1 x2] x3]. destruct V1 as [-> E1], V2 as [-> E2]. split; [reflexivity|]. split; [exact S'|congruence].
Qed.
(** the search *)
Section Search.
  Context {St : Type} (f : St -> R -> R -> St -> Prop) (eqv : St -> St -> Prop) (desired accuracy : R).
  Hypothesis Hf : forall a b c v1 v2 a' b', eqv a b -> f a c v1 a' -> f b c v2 b' -> v1 = v2 /\ eqv a' b'.
  Definition seqv (x y : search_state St) : Prop :=
    match x, y with
    | InUp a l u, InUp b l' u' | InDown a l u, InDown b l' u' | InMid a l u, InMid b l' u' | Done a l u, Done b l' u' => eqv a b /\ l = l' /\ u = u'
    | _, _ => False
    end.
  Lemma step_det x y x' y' : seqv x y -> search_step f desired accuracy x x' -> search_step f desired accuracy y y' -> seqv x' y'.
  Proof.
    intros E H1 H2. destruct H1; destruct H2; cbn in E; try contradiction; destruct E as (E & -> & ->);
      match goal with A : f ?a ?c ?v ?a', B : f ?b ?c ?v0 ?b' |- _ => destruct (Hf _ _ _ _ _ _ _ E A B) as [EV ES] end; subst; try contradiction; cbn; tauto.
  Qed.
  Lemma run_det x x' : search_run f desired accuracy x x' -> forall y y', seqv x y -> search_run f desired accuracy y y' -> (exists a r v, x' = Done a r v) -> (exists a r v, y' = Done a r v) -> seqv x' y'.
  Proof.
    induction 1 as [x|x z x' HS HR IH]; intros y y' E H2 (a & r & v & D1) (a2 & r2 & v2 & D2).
    - subst x. destruct H2 as [y|y z y' HS HR]; [exact E|]. exfalso. destruct y; cbn in E; try contradiction. inversion HS.
    - destruct H2 as [y|y z2 y' HS2 HR2].
      + exfalso. subst y. destruct x; cbn in E; try contradiction. inversion HS.
      + eapply IH; [eapply step_det; eassumption|exact HR2|eauto|eauto].
  Qed.
End Search.
Lemma scale_weights_det ws deg d alpha r1 r2 ws1 ws2 : scale_weights ws deg d alpha r1 ws1 -> scale_weights ws deg d alpha r2 ws2 -> r1 = r2 /\ ws1 = ws2.
Proof.
  intros H1 H2. assert (I0 : same (lazy_init ws) (lazy_init ws)) by (apply same_refl; cbn; lia).
  destruct H1 as [s1 A1 B1|a1 s1 A1 B1 C1 D1|A1 B1]; destruct H2 as [s2 A2 B2|a2 s2 A2 B2 C2 D2|A2 B2]; try congruence; try (split; reflexivity).
  - assert (E : s1 = s2); [|rewrite E; split; reflexivity]. destruct B1 as (st1 & c1 & v1 & S1 & ->), B2 as (st2 & c2 & v2 & S2 & ->). unfold search in S1, S2.
    assert (E0 : seqv same (InUp (lazy_init ws) 1 2) (InUp (lazy_init ws) 1 2)) by (split; [exact I0|split; reflexivity]).
    assert (X : seqv same (Done st1 c1 v1) (Done st2 c2 v2)) by (eapply (run_det (threshold_f ws d) same deg default_accuracy); [intros; eapply threshold_f_det; eassumption|exact S1|exact E0|exact S2|eauto|eauto]).
    destruct X as (_ & -> & _). reflexivity.
  - rewrite C1 in C2. injection C2 as <-. assert (E : s1 = s2); [|rewrite E; split; reflexivity]. destruct D1 as (st1 & c1 & v1 & S1 & ->), D2 as (st2 & c2 & v2 & S2 & ->). unfold search in S1, S2.
    assert (E0 : seqv same2 (InUp (lazy_init ws, []) 1 2) (InUp (lazy_init ws, []) 1 2)) by (split; [split; [exact I0|reflexivity]|split; reflexivity]).
    assert (X : seqv same2 (Done st1 c1 v1) (Done st2 c2 v2)) by (eapply (run_det (general_f ws d a1) same2 deg default_accuracy); [intros; eapply general_f_det; eassumption|exact S1|exact E0|exact S2|eauto|eauto]).
    destruct X as (_ & -> & _). reflexivity.
Qed.
