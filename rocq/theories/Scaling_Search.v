(** Termination and accuracy of the exponential search, for any function whose values do not rise abruptly. *)
From Coq Require Import Arith NArith ZArith List Bool Reals Lia Lra.
From Verif Require Import Base Scaling_Model.
Import ListNotations.
Local Open Scope R_scope.

Section S.
  Context {St : Type} (f : St -> R -> R -> St -> Prop) (desired accuracy : R) (Inv : St -> Prop) (val : R -> R -> Prop) (A : R -> R).
  Hypothesis Hacc : 0 < accuracy.
  Hypothesis HI : forall st c v st', Inv st -> 0 < c -> f st c v st' -> Inv st' /\ val c v.
  Hypothesis HA : forall x y v v', 0 < x < y -> val x v -> val y v' -> v' - v <= A y - A x.
  Hypothesis HC : forall c, 0 < c -> continuity_pt A c.
  Notation step := (search_step f desired accuracy).
  Notation nxt := (fun b a => step a b).

  Lemma done_acc st r v : Acc nxt (Done st r v).
  Proof. constructor. intros y H. inversion H. Qed.

  (** the binary search *)
  Lemma mid_acc_aux a b eta : 0 < a -> 0 < eta -> (forall x y, a <= x <= b -> a <= y <= b -> Rabs (x - y) < eta -> Rabs (A x - A y) < accuracy) ->
    forall m st lo hi, Inv st -> a <= lo -> lo < hi -> hi <= b -> hi - lo < eta * 2 ^ m -> (exists v, val lo v /\ v <= desired) -> (exists v, val hi v /\ desired <= v) -> Acc nxt (InMid st lo hi).
  Proof.
    intros Ha He HU. induction m as [|m IH]; intros st lo hi I H1 H2 H3 Hm Vl Vh; constructor; intros y Hy.
    - cbn [pow] in Hm. inversion Hy as [| | | |? ? ? v st' Hf Ha0 Hlt|? ? ? v st' Hf Ha0 Hlt|]; subst; try apply done_acc; exfalso.
      + destruct (HI st ((hi + lo) / 2) v st' I ltac:(lra) Hf) as [_ Hv]. destruct Vh as (vh & Hvh & Hd). pose proof (HA ((hi + lo) / 2) hi v vh ltac:(lra) Hv Hvh) as P.
        specialize (HU hi ((hi + lo) / 2) ltac:(lra) ltac:(lra)). rewrite (Rabs_pos_eq (hi - (hi + lo) / 2)) in HU by lra. specialize (HU ltac:(lra)). apply Rabs_def2 in HU.
        rewrite Rabs_left in Ha0 by lra. lra.
      + destruct (HI st ((hi + lo) / 2) v st' I ltac:(lra) Hf) as [_ Hv]. destruct Vl as (vl & Hvl & Hd). pose proof (HA lo ((hi + lo) / 2) vl v ltac:(lra) Hvl Hv) as P.
        specialize (HU ((hi + lo) / 2) lo ltac:(lra) ltac:(lra)). rewrite (Rabs_pos_eq ((hi + lo) / 2 - lo)) in HU by lra. specialize (HU ltac:(lra)). apply Rabs_def2 in HU.
        rewrite Rabs_pos_eq in Ha0 by lra. lra.
    - cbn [pow] in Hm. inversion Hy as [| | | |? ? ? v st' Hf Ha0 Hlt|? ? ? v st' Hf Ha0 Hlt|]; subst; try apply done_acc.
      + destruct (HI st ((hi + lo) / 2) v st' I ltac:(lra) Hf) as [I' Hv]. apply IH; auto; try lra. exists v. split; [exact Hv|lra].
      + destruct (HI st ((hi + lo) / 2) v st' I ltac:(lra) Hf) as [I' Hv]. apply IH; auto; try lra. exists v. split; [exact Hv|lra].
  Qed.
  Lemma mid_acc st lo hi : Inv st -> 0 < lo < hi -> (exists v, val lo v /\ v <= desired) -> (exists v, val hi v /\ desired <= v) -> Acc nxt (InMid st lo hi).
  Proof.
    intros I H Vl Vh.
    destruct (Heine_cor2 (f := A) (a := lo) (b := hi)) with (eps := mkposreal accuracy Hacc) as [[eta Heta] HU].
    { intros x Hx. apply HC. lra. }
    cbn [pos] in HU.
    assert (Hm : exists m : nat, hi - lo < eta * 2 ^ m).
    { destruct (Pow_x_infinity 2) with (b := (hi - lo) / eta + 1) as [m Hm]; [rewrite Rabs_pos_eq; lra|]. exists m. specialize (Hm m (le_n _)). rewrite Rabs_pos_eq in Hm by (apply pow_le; lra).
      apply Rmult_lt_reg_r with (/ eta); [now apply Rinv_0_lt_compat|]. replace (eta * 2 ^ m * / eta) with (2 ^ m) by (field; lra). unfold Rdiv in Hm. lra. }
    destruct Hm as [m Hm]. apply (mid_acc_aux lo hi eta) with (m := m); auto; lra.
  Qed.

  (** the second loop *)
  Hypothesis Hlow : exists c0, 0 < c0 /\ forall c v, 0 < c <= c0 -> val c v -> v <= desired.
  Lemma down_acc st lo hi : Inv st -> 0 < lo < hi -> (exists v, val hi v /\ desired <= v) -> Acc nxt (InDown st lo hi).
  Proof.
    destruct Hlow as (c0 & Hc0 & HL). intros I H Vh.
    assert (Hm : exists m : nat, lo <= c0 * 2 ^ m).
    { destruct (Pow_x_infinity 2) with (b := lo / c0) as [m Hm]; [rewrite Rabs_pos_eq; lra|]. exists m. specialize (Hm m (le_n _)). rewrite Rabs_pos_eq in Hm by (apply pow_le; lra).
      apply Rmult_le_reg_r with (/ c0); [now apply Rinv_0_lt_compat|]. replace (c0 * 2 ^ m * / c0) with (2 ^ m) by (field; lra). unfold Rdiv in Hm. lra. }
    destruct Hm as [m Hm]. revert st lo hi I H Vh Hm. induction m as [|m IH]; intros st lo hi I H Vh Hm; constructor; intros y Hy; inversion Hy as [| |? ? ? v st' Hf Hgt|? ? ? v st' Hf Hgt| | |]; subst;
      match type of Hf with f _ ?c _ _ => destruct (HI st c v st' I ltac:(lra) Hf) as [I' Hv] end.
    - exfalso. cbn in Hm. specialize (HL lo v ltac:(lra) Hv). lra.
    - apply mid_acc; auto. exists v. split; [exact Hv|lra].
    - cbn [pow] in Hm. apply IH; auto; try lra. exists v. split; [exact Hv|lra].
    - apply mid_acc; auto. exists v. split; [exact Hv|lra].
  Qed.

  (** the first loop *)
  Hypothesis Hhigh : exists c1, 0 < c1 /\ forall c v, c1 <= c -> val c v -> desired <= v.
  Theorem search_acc st lo hi : Inv st -> 0 < lo < hi -> Acc nxt (InUp st lo hi).
  Proof.
    destruct Hhigh as (c1 & Hc1 & HL). intros I H.
    assert (Hm : exists m : nat, c1 <= hi * 2 ^ m).
    { destruct (Pow_x_infinity 2) with (b := c1 / hi) as [m Hm]; [rewrite Rabs_pos_eq; lra|]. exists m. specialize (Hm m (le_n _)). rewrite Rabs_pos_eq in Hm by (apply pow_le; lra).
      apply Rmult_le_reg_r with (/ hi); [apply Rinv_0_lt_compat; lra|]. replace (hi * 2 ^ m * / hi) with (2 ^ m) by (field; lra). unfold Rdiv in Hm. lra. }
    destruct Hm as [m Hm]. revert st lo hi I H Hm. induction m as [|m IH]; intros st lo hi I H Hm; constructor; intros y Hy; inversion Hy as [? ? ? v st' Hf Hgt|? ? ? v st' Hf Hgt| | | | |]; subst;
      match type of Hf with f _ ?c _ _ => destruct (HI st c v st' I ltac:(lra) Hf) as [I' Hv] end.
    - exfalso. cbn in Hm. specialize (HL hi v ltac:(lra) Hv). lra.
    - apply down_acc; auto. exists v. split; [exact Hv|lra].
    - cbn [pow] in Hm. apply IH; auto; lra.
    - apply down_acc; auto. exists v. split; [exact Hv|lra].
  Qed.
End S.

(** ** safety: every state met has a step, and what a returned value satisfies *)
Section Safe.
  Context {St : Type} (f : St -> R -> R -> St -> Prop) (desired accuracy : R) (Inv : St -> Prop) (val : R -> R -> Prop).
  Hypothesis HI : forall st c v st', Inv st -> 0 < c -> f st c v st' -> Inv st' /\ val c v.
  Definition st_ok (s : search_state St) : Prop :=
    match s with InUp st lo hi | InDown st lo hi | InMid st lo hi => Inv st /\ 0 < lo < hi
    | Done _ r v => 0 < r /\ val r v /\ Rabs (v - desired) <= accuracy end.
  Lemma step_ok a b : st_ok a -> search_step f desired accuracy a b -> st_ok b.
  Proof.
    intros Ha H. destruct H as [st lo hi v st' Hf H|st lo hi v st' Hf H|st lo hi v st' Hf H|st lo hi v st' Hf H|st lo hi v st' Hf H0 H|st lo hi v st' Hf H0 H|st lo hi v st' Hf H]; cbn in *; destruct Ha as [I Hlh];
    (match type of Hf with f _ ?c _ _ => destruct (HI st c v st' I ltac:(lra) Hf) as [I' Hv] end).
    1-6: split; [assumption|lra].
    split; [lra|]. split; [assumption|lra].
  Qed.
  Lemma run_ok a b : search_run f desired accuracy a b -> st_ok a -> st_ok b.
  Proof. induction 1 as [|a b c Hs _ IH]; intros Ha; [assumption|]. apply IH. eapply step_ok; eassumption. Qed.
  Hypothesis HE : forall st c, Inv st -> 0 < c -> exists v st', f st c v st'.
  Lemma step_exists a : st_ok a -> (exists st r v, a = Done st r v) \/ exists b, search_step f desired accuracy a b.
  Proof.
    destruct a as [st lo hi|st lo hi|st lo hi|st r v]; cbn; intros Ha; [right|right|right|left; eauto]; destruct Ha as [I Hlh].
    - destruct (HE st hi I ltac:(lra)) as (v & st' & Hf). destruct (Rlt_dec v desired); eexists; [eapply up_more|eapply up_done]; eassumption.
    - destruct (HE st lo I ltac:(lra)) as (v & st' & Hf). destruct (Rgt_dec v desired); eexists; [eapply down_more|eapply down_done]; eassumption.
    - destruct (HE st ((hi + lo) / 2) I ltac:(lra)) as (v & st' & Hf). destruct (Rgt_dec (Rabs (v - desired)) accuracy); [|eexists; eapply mid_done; eassumption].
      destruct (Rlt_dec v desired); eexists; [eapply mid_low|eapply mid_high]; eassumption.
  Qed.
  Lemma run_trans a b c : search_run f desired accuracy a b -> search_run f desired accuracy b c -> search_run f desired accuracy a c.
  Proof. induction 1; intros; [assumption|]. econstructor; eauto. Qed.
  (** a value below desired everywhere: the first loop never ends *)
  Lemma never_done : (forall c v, 0 < c -> val c v -> v < desired) -> forall st lo hi b, search_run f desired accuracy (InUp st lo hi) b -> Inv st -> 0 < lo < hi -> exists st' lo' hi', b = InUp st' lo' hi'.
  Proof.
    intros Hb st lo hi b H. remember (InUp st lo hi) as a eqn:Ea. revert st lo hi Ea. induction H as [a|a b c Hs _ IH]; intros st lo hi -> I Hlh; [eauto|].
    inversion Hs as [? ? ? v st' Hf Hlt|? ? ? v st' Hf Hlt| | | | |]; subst; destruct (HI st hi v st' I ltac:(lra) Hf) as [I' Hv].
    - eapply IH; eauto. lra.
    - exfalso. specialize (Hb hi v ltac:(lra) Hv). lra.
  Qed.
End Safe.
