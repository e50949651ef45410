(** The assertions of the lazy sorter over all query histories, and of the search. *)
From Coq Require Import Arith NArith ZArith List Bool Reals Lia Lra Psatz Sorting.Sorted Permutation.
From Flocq Require Import Core.
From Verif Require Import Base Scaling_Model Scaling_Lazy Scaling_Loops Scaling_Thr Scaling_Search Scaling_Inst ScaleDbg_Model.
Import ListNotations.
Local Open Scope R_scope.

Definition full (st : lazy) : Prop := lend st = length (larr st).
Definition linv (ws : list R) (st : lazy) : Prop := lazy_inv ws st /\ (full st -> llow st = dbl_min).

Section L.
  Variable ws : list R.
  Hypothesis V : valid_weights ws.
  Hypothesis Hne : ws <> [].
  Lemma linv_init : linv ws (lazy_init ws).
  Proof. split; [now apply inv_init|]. unfold full, lazy_init. cbn. destruct ws; [congruence|]. discriminate. Qed.
  Lemma linv_step st t k st' : linv ws st -> sort_downto st t k st' -> linv ws st'.
  Proof.
    intros [I F] H. pose proof (query_correct ws st t k st' V I H) as (I' & _). split; [exact I'|].
    unfold sort_downto in H. destruct (Rlt_dec t (llow st)) as [L|L]; [|destruct H as (_ & _ & _ & ->); exact F].
    destruct H as (P & Q & HP & HPt & HQt & HM). assert (EL : length (larr st') = length (larr st)).
    { rewrite (Permutation_length (li_perm _ _ I')), (Permutation_length (li_perm _ _ I)). reflexivity. }
    destruct P as [|p P].
    - destruct HM as [-> ->]. unfold full in *. cbn [larr lend llow] in *. rewrite EL. exact F.
    - destruct HM as (S' & _ & _ & -> & E). unfold full. rewrite EL. subst st'. cbn [lend llow]. intros ->. now rewrite Nat.eqb_refl.
  Qed.
  Lemma linv_low st : linv ws st -> dbl_min <= llow st.
  Proof.
    intros [[IP IE IS IPre ISuf] F]. destruct (Nat.eq_dec (lend st) (length (larr st))) as [E|E]; [rewrite (F E); lra|].
    destruct (skipn (lend st) (larr st)) as [|x l] eqn:Es; [apply (f_equal (@length R)) in Es; rewrite skipn_length in Es; cbn in Es; lia|].
    inversion ISuf as [|? ? Hx _]; subst. apply Rle_trans with x; [|exact Hx]. assert (In x ws).
    { apply (Permutation_in x IP). rewrite <- (firstn_skipn (lend st) (larr st)), Es. apply in_or_app. right. now left. }
    unfold valid_weights in V. rewrite Forall_forall in V. now apply V.
  Qed.
  Lemma sorted_is l : StronglySorted Rge l -> Sorted (fun a b => ~ b > a) l.
  Proof.
    induction 1 as [|x l _ IH Hf]; constructor; [exact IH|]. destruct l; constructor. inversion Hf; subst. lra.
  Qed.
  Lemma sort_fails_iff st t : linv ws st -> sort_fails st t <-> t < dbl_min /\ full st.
  Proof.
    intros [I F]. unfold sort_fails. split.
    - intros [H [E|[_ N]]]; [rewrite (F E) in H; auto|]. exfalso. apply N. apply sorted_is. apply (li_sorted _ _ I).
    - intros [H E]. split; [rewrite (F E); exact H|now left].
  Qed.
  Lemma sort_k st t k st' : linv ws st -> sort_downto st t k st' -> (k <= length (larr st'))%nat /\ (k <= length ws)%nat.
  Proof.
    intros [I _] H. pose proof (query_correct ws st t k st' V I H) as (I' & Q & _ & Hk). split; [pose proof (li_end _ _ I'); lia|apply (qo_k _ _ _ _ Q)].
  Qed.
  Lemma sort_all st t k st' : linv ws st -> t < dbl_min -> sort_downto st t k st' -> full st'.
  Proof.
    intros I Ht H. pose proof (linv_low st I) as HL. pose proof (linv_step _ _ _ _ I H) as [I' _]. destruct I as [I _].
    assert (EL : length (larr st') = length (larr st)) by (rewrite (Permutation_length (li_perm _ _ I')), (Permutation_length (li_perm _ _ I)); reflexivity).
    unfold sort_downto in H. destruct (Rlt_dec t (llow st)) as [L|L]; [|lra]. destruct H as (P & Q & HP & HPt & HQt & HM).
    assert (Q = []).
    { destruct Q as [|x Q]; [reflexivity|]. inversion HQt as [|? ? Hx _]; subst. exfalso. apply Hx. assert (In x ws).
      { apply (Permutation_in x (li_perm _ _ I)). rewrite <- (firstn_skipn (lend st) (larr st)). apply in_or_app. right. apply (Permutation_in x (Permutation_sym HP)). apply in_or_app. right. now left. }
      unfold valid_weights in V. rewrite Forall_forall in V. specialize (V x H). lra. }
    subst Q. pose proof (Permutation_length HP) as E. rewrite app_nil_r, skipn_length in E. pose proof (li_end _ _ I). unfold full. rewrite EL. destruct P as [|p P].
    - destruct HM as [-> ->]. cbn in *. lia.
    - destruct HM as (S' & _ & _ & -> & ->). cbn [lend]. lia.
  Qed.
End L.

Section S.
  Context {St : Type} (f : St -> R -> R -> St -> Prop) (fails : St -> R -> Prop) (desired accuracy : R) (Inv Full : St -> Prop) (val : R -> R -> Prop) (thr : R -> R).
  Hypothesis HI : forall st c v st', Inv st -> 0 < c -> f st c v st' -> Inv st' /\ val c v.
  Hypothesis HE : forall st c, Inv st -> 0 < c -> exists v st', f st c v st'.
  Hypothesis HF : forall st c, Inv st -> 0 < c -> (fails st c <-> thr c < dbl_min /\ Full st).
  Hypothesis Hdec : forall st, Full st \/ ~ Full st.
  Hypothesis HA : forall st c v st', Inv st -> 0 < c -> thr c < dbl_min -> f st c v st' -> Full st'.
  Notation step := (search_step f desired accuracy).
  Notation run := (search_run f desired accuracy).
  Notation drun := (dbg_run f fails desired accuracy).
  Notation dstep := (dbg_step f fails desired accuracy).

  Lemma drun_run a b : drun a b -> run a b.
  Proof. induction 1 as [|a b c [_ H] _ IH]; econstructor; eassumption. Qed.

  (** ** a bound on the arguments of f *)
  Section Safe.
    Variable H : R.
    Hypothesis H2 : 2 <= H.
    Hypothesis Hup : forall c v, 0 < c -> val c v -> v < desired -> 2 * c <= H.
    Hypothesis Hthr : forall c, 0 < c <= H -> dbl_min <= thr c.
    Definition bounded (s : search_state St) : Prop :=
      match s with InUp st lo hi | InDown st lo hi | InMid st lo hi => Inv st /\ 0 < lo < hi /\ hi <= H | Done _ _ _ => True end.
    Lemma bounded_step a b : bounded a -> step a b -> bounded b.
    Proof.
      intros Ha Hs. destruct Hs as [st lo hi v st' Hf Hv|st lo hi v st' Hf Hv|st lo hi v st' Hf Hv|st lo hi v st' Hf Hv|st lo hi v st' Hf Hv0 Hv|st lo hi v st' Hf Hv0 Hv|st lo hi v st' Hf Hv]; cbn in *; [..|exact I]; destruct Ha as (HIn & Hlh & HH);
      (match type of Hf with f _ ?c _ _ => destruct (HI st c v st' HIn ltac:(lra) Hf) as [I' Hv'] end); (split; [assumption|]); (split; [lra|]); try lra.
      specialize (Hup hi v ltac:(lra) Hv' Hv). lra.
    Qed.
    Lemma bounded_run a b : run a b -> bounded a -> bounded b.
    Proof. induction 1 as [|a b c Hs _ IH]; intros Ha; [assumption|]. apply IH. eapply bounded_step; eassumption. Qed.
    Lemma bounded_safe a : bounded a -> ~ aborts fails a.
    Proof.
      intros Ha (st & c & E & Hf). destruct a as [s lo hi|s lo hi|s lo hi|]; cbn in E; try discriminate; injection E as <- <-; destruct Ha as (HIn & Hlh & HH);
      (match type of Hf with fails _ ?c => apply (HF _ c HIn ltac:(lra)) in Hf as [Hf _]; specialize (Hthr c ltac:(lra)); lra end).
    Qed.
    Lemma run_drun a b : run a b -> bounded a -> drun a b.
    Proof. induction 1 as [|a b c Hs _ IH]; intros Ha; [constructor|]. econstructor; [split; [now apply bounded_safe|exact Hs]|]. apply IH. eapply bounded_step; eassumption. Qed.
    Theorem safe_run st b : Inv st -> run (InUp st 1 2) b -> ~ aborts fails b /\ drun (InUp st 1 2) b.
    Proof. intros HIn Hr. assert (B : bounded (InUp st 1 2)) by (cbn; split; [assumption|lra]). split; [apply bounded_safe; eapply bounded_run; eassumption|now apply run_drun]. Qed.
  End Safe.

  (** ** a value below desired everywhere: every run aborts *)
  Section Abort.
    Hypothesis Hbelow : forall c v, 0 < c -> val c v -> v < desired.
    Hypothesis Hsmall : forall c, 0 < c -> exists m : nat, thr (c * 2 ^ m) < dbl_min.
    Hypothesis Hanti : forall x y, 0 < x <= y -> thr y <= thr x.
    Lemma acc_small st lo hi : Inv st -> 0 < lo < hi -> thr hi < dbl_min -> Full st -> Acc (fun b a => dstep a b) (InUp st lo hi).
    Proof.
      intros I Hlh Ht F. constructor. intros y [Hn _]. exfalso. apply Hn. exists st, hi. split; [reflexivity|]. apply HF; auto. lra.
    Qed.
    Lemma acc_small1 st lo hi : Inv st -> 0 < lo < hi -> thr hi < dbl_min -> Acc (fun b a => dstep a b) (InUp st lo hi).
    Proof.
      intros I Hlh Ht. constructor. intros y [Hn Hs]. inversion Hs as [? ? ? v st' Hf Hv|? ? ? v st' Hf Hv| | | | |]; subst; destruct (HI st hi v st' I ltac:(lra) Hf) as [I' Hv'].
      - apply acc_small; auto; [lra| |].
        + pose proof (Hanti hi (hi * 2) ltac:(lra)). lra.
        + eapply (HA st hi); eauto. lra.
      - exfalso. specialize (Hbelow hi v ltac:(lra) Hv'). lra.
    Qed.
    Lemma abort_acc st lo hi : Inv st -> 0 < lo < hi -> Acc (fun b a => dstep a b) (InUp st lo hi).
    Proof.
      intros I Hlh. destruct (Hsmall hi ltac:(lra)) as [m Hm]. revert st lo hi I Hlh Hm. induction m as [|m IH]; intros st lo hi I Hlh Hm.
      - apply acc_small1; auto. cbn in Hm. now rewrite Rmult_1_r in Hm.
      - constructor. intros y [Hn Hs]. inversion Hs as [? ? ? v st' Hf Hv|? ? ? v st' Hf Hv| | | | |]; subst; destruct (HI st hi v st' I ltac:(lra) Hf) as [I' Hv'].
        + apply IH; auto; [lra|]. cbn [pow] in Hm. replace (hi * 2 * 2 ^ m) with (hi * (2 * 2 ^ m)) by ring. exact Hm.
        + exfalso. specialize (Hbelow hi v ltac:(lra) Hv'). lra.
    Qed.
    Definition up_ok (s : search_state St) : Prop := match s with InUp st lo hi => Inv st /\ 0 < lo < hi | _ => False end.
    Lemma up_step a b : up_ok a -> step a b -> up_ok b.
    Proof.
      intros Ha Hs. destruct a as [st lo hi| | |]; cbn in Ha; try contradiction. destruct Ha as [I Hlh]. inversion Hs as [? ? ? v st' Hf Hv|? ? ? v st' Hf Hv| | | | |]; subst; destruct (HI st hi v st' I ltac:(lra) Hf) as [I' Hv'].
      - cbn. split; [exact I'|lra].
      - exfalso. specialize (Hbelow hi v ltac:(lra) Hv'). lra.
    Qed.
    Lemma up_run a b : drun a b -> up_ok a -> up_ok b.
    Proof. induction 1 as [|a b c [_ Hs] _ IH]; intros Ha; [assumption|]. apply IH. eapply up_step; eassumption. Qed.
    Lemma up_progress a : up_ok a -> aborts fails a \/ exists b, dstep a b.
    Proof.
      intros Ha. destruct a as [st lo hi| | |]; cbn in Ha; try contradiction. destruct Ha as [I Hlh].
      assert (D : fails st hi \/ ~ fails st hi).
      { rewrite (HF st hi I ltac:(lra)). destruct (Hdec st); [|tauto]. destruct (Rlt_dec (thr hi) dbl_min); tauto. }
      destruct D as [D|D]; [left; exists st, hi; auto|right]. destruct (HE st hi I ltac:(lra)) as (v & st' & Hf). destruct (HI st hi v st' I ltac:(lra) Hf) as [_ Hv].
      exists (InUp st' hi (hi * 2)). split; [intros (s & c & E & Hc); cbn in E; injection E as <- <-; contradiction|]. eapply up_more; [exact Hf|]. apply Hbelow with hi; [lra|exact Hv].
    Qed.
    Lemma drun_trans a b c : drun a b -> drun b c -> drun a c.
    Proof. induction 1; intros; [assumption|]. econstructor; eauto. Qed.
    Theorem abort_reached a : up_ok a -> Acc (fun b a => dstep a b) a -> exists b, drun a b /\ aborts fails b.
    Proof.
      intros Ha HA'. revert Ha. induction HA' as [a _ IH]; intros Ha. destruct (up_progress a Ha) as [D|(b & Hb)]; [exists a; split; [constructor|exact D]|].
      destruct (IH b Hb) as (c & Hc & D); [eapply up_step; [exact Ha|apply Hb]|]. exists c. split; [econstructor; eassumption|exact D].
    Qed.
  End Abort.
End S.
