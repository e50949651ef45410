(** The recursion of SpatialTree and its division among threads: which calls are made. *)
From Coq Require Import Arith NArith ZArith List Bool Reals Permutation Lia Lra.
From Flocq Require Import Core.
From Verif Require Import Base Sched Bits_Model Bits_Proofs Coord_Model Coord_Proofs Coord_Geo IntSort_Model Prefix_Model
  Tree_Model Cover Tree_Proofs.
Import ListNotations.
Local Open Scope N_scope.

Lemma omap_map {A B} (f : A -> option B) (g : A -> B) L : (forall x, In x L -> f x = Some (g x)) -> omap f L = Some (map g L).
Proof.
  induction L as [|a L IH]; intros H; [reflexivity|]. cbn [omap map]. rewrite (H a) by now left. cbn [obind].
  rewrite IH; [reflexivity|]. intros; apply H; now right.
Qed.
Lemma flat_map_filter {A B} (p : B -> bool) (f : A -> list B) L : filter p (flat_map f L) = flat_map (fun x => filter p (f x)) L.
Proof. induction L as [|a L IH]; cbn [flat_map filter]; auto. now rewrite filter_app, IH. Qed.
Lemma flat_map_ext_in {A B} (f g : A -> list B) L : (forall x, In x L -> f x = g x) -> flat_map f L = flat_map g L.
Proof. induction L as [|a L IH]; intros H; cbn [flat_map]; auto. rewrite (H a) by now left. f_equal. apply IH. intros; apply H; now right. Qed.
Lemma flat_map_Permutation {A B} (f g : A -> list B) L : (forall x, In x L -> Permutation (f x) (g x)) ->
  Permutation (flat_map f L) (flat_map g L).
Proof.
  induction L as [|a L IH]; intros H; cbn [flat_map]; auto. apply Permutation_app; [apply H; now left|]. apply IH. intros; apply H; now right.
Qed.
Lemma flat_map_perm_list {A B} (f : A -> list B) L L' : Permutation L L' -> Permutation (flat_map f L) (flat_map f L').
Proof.
  induction 1; cbn [flat_map]; auto.
  - now apply Permutation_app_head.
  - apply Permutation_app_swap_app.
  - etransitivity; eauto.
Qed.
Lemma filter_Permutation {A} (p : A -> bool) L L' : Permutation L L' -> Permutation (filter p L) (filter p L').
Proof.
  induction 1; cbn [filter]; auto.
  - destruct (p x); auto.
  - destruct (p x), (p y); auto. constructor.
  - etransitivity; eauto.
Qed.
Lemma filter_true {A} (p : A -> bool) L : (forall x, In x L -> p x = true) -> filter p L = L.
Proof. induction L as [|a L IH]; intros H; cbn [filter]; auto. rewrite (H a) by now left. f_equal. apply IH. intros; apply H; now right. Qed.
Lemma filter_none {A} (p : A -> bool) L : (forall x, In x L -> p x = false) -> filter p L = [].
Proof. induction L as [|a L IH]; intros H; cbn [filter]; auto. rewrite (H a) by now left. apply IH. intros; apply H; now right. Qed.
(** sorting into buckets keeps everything *)
Lemma group_perm {A} (key : A -> nat) L : forall n b, (forall x, In x L -> (b <= key x < b + n)%nat) ->
  Permutation (flat_map (fun i => filter (fun x => (key x =? i)%nat) L) (seq b n)) L.
Proof.
  intros n. revert L. induction n as [|n IH]; intros L b H; cbn [seq flat_map].
  - destruct L as [|a L]; auto. specialize (H a (or_introl eq_refl)). lia.
  - assert (P : forall L' : list A, Permutation (filter (fun x => (key x =? b)%nat) L' ++ filter (fun x => negb (key x =? b)%nat) L') L').
    { induction L' as [|a L' IHL]; cbn [filter]; auto. destruct (key a =? b)%nat; cbn [negb app]; auto.
      rewrite <- Permutation_middle. now constructor. }
    etransitivity; [|apply (P L)]. apply Permutation_app_head.
    etransitivity; [|apply (IH (filter (fun x => negb (key x =? b)%nat) L) (S b))].
    + apply flat_map_Permutation. intros i Hi. apply in_seq in Hi. 
      assert (E : filter (fun x => (key x =? i)%nat) (filter (fun x => negb (key x =? b)%nat) L) = filter (fun x => (key x =? i)%nat) L).
      { clear -Hi. induction L as [|a L IHL]; cbn [filter]; auto. destruct (Nat.eqb_spec (key a) b); cbn [negb filter].
        - destruct (Nat.eqb_spec (key a) i); [lia|]. auto.
        - now rewrite IHL. }
      now rewrite E.
    + intros x Hx. apply filter_In in Hx as [Hx Hk]. specialize (H x Hx). destruct (Nat.eqb_spec (key x) b); [discriminate|lia].
Qed.

Section Plan.
  Variables (cfg : config) (D : N) (P : tparams) (alpha : alphaT).
  Notation c := (p_c P).
  Hypotheses (HD : dim_ok D) (Hc : (c <= 30)%Z) (Hlev : p_levels P = base_level D c 0 0 + 1).
  Definition touchb (A B l : N) : bool := match touching cfg D A B l with Some b => b | None => false end.
  Definition kidsb (A : N) : list N := Nrange (firstChild D A) (lastChild D A).
  Definition plan : nat -> N -> N -> N -> list call :=
    gplan (p_layers P) (p_levels P) (base_level D c) touchb (child_pairs D).
  Definition seqplan : N -> nat -> N -> N -> N -> list call * list (N * N) :=
    gseq (p_layers P) (p_levels P) (base_level D c) touchb (child_pairs D).
  Definition keep (x : call) : bool := isI x || negb (ndebug cfg && is_inf alpha).

  Lemma level_bound l : l < p_levels P -> D * l <= 28 /\ l <= 28.
  Proof.
    intros H. rewrite Hlev in H. pose proof (base_bound D c HD 0 0) as B.
    assert (D * l <= D * base_level D c 0 0) by (apply N.mul_le_mono_l; lia).
    assert (D * l <= 28) by lia. split; [assumption|]. unfold dim_ok in HD. nia.
  Qed.
  Lemma touching_Some A B l : l < p_levels P -> in_level D l A -> in_level D l B -> touching cfg D A B l = Some (touchb A B l).
  Proof. intros Hl HA HB. unfold touchb. destruct (level_bound l Hl). rewrite touching_eq by (auto; lia). reflexivity. Qed.

  Lemma kids_In A l a : l + 1 < p_levels P -> in_level D l A -> In a (kidsb A) <-> is_child D A a.
  Proof.
    intros Hl HA. destruct (level_bound _ Hl) as [H1 _]. unfold kidsb. rewrite Nrange_In.
    rewrite (firstChild_eq D l), (lastChild_eq D l) by (auto; lia). reflexivity.
  Qed.
  Lemma Nrange_filter a lo hi : lo <= a -> Nrange a hi = filter (fun b => a <=? b) (Nrange lo hi).
  Proof.
    intros H. unfold Nrange. destruct (N.le_gt_cases a (hi + 1)) as [L|L].
    - replace (N.to_nat (hi + 1 - lo)) with (N.to_nat (a - lo) + N.to_nat (hi + 1 - a))%nat by lia.
      rewrite seq_app, map_app, filter_app, filter_none, filter_true.
      + cbn [app]. rewrite Nat.add_0_l.
        replace (N.to_nat (a - lo)) with (0 + N.to_nat (a - lo))%nat by lia.
        generalize 0%nat as s. generalize (N.to_nat (hi + 1 - a)) as k. induction k as [|k IH]; intros s; cbn [seq map]; auto.
        f_equal; [lia|]. apply IH.
      + intros x Hx. apply in_map_iff in Hx as (k & <- & Hk). apply in_seq in Hk. apply N.leb_le. lia.
      + intros x Hx. apply in_map_iff in Hx as (k & <- & Hk). apply in_seq in Hk. apply N.leb_gt. lia.
    - replace (N.to_nat (hi + 1 - a)) with 0%nat by lia. cbn [seq map]. symmetry. apply filter_none.
      intros x Hx. apply in_map_iff in Hx as (k & <- & Hk). apply in_seq in Hk. apply N.leb_gt. lia.
  Qed.
  Lemma flat_map_prod {X Y} (LA : list X) (LB : list Y) : flat_map (fun a => map (fun b => (a, b)) LB) LA = list_prod LA LB.
  Proof. induction LA as [|a LA IH]; cbn [flat_map list_prod]; auto. now rewrite IH. Qed.
  Lemma child_pairs_eq A B : child_pairs D A B =
    if A =? B then filter (fun ab => fst ab <=? snd ab) (list_prod (kidsb A) (kidsb A)) else list_prod (kidsb A) (kidsb B).
  Proof.
    unfold child_pairs. destruct (N.eqb_spec A B) as [<-|HN]; [|apply flat_map_prod].
    rewrite <- flat_map_prod, flat_map_filter. apply flat_map_ext_in. intros a Ha.
    apply Nrange_In in Ha. rewrite (Nrange_filter a (firstChild D A)) by lia.
    unfold kidsb. generalize (Nrange (firstChild D A) (lastChild D A)) as L. induction L as [|b L IH]; cbn [filter map fst snd]; auto.
    destruct (a <=? b); cbn [map]; now rewrite IH.
  Qed.
  Lemma child_pairs_perm A B : Permutation (child_pairs D A B)
    (if A =? B then filter (fun ab => fst ab <=? snd ab) (list_prod (kidsb A) (kidsb A)) else list_prod (kidsb A) (kidsb B)).
  Proof. rewrite child_pairs_eq. reflexivity. Qed.
  Lemma child_pairs_In A B l ab : l + 1 < p_levels P -> in_level D l A -> in_level D l B -> In ab (child_pairs D A B) ->
    in_level D (l + 1) (fst ab) /\ in_level D (l + 1) (snd ab).
  Proof.
    intros Hl HA HB H. rewrite child_pairs_eq in H. destruct ab as [a b]. cbn [fst snd].
    assert (K : forall X x, in_level D l X -> In x (kidsb X) -> in_level D (l + 1) x).
    { intros X x HX Hx. apply (child_in_level D l X x HD HX). now apply (kids_In X l x Hl HX). }
    destruct (N.eqb_spec A B) as [<-|HN]; [apply filter_In in H as [H _]|]; apply in_prod_iff in H as [H1 H2]; split; eauto.
  Qed.

  Lemma near_keep A B l : filter keep (near_calls D P A B l) = near_calls D P A B l.
  Proof.
    apply filter_true. intros x Hx. unfold near_calls in Hx. apply in_flat_map in Hx as (ij & _ & Hx).
    destruct (negb (A =? B) || (fst ij <=? snd ij)%nat); [|destruct Hx]. destruct Hx as [<-|[]]. reflexivity.
  Qed.
  Lemma far_keep A B l : filter keep (far_calls D P A B l) = if ndebug cfg && is_inf alpha then [] else far_calls D P A B l.
  Proof.
    assert (H : forall x, In x (far_calls D P A B l) -> keep x = negb (ndebug cfg && is_inf alpha)).
    { intros x Hx. unfold far_calls in Hx. apply in_flat_map in Hx as (l' & _ & Hx). apply in_map_iff in Hx as (ij & <- & _). reflexivity. }
    destruct (ndebug cfg && is_inf alpha).
    - apply filter_none. intros x Hx. now rewrite (H x Hx).
    - apply filter_true. intros x Hx. now rewrite (H x Hx).
  Qed.

  Lemma visit_eq : forall k fuel A B l, l < p_levels P -> k = N.to_nat (p_levels P - 1 - l) -> (k <= fuel)%nat ->
    in_level D l A -> in_level D l B ->
    visit cfg D P alpha fuel A B l = Some (filter keep (plan k A B l)).
  Proof.
    induction k as [|k IH]; intros fuel A B l Hl Hk Hf HA HB; destruct fuel as [|f]; try lia;
      cbn [visit plan gplan]; rewrite touching_Some by assumption; cbn [obind]; fold touchb; unfold plan; cbn [gplan];
      destruct (touchb A B l); cbn [negb]; try (change (gfar (p_layers P) (p_levels P) (base_level D c) A B l) with (far_calls D P A B l); now rewrite far_keep).
    - destruct (N.eqb_spec l (p_levels P - 1)); [|lia]. rewrite app_nil_r.
      change (gnear (p_layers P) (base_level D c) A B l) with (near_calls D P A B l). now rewrite near_keep.
    - destruct (N.eqb_spec l (p_levels P - 1)); [|lia]. rewrite app_nil_r.
      change (gnear (p_layers P) (base_level D c) A B l) with (near_calls D P A B l). now rewrite near_keep.
    - destruct (N.eqb_spec l (p_levels P - 1)); [lia|].
      rewrite (omap_map _ (fun ab => filter keep (plan k (fst ab) (snd ab) (l + 1)))).
      + cbn [obind]. rewrite filter_app, flat_map_filter.
        change (gnear (p_layers P) (base_level D c) A B l) with (near_calls D P A B l). rewrite near_keep.
        rewrite flat_map_concat_map. reflexivity.
      + intros ab Hab. destruct (child_pairs_In A B l ab ltac:(lia) HA HB Hab). apply IH; auto; lia.
  Qed.

  Lemma seq_eq fpl : forall k fuel A B l, l < p_levels P -> k = N.to_nat (p_levels P - 1 - l) -> (k <= fuel)%nat ->
    in_level D l A -> in_level D l B ->
    seq_start cfg D P alpha fpl fuel A B l = Some (filter keep (fst (seqplan fpl k A B l)), snd (seqplan fpl k A B l)).
  Proof.
    induction k as [|k IH]; intros fuel A B l Hl Hk Hf HA HB; destruct fuel as [|f]; try lia;
      cbn [seq_start]; rewrite touching_Some by assumption; cbn [obind]; unfold seqplan; cbn [gseq];
      destruct (touchb A B l); cbn [negb fst snd]; try (change (gfar (p_layers P) (p_levels P) (base_level D c) A B l) with (far_calls D P A B l); now rewrite far_keep).
    - destruct (N.eqb_spec l (p_levels P - 1)); [|lia].
      change (gnear (p_layers P) (base_level D c) A B l) with (near_calls D P A B l). now rewrite near_keep.
    - destruct (N.eqb_spec l (p_levels P - 1)); [|lia].
      change (gnear (p_layers P) (base_level D c) A B l) with (near_calls D P A B l). now rewrite near_keep.
    - destruct (N.eqb_spec l (p_levels P - 1)); [lia|].
      rewrite (omap_map _ (fun ab => if l + 1 =? fpl then ([], [ab])
         else (filter keep (fst (seqplan fpl k (fst ab) (snd ab) (l + 1))), snd (seqplan fpl k (fst ab) (snd ab) (l + 1))))).
      + cbn [obind]. f_equal. rewrite !map_map. f_equal.
        * rewrite filter_app. change (gnear (p_layers P) (base_level D c) A B l) with (near_calls D P A B l). rewrite near_keep. f_equal.
          rewrite <- !flat_map_concat_map, flat_map_filter. apply flat_map_ext. intros ab. fold seqplan.
          destruct (l + 1 =? fpl); reflexivity.
        * rewrite <- !flat_map_concat_map. apply flat_map_ext. intros ab. fold seqplan. destruct (l + 1 =? fpl); reflexivity.
      + intros ab Hab. destruct (child_pairs_In A B l ab ltac:(lia) HA HB Hab). destruct (N.eqb_spec (l + 1) fpl); [reflexivity|].
        apply IH; auto; lia.
  Qed.

  Lemma pushes_level fpl : forall k A B l, l < p_levels P -> k = N.to_nat (p_levels P - 1 - l) -> l < fpl ->
    in_level D l A -> in_level D l B -> forall ab, In ab (snd (seqplan fpl k A B l)) ->
    in_level D fpl (fst ab) /\ in_level D fpl (snd ab) /\ fpl < p_levels P.
  Proof.
    induction k as [|k IH]; intros A B l Hl Hk Hfp HA HB ab; unfold seqplan; cbn [gseq]; destruct (touchb A B l); cbn [negb snd]; try (intros []; fail).
    rewrite map_map, <- flat_map_concat_map. intros H. apply in_flat_map in H as (xy & Hxy & H).
    destruct (child_pairs_In A B l xy ltac:(lia) HA HB Hxy) as [Hx Hy]. fold seqplan in H.
    destruct (N.eqb_spec (l + 1) fpl) as [E|E].
    - cbn [snd] in H. destruct H as [<-|[]]. rewrite <- E. repeat split; auto; try apply Hx; try apply Hy. lia.
    - revert H. apply IH; auto; lia.
  Qed.

  Lemma root_level : in_level D 0 0.
  Proof. split; [rewrite fc_0; lia|]. change (0 + 1) with (0 + 1). rewrite fc_succ, fc_0, N.mul_0_r by exact HD. cbn. lia. Qed.

  Definition full_plan : list call := filter keep (plan (N.to_nat (p_levels P - 1)) 0 0 0).

  Lemma par_eq fpl pushes team : team <> O -> D * fpl < 32 ->
    (forall ab, In ab pushes -> in_level D fpl (fst ab) /\ in_level D fpl (snd ab) /\ fpl < p_levels P) ->
    exists par, par_calls cfg D P alpha fpl pushes team = Some par /\ length par = team /\
      Permutation (concat par) (flat_map (fun ab => filter keep (plan (N.to_nat (p_levels P - 1 - fpl)) (fst ab) (snd ab) fpl)) pushes).
  Proof.
    intros Ht Hf Hp. unfold par_calls. rewrite numCellsInLevel_Some by exact Hf. cbn [obind].
    rewrite firstCellOfLevel_Some by exact Hf. cbn [obind]. set (cells := 2 ^ (D * fpl)) in *. set (first := fc D fpl) in *.
    assert (Hr : forall ab, In ab pushes -> first <= fst ab < first + cells).
    { intros ab H. destruct (Hp ab H) as ([H1 H2] & _). rewrite fc_succ in H2 by exact HD. fold cells in H2. fold first in H1, H2. lia. }
    assert (Hb : forallb (fun ab => (first <=? fst ab) && (fst ab <? first + cells)) pushes = true).
    { apply forallb_forall. intros ab H. specialize (Hr ab H). apply andb_true_intro. split; [apply N.leb_le|apply N.ltb_lt]; lia. }
    rewrite Hb. cbn [negb].
    set (body := fun ab : N * N => filter keep (plan (N.to_nat (p_levels P - 1 - fpl)) (fst ab) (snd ab) fpl)).
    set (mine := fun i => filter (fun ab : N * N => fst ab =? first + N.of_nat i) pushes).
    rewrite (omap_map _ (fun blk => concat (concat (map (fun i => map body (mine i)) blk)))).
    2:{ intros blk _. rewrite (omap_map _ (fun i => map body (mine i))); [reflexivity|]. intros i _.
        apply omap_map. intros ab Hab. unfold mine in Hab. apply filter_In in Hab as [Hab E]. apply N.eqb_eq in E. rewrite <- E.
        destruct (Hp ab Hab) as (H1 & H2 & H3). apply visit_eq; auto. lia. }
    eexists. split; [reflexivity|]. split. { rewrite map_length. unfold static_split. now rewrite map_length, seq_length. }
    assert (E1 : concat (map (fun blk => concat (concat (map (fun i => map body (mine i)) blk))) (static_split (seq 0 (N.to_nat cells)) team))
      = flat_map (fun i => flat_map body (mine i)) (seq 0 (N.to_nat cells))).
    { rewrite <- (static_split_concat (seq 0 (N.to_nat cells)) team Ht) at 2. generalize (static_split (seq 0 (N.to_nat cells)) team) as L.
      induction L as [|blk L IH]; cbn [map concat]; auto. rewrite flat_map_app, IH. f_equal. clear.
      induction blk as [|i blk IH]; cbn [map concat flat_map]; auto. rewrite concat_app, IH. f_equal. symmetry. apply flat_map_concat_map. }
    rewrite E1. clear E1.
    assert (E2 : forall L, flat_map (fun i => flat_map body (mine i)) L = flat_map body (flat_map mine L)).
    { clear. induction L as [|i L IH]; cbn [flat_map]; auto. now rewrite IH, flat_map_app. }
    rewrite E2. apply flat_map_perm_list.
    pose proof (group_perm (fun ab : N * N => N.to_nat (fst ab - first)) pushes (N.to_nat cells) 0) as G.
    etransitivity; [|apply G; intros ab Hab; specialize (Hr ab Hab); lia].
    apply flat_map_Permutation. intros i _. unfold mine.
    assert (E3 : filter (fun ab => fst ab =? first + N.of_nat i) pushes = filter (fun x => (N.to_nat (fst x - first) =? i)%nat) pushes).
    { apply filter_ext_in. intros ab Hab. specialize (Hr ab Hab).
      destruct (N.eqb_spec (fst ab) (first + N.of_nat i)), (Nat.eqb_spec (N.to_nat (fst ab - first)) i); auto; lia. }
    now rewrite E3.
  Qed.

  Definition fpl_ok (E : fenv) (num_threads : nat) : Prop :=
    (num_threads = 1)%nat \/ exists fpl, first_parallel_level E D num_threads = Some fpl /\ 0 < fpl /\ D * fpl < 32.

  Theorem thread_calls_ok E num_threads team : fpl_ok E num_threads -> (1 <= team <= num_threads)%nat ->
    exists calls, thread_calls E cfg D P alpha num_threads team = Some calls /\ (1 <= length calls <= num_threads)%nat /\
      Permutation (concat calls) full_plan.
  Proof.
    intros Hf Ht. unfold thread_calls. pose proof root_level as HR.
    destruct (Nat.eqb_spec num_threads 1) as [E1|E1].
    - rewrite (visit_eq (N.to_nat (p_levels P - 1))) by (auto; lia). cbn [obind]. eexists. split; [reflexivity|].
      split; [cbn; lia|]. cbn [concat]. rewrite app_nil_r. reflexivity.
    - destruct Hf as [Hf|(fpl & Ef & Hp & Hb)]; [contradiction|]. rewrite Ef. cbn [obind].
      rewrite (seq_eq fpl (N.to_nat (p_levels P - 1))) by (auto; lia). cbn [obind].
      set (sp := seqplan fpl (N.to_nat (p_levels P - 1)) 0 0 0).
      destruct (par_eq fpl (snd sp) team ltac:(lia) Hb) as (par & Epar & Lpar & Hpar).
      { apply pushes_level; auto; lia. }
      rewrite Epar. cbn [obind]. eexists. split; [reflexivity|].
      assert (HP : Permutation full_plan (filter keep (fst sp) ++ concat par)).
      { rewrite Hpar. unfold full_plan. rewrite <- flat_map_filter, <- filter_app. apply filter_Permutation.
        unfold sp, seqplan, plan. apply gseq_partition; lia. }
      destruct par as [|p0 r]; [cbn in Lpar; lia|]. split; [cbn [length] in *; lia|].
      cbn [concat] in *. rewrite <- app_assoc. now symmetry.
  Qed.
End Plan.
