(** Property C77: time and memory of the hyperbolic recursion, whatever the points. *)
From Coq Require Import Arith NArith ZArith List Bool Reals Permutation Lia Lra Psatz.
From Flocq Require Import Core.
From Verif Require Import Base Sched Bits_Proofs Coord_Model Coord_Proofs Coord_Geo Prop_Prefix Tree_Model Cover Tree_Proofs Tree_Plan Tree_Run Girg_Model Girg_Num Prop_Girg
  GirgCost_Model GirgCost_Proofs GirgCost_Count Hyp_Model Hyp_Math Hyp_Angle Hyp_Levels Hyp_Build Hyp_Run Hyp_Sched Hyp_Threads Hyp_Gen Prop_Hyp HypWork_Model HypWork_Proofs.
Import ListNotations.
Local Open Scope R_scope.

(** ** Proofs *)
Lemma sumR_nil : sumR [] = 0. Proof. reflexivity. Qed.
Lemma sumR_cons a L : sumR (a :: L) = a + sumR L. Proof. reflexivity. Qed.
Lemma INR_pw2 l : INR (pw2 (N.to_nat l)) = pow2R l.
Proof. rewrite pw2_N, INR_IZR_INZ. unfold pow2R. f_equal. lia. Qed.
Lemma INR_list_sum {A} (f : A -> nat) (g : A -> R) L : (forall x, In x L -> INR (f x) <= g x) -> INR (list_sum (map f L)) <= sumR (map g L).
Proof.
  induction L as [|a L IH]; intros H; [apply Rle_refl|]. cbn [map]. rewrite list_sum_cons, plus_INR, sumR_cons. apply Rplus_le_compat; [apply H; now left|apply IH; intros; apply H; now right].
Qed.
Lemma sumR_prod (q : nat -> R) I J : sumR (map (fun ij => q (fst ij) * q (snd ij)) (list_prod I J)) = sumR (map q I) * sumR (map q J).
Proof.
  induction I as [|i I IH]; [cbn [list_prod map]; rewrite !sumR_nil; ring|]. cbn [list_prod map]. rewrite map_app, map_map. cbn [fst snd].
  assert (A : forall X Y, sumR (X ++ Y) = sumR X + sumR Y) by (induction X as [|x X IHX]; intros Y; cbn [app]; rewrite ?sumR_nil, ?sumR_cons; [ring|rewrite IHX; ring]).
  rewrite A, IH. assert (B : sumR (map (fun x => q i * q x) J) = q i * sumR (map q J)) by (clear; induction J as [|j J IHJ]; cbn [map]; rewrite ?sumR_nil, ?sumR_cons; [ring|rewrite IHJ; ring]).
  rewrite B, sumR_cons. ring.
Qed.
Definition qd (i : nat) : R := exp (- (INR i / 4)).
Lemma qd_sum m : sumR (map qd (seq 0 m)) <= 32 / 7.
Proof.
  assert (Q : exp (- (1 / 4)) <= 25 / 32).
  { pose proof e_bounds as [E _]. set (x := exp (1 / 4)). assert (X0 : 0 < x) by apply exp_pos. assert (X4 : x * x * (x * x) = exp 1) by (unfold x; rewrite <- !exp_plus; f_equal; field).
    assert (X : 32 / 25 <= x). { apply Rnot_lt_le. intros L. assert (x * x < 32 / 25 * (32 / 25)) by nra. assert (x * x * (x * x) < 32 / 25 * (32 / 25) * (32 / 25 * (32 / 25))) by nra. lra. }
    rewrite exp_Ropp. fold x. apply Rmult_le_reg_r with x; [exact X0|]. rewrite Rinv_l by lra. nra. }
  assert (G : forall k b, sumR (map qd (seq b k)) <= 32 / 7 * qd b).
  { induction k as [|k IH]; intros b; cbn [seq map]; rewrite ?sumR_nil, ?sumR_cons; [unfold qd; pose proof (exp_pos (- (INR b / 4))); lra|]. specialize (IH (S b)).
    assert (E : qd (S b) = exp (- (1 / 4)) * qd b) by (unfold qd; rewrite S_INR, <- exp_plus; f_equal; field). rewrite E in IH. assert (0 < qd b) by apply exp_pos. nra. }
  specialize (G m 0%nat). unfold qd in G at 2. change (INR 0) with 0 in G. replace (- (0 / 4)) with 0 in G by field. rewrite exp_0 in G. lra.
Qed.
Section Tree.
  Context {radii angles : list R} {T Rd : R} (DI : disc_input radii angles Rd) {t : htree} {ord : list nat} (TS : htree_spec radii angles T Rd t ord).
  Lemma w_31 : (h_levels t <= 31)%N.
  Proof. pose proof (levels_pos radii angles T Rd t ord TS). pose proof (hlevel_bound radii angles T Rd DI t ord TS (h_levels t - 1) ltac:(lia)). lia. Qed.
  Lemma w_pos : (0 < h_levels t)%N. Proof. apply (levels_pos radii angles T Rd t ord TS). Qed.
  Lemma w_base i j : (i < h_layers t)%nat -> (j < h_layers t)%nat -> (base Rd i j < h_levels t)%N.
  Proof. intros Hi Hj. apply (hbase_ok radii angles T Rd DI t ord TS i j Hi Hj). Qed.
  Lemma w_L : INR (pw2 (N.to_nat (h_levels t - 1))) <= 5 / 3 * exp (Rd / 2).
  Proof.
    rewrite INR_pw2. rewrite (hs_levels _ _ _ _ _ _ TS). replace (lev Rd 0 + 1 - 1)%N with (lev Rd 0) by lia. destruct (lev_spec Rd 0 (di_R _ _ _ DI)) as (_ & B & _); [pose proof (di_R _ _ _ DI); change (INR 0) with 0; lra|].
    change (INR 0) with 0 in B. now rewrite Rminus_0_r in B.
  Qed.
  Lemma w_sum : INR (list_sum (map (fun ij => pw2 (N.to_nat (base Rd (fst ij) (snd ij)))) (list_prod (seq 0 (h_layers t)) (seq 0 (h_layers t))))) <= 35 * exp (Rd / 2).
  Proof.
    eapply Rle_trans; [apply (INR_list_sum _ (fun ij => (5 / 3 * exp (Rd / 2)) * (qd (fst ij) * qd (snd ij))))|].
    - intros [i j] I. apply in_prod_iff in I as [I J]. apply in_seq in I, J. cbn [fst snd]. destruct (hbase_ok radii angles T Rd DI t ord TS i j ltac:(lia) ltac:(lia)) as (B1 & B2 & _).
      assert (HL : forall k, (k < h_layers t)%nat -> pow2R (lev Rd k) <= 5 / 3 * exp ((Rd - INR k) / 2)).
      { intros k Hk. apply lev_spec; [apply (di_R _ _ _ DI)|]. apply (lt_hm radii angles Rd DI). pose proof (hs_layers _ _ _ _ _ _ TS). lia. }
      assert (MONO : forall a b, (a <= b)%N -> pow2R a <= pow2R b) by (intros a b H; unfold pow2R; apply IZR_le, N2Z.inj_le, N.pow_le_mono_r; lia).
      rewrite INR_pw2. unfold qd. replace (5 / 3 * exp (Rd / 2) * (exp (- (INR i / 4)) * exp (- (INR j / 4)))) with (5 / 3 * exp (Rd / 2 - (INR i + INR j) / 4)) by (rewrite Rmult_assoc, <- !exp_plus; do 2 f_equal; field).
      destruct (Rle_lt_dec (INR i) (INR j)) as [L|L].
      + eapply Rle_trans; [apply MONO, B2|]. eapply Rle_trans; [apply HL; lia|]. apply Rmult_le_compat_l; [lra|]. apply exp_le. lra.
      + eapply Rle_trans; [apply MONO, B1|]. eapply Rle_trans; [apply HL; lia|]. apply Rmult_le_compat_l; [lra|]. apply exp_le. lra.
    - assert (B : forall (X : list (nat * nat)) k f, sumR (map (fun x => k * f x) X) = k * sumR (map f X)) by (induction X as [|x X IHX]; intros k f; cbn [map]; rewrite ?sumR_nil, ?sumR_cons; [ring|rewrite IHX; ring]).
      rewrite B, sumR_prod. pose proof (qd_sum (h_layers t)) as Q. set (s := sumR _) in *. assert (S0 : 0 <= s). { unfold s. generalize (seq 0 (h_layers t)) as X. induction X as [|x X IHX]; cbn [map]; rewrite ?sumR_nil, ?sumR_cons; [lra|]. assert (0 < qd x) by apply exp_pos. lra. }
      pose proof (exp_pos (Rd / 2)). assert (s * s <= 32 / 7 * (32 / 7)) by nra. nra.
  Qed.
  Lemma w_visits : INR (length (hvplan (N.to_nat (h_levels t - 1)) 0 0 0)) <= 20 * exp (Rd / 2).
  Proof. pose proof (hvisits_bound t w_31 w_pos) as H. apply le_INR in H. rewrite mult_INR in H. replace (INR 12) with 12 in H by (cbn; lra). pose proof w_L. lra. Qed.
  Lemma w_steps skip : INR (list_sum (map (hvis_steps skip t) (hvplan (N.to_nat (h_levels t - 1)) 0 0 0))) <= 480 * exp (Rd / 2).
  Proof.
    pose proof (hsteps_bound t w_31 w_pos skip (h_layers t) (base Rd) (pairs_eq radii angles T Rd DI t ord TS) w_base) as H. apply le_INR in H. rewrite plus_INR, !mult_INR in H. pose proof w_L. pose proof w_sum.
    replace (INR 36) with 36 in H by (cbn; lra). replace (INR 12) with 12 in H by (cbn; lra). lra.
  Qed.
End Tree.
Lemma fpl_pow nt fpl : (2 <= nt <= N.to_nat (2 ^ 17))%nat -> hfirst_parallel_level nt = Some fpl -> (2 <= fpl)%N /\ INR (N.to_nat (2 ^ fpl)) <= 4 * INR nt.
Proof.
  intros Hn Ef. destruct (fpl_defined nt Hn) as (f & E & Hf & F1 & _). rewrite Ef in E. injection E as <-. split; [lia|].
  assert (P : 0 < INR (2 * nt)) by (apply lt_0_INR; lia).
  assert (B : b2 (Z.of_N fpl - 1) <= INR (2 * nt)) by (apply log2R_ge_iff; [exact P|]; rewrite minus_IZR; lra).
  replace (INR (N.to_nat (2 ^ fpl))) with (2 * b2 (Z.of_N fpl - 1)); [rewrite mult_INR in B; change (INR 2) with 2 in B; lra|].
  rewrite INR_IZR_INZ. replace (Z.of_nat (N.to_nat (2 ^ fpl))) with (2 ^ Z.of_N fpl)%Z by (rewrite N_nat_Z, N2Z.inj_pow; reflexivity).
  rewrite (IZR_Zpower radix2) by lia. replace 2 with (b2 1) by reflexivity. rewrite <- bpow_plus. f_equal. lia.
Qed.
Lemma list_sum_app_map {A} (f : A -> nat) X Y : list_sum (map f (X ++ Y)) = (list_sum (map f X) + list_sum (map f Y))%nat.
Proof. now rewrite map_app, list_sum_app. Qed.
Lemma list_sum_perm {A} (f : A -> nat) X Y : Permutation X Y -> list_sum (map f X) = list_sum (map f Y).
Proof. intros H. induction H; cbn [map]; rewrite ?list_sum_cons; lia. Qed.
Lemma steps_skip skip t v : (hvis_steps skip t v <= hvis_steps false t v)%nat.
Proof. destruct v as [[A B] l]. unfold hvis_steps. destruct (htouching A B l) as [[]|], skip; lia. Qed.

(** ** Theorems *)
(** one thread: visitCellPair(0, 0, 0) makes its calls from invocations that visit no pair of cells twice, whose number and whose loop
    iterations are bounded by the radius of the disc, wherever the points are and whatever the temperature *)
Theorem C77_sequential_work : forall nd radii angles T Rd omp_max team t, hrg_input radii angles Rd omp_max team ->
  htree_outcome radii angles T Rd omp_max (Some t) ->
  exists vs, hvisits t (N.to_nat (h_levels t)) 0 0 0 = Some vs /\
    hvisit nd t (N.to_nat (h_levels t)) 0 0 0 = Some (flat_map (hvis_calls (nd && is_zero T) t) vs) /\
    NoDup vs /\
    INR (length vs) <= 20 * exp (Rd / 2) /\
    INR (list_sum (map (hvis_steps (nd && is_zero T) t) vs)) <= 480 * exp (Rd / 2).
Proof.
  intros nd radii angles T Rd omp_max team t HI HT. destruct (omp_nat _ (hi_omp _ _ _ _ _ HI)) as [O1 O2]. pose proof (use_di HI) as DI.
  destruct (hbuild_ok radii angles T Rd DI omp_max O1) as (t' & ord & TS & _ & HU). specialize (HU _ HT). injection HU as <-.
  pose proof (w_31 DI TS) as W1. pose proof (w_pos TS) as W2. exists (hvplan (N.to_nat (h_levels t - 1)) 0 0 0).
  assert (E : hvisits t (N.to_nat (h_levels t)) 0 0 0 = Some (hvplan (N.to_nat (h_levels t - 1)) 0 0 0)) by (apply hvisits_eq; try exact root_lv; lia).
  split; [exact E|split; [|split; [|split]]].
  - rewrite hvisits_calls, E. cbn [obind]. now rewrite (hs_T _ _ _ _ _ _ TS).
  - now apply hvplan_NoDup.
  - apply (w_visits DI TS).
  - apply (w_steps DI TS).
Qed.
(** several threads: the sampling threads and the thread that creates the tasks each walk over the same invocations of the first levels, at most
    24 omp_max of them; there are at most 14 omp_max tasks; the first levels and the tasks together are the invocations of one thread *)
Theorem C77_parallel_work : forall nd part radii angles T Rd omp_max team t fpl, hrg_input radii angles Rd omp_max team -> is_partition task_eq part ->
  htree_outcome radii angles T Rd omp_max (Some t) -> (2 <= omp_max)%nat -> hfirst_parallel_level omp_max = Some fpl -> (fpl < h_levels t)%N ->
  exists first created tvs,
    hcreate_visits fpl (N.to_nat fpl) 0 0 0 = Some (first, created) /\ hcreate fpl (N.to_nat fpl) 0 0 0 = Some created /\
    hsample_visits t fpl (N.to_nat fpl) 0 0 0 = Some first /\
    (forall tid, hsample t fpl (omp_max - 1) (N.to_nat fpl) 0 0 0 tid = Some (my_calls (omp_max - 1) tid (flat_map (hvis_calls false t) first))) /\
    omap (fun ab => hvisits t (N.to_nat (h_levels t)) (fst ab) (snd ab) fpl) (part created) = Some tvs /\
    omap (fun ab => hvisit nd t (N.to_nat (h_levels t)) (fst ab) (snd ab) fpl) (part created) = Some (map (flat_map (hvis_calls (nd && is_zero T) t)) tvs) /\
    INR (length first) <= 24 * INR omp_max /\
    INR (length created) <= 14 * INR omp_max /\
    NoDup (first ++ concat tvs) /\
    INR (length (first ++ concat tvs)) <= 20 * exp (Rd / 2) /\
    INR (list_sum (map (hvis_steps false t) first) + list_sum (map (hvis_steps (nd && is_zero T) t) (concat tvs))) <= 480 * exp (Rd / 2).
Proof.
  intros nd part radii angles T Rd omp_max team t fpl HI HP HT H2 Ef Hf. destruct (omp_nat _ (hi_omp _ _ _ _ _ HI)) as [O1 O2]. pose proof (use_di HI) as DI.
  destruct (hbuild_ok radii angles T Rd DI omp_max O1) as (t' & ord & TS & _ & HU). specialize (HU _ HT). injection HU as <-.
  pose proof (w_31 DI TS) as W1. pose proof (w_pos TS) as W2. destruct (fpl_pow omp_max fpl (conj H2 (proj2 O2)) Ef) as [F2 FP].
  set (L := N.to_nat (h_levels t - 1)). destruct (hsample_visits_eq t W1 fpl Hf L (N.to_nat fpl) 0 0 0 ltac:(lia) ltac:(unfold L; lia) ltac:(lia) root_lv root_lv) as [ES EC].
  destruct (hsqplan fpl L 0 0 0) as [first created] eqn:EQ. cbn [fst] in ES.
  set (body := fun ab : N * N => hvplan (N.to_nat (h_levels t - 1 - fpl)) (fst ab) (snd ab) fpl).
  assert (PT : Permutation (part created) created) by apply HP.
  assert (ET : omap (fun ab => hvisits t (N.to_nat (h_levels t)) (fst ab) (snd ab) fpl) (part created) = Some (map body (part created))).
  { apply omap_map. intros ab I. apply (Permutation_in _ PT) in I. pose proof (hsq_pushes t W1 fpl Hf L 0 0 0 ltac:(lia) ltac:(unfold L; lia) root_lv root_lv ab) as Q. rewrite EQ in Q. destruct (Q I) as [Q1 Q2]. apply hvisits_eq; auto; lia. }
  assert (PM : Permutation (first ++ concat (map body (part created))) (hvplan L 0 0 0)).
  { pose proof (hsq_partition t W1 fpl L 0 0 0 ltac:(unfold L; lia) ltac:(lia) W2) as SP. rewrite EQ in SP. cbn [fst snd] in SP. rewrite SP. apply Permutation_app_head. rewrite <- flat_map_concat_map. apply Permutation_flat_map. exact PT. }
  assert (EK : hcreate fpl (N.to_nat fpl) 0 0 0 = Some created) by (rewrite hcreate_visits_tasks, EC; reflexivity).
  exists first, created, (map body (part created)). split; [exact EC|split; [exact EK|split; [exact ES|split; [|split; [exact ET|split; [|split; [|split; [|split; [|split]]]]]]]]].
  - intros tid. rewrite hsample_visits_calls, ES. reflexivity.
  - rewrite (omap_comp (fun ab => hvisits t (N.to_nat (h_levels t)) (fst ab) (snd ab) fpl) _ (flat_map (hvis_calls (nd && is_zero T) t))), ET; [reflexivity|]. intros ab. rewrite hvisits_calls. now rewrite (hs_T _ _ _ _ _ _ TS).
  - pose proof (hlow_bound t W1 W2 fpl ltac:(lia) Hf) as B. fold L in B. rewrite EQ, pw2_N in B. cbn [fst] in B. apply le_INR in B. rewrite mult_INR in B. replace (INR 6) with 6 in B by (cbn; lra). lra.
  - destruct (num_tasks fpl) as [k|] eqn:EN.
    + destruct (task_count fpl k F2 EN) as (ts & E1 & E2). rewrite EK in E1. injection E1 as <-. unfold num_tasks in EN. destruct (N.eqb_spec fpl 2) as [E3|E3].
      * injection EN as <-. replace (length created) with 10%nat by lia. assert (2 <= INR omp_max) by (change 2 with (INR 2); now apply le_INR). replace (INR 10) with 10 by (cbn; lra). lra.
      * destruct (N.eqb_spec fpl 0); [lia|]. destruct (_ <? _)%N in EN; [|discriminate]. assert (EL : N.of_nat (length created) = (2 * 2 ^ fpl + 3 * 2 ^ (fpl - 1))%N) by congruence.
        assert (P2 : (2 ^ fpl = 2 * 2 ^ (fpl - 1))%N) by (replace fpl with (1 + (fpl - 1))%N at 1 by lia; rewrite N.pow_add_r; reflexivity).
        assert (EL2 : (2 * length created = 7 * N.to_nat (2 ^ fpl))%nat) by lia. apply (f_equal INR) in EL2. rewrite !mult_INR in EL2. change (INR 2) with 2 in EL2. replace (INR 7) with 7 in EL2 by (cbn; lra). lra.
    + destruct (fpl_defined omp_max (conj H2 (proj2 O2))) as (f & E & Hff & _). rewrite Ef in E. injection E as <-. destruct (num_tasks_defined fpl Hff) as (k & Ek). congruence.
  - apply (Permutation_NoDup (Permutation_sym PM)). now apply hvplan_NoDup.
  - rewrite (Permutation_length PM). apply (w_visits DI TS).
  - eapply Rle_trans; [|apply (w_steps DI TS false)]. apply le_INR. rewrite <- (list_sum_perm _ _ _ PM), list_sum_app_map. apply Nat.add_le_mono_l, list_sum_le. intros v _. apply steps_skip.
Qed.
(** the memory of the tree: the points, the index of the cells, the tables of the layers, the layer pairs and the distance filters *)
Theorem C77_memory : forall radii angles T Rd omp_max team t, hrg_input radii angles Rd omp_max team -> htree_outcome radii angles T Rd omp_max (Some t) ->
  length (h_points t) = length radii /\
  INR (length (h_index t)) <= 1 + 43 / 10 * exp (Rd / 2) /\
  INR (length (h_level t)) <= Rd + 1 /\ INR (length (h_first t)) <= Rd + 1 /\
  INR (list_sum (map (fun l => length (h_layer_pairs t (N.of_nat l))) (seq 0 (N.to_nat (h_levels t))))) <= (Rd + 1) ^ 2 /\
  INR (h_filters t) <= 60 * (Rd + 1) ^ 2.
Proof.
  intros radii angles T Rd omp_max team t HI HT. destruct (omp_nat _ (hi_omp _ _ _ _ _ HI)) as [O1 O2]. pose proof (use_di HI) as DI.
  destruct (hbuild_ok radii angles T Rd DI omp_max O1) as (t' & ord & TS & _ & HU). specialize (HU _ HT). injection HU as <-.
  pose proof (w_31 DI TS) as W1. pose proof (w_pos TS) as W2.
  assert (HM : INR (hm Rd) <= Rd + 1). { destruct (hm_ceil radii angles Rd DI) as (E & _). rewrite INR_IZR_INZ, E. left. unfold Zceil. rewrite opp_IZR. pose proof (Zfloor_ub (- Rd)). lra. }
  assert (LH : INR (h_layers t) <= Rd + 1) by (eapply Rle_trans; [apply le_INR, (hs_layers _ _ _ _ _ _ TS)|exact HM]). pose proof (pos_INR (h_layers t)) as L0.
  assert (SQ : INR (h_layers t) * INR (h_layers t) <= (Rd + 1) ^ 2) by (cbn [pow]; rewrite Rmult_1_r; apply Rmult_le_compat; lra).
  split; [|split; [|split; [|split; [|split]]]].
  - rewrite (hs_nodes _ _ _ _ _ _ TS), map_length, (Permutation_length (hs_perm _ _ _ _ _ _ TS)). apply seq_length.
  - destruct (hs_index _ _ _ _ _ _ TS) as [E _]. rewrite E, plus_INR. change (INR 1) with 1. rewrite INR_IZR_INZ, N_nat_Z. pose proof (fsum_bound radii angles Rd DI (hm Rd) ltac:(lia)) as B. rewrite Nat.sub_diag in B. change (INR 0) with 0 in B. rewrite Rminus_0_r in B. unfold Hyp_Build.HM. lra.
  - rewrite (hs_level _ _ _ _ _ _ TS), map_length, seq_length. exact HM.
  - rewrite (hs_first _ _ _ _ _ _ TS), map_length, seq_length. exact HM.
  - replace (N.to_nat (h_levels t)) with (S (N.to_nat (h_levels t - 1))) by lia. rewrite (hpairs_count t W1 W2 (h_layers t) (base Rd) (pairs_eq radii angles T Rd DI t ord TS) (w_base DI TS)), mult_INR. exact SQ.
  - unfold h_filters. destruct (Req_EM_T _ _); [change (INR 0) with 0; nra|].
    assert (B : (list_sum (map (fun ij => 2 * length (Nrange 2 (h_base t (fst ij) (snd ij)))) (list_prod (seq 0 (h_layers t)) (seq 0 (h_layers t)))) <= 60 * (h_layers t * h_layers t))%nat).
    { etransitivity; [apply (list_sum_le _ (fun _ => 60 * 1)%nat)|].
      - intros [i j] I. apply in_prod_iff in I as [I J]. apply in_seq in I, J. cbn [fst snd]. destruct (hbase_ok radii angles T Rd DI t ord TS i j ltac:(lia) ltac:(lia)) as (_ & _ & B3 & B4). unfold Nrange. rewrite map_length, seq_length. lia.
      - rewrite list_sum_scal. apply Nat.mul_le_mono_l. assert (E1 : forall (X : list (nat * nat)), list_sum (map (fun _ => 1%nat) X) = length X) by (induction X as [|x X IH]; [reflexivity|]; cbn [map length]; rewrite list_sum_cons, IH; reflexivity). rewrite E1, prod_length, seq_length. apply Nat.le_refl. }
    apply le_INR in B. rewrite !mult_INR in B. replace (INR 60) with 60 in B by (cbn; lra). lra.
Qed.
(** with the usual radius R = 2 ln n + C everything is linear in the number of points *)
Theorem C77_linear : forall nd radii angles T C omp_max team t, let n := INR (length radii) in let Rd := 2 * ln n + C in
  hrg_input radii angles Rd omp_max team -> htree_outcome radii angles T Rd omp_max (Some t) ->
  exists vs, hvisits t (N.to_nat (h_levels t)) 0 0 0 = Some vs /\
    INR (length vs) <= 20 * exp (C / 2) * n /\
    INR (list_sum (map (hvis_steps (nd && is_zero T) t) vs)) <= 480 * exp (C / 2) * n /\
    INR (length (h_index t)) <= 1 + 43 / 10 * exp (C / 2) * n.
Proof.
  intros nd radii angles T C omp_max team t n Rd HI HT. assert (N0 : 0 < n) by (apply lt_0_INR; pose proof (hi_n _ _ _ _ _ HI); lia).
  assert (E : exp (Rd / 2) = exp (C / 2) * n). { unfold Rd. replace ((2 * ln n + C) / 2) with (C / 2 + ln n) by field. now rewrite exp_plus, exp_ln. }
  destruct (C77_sequential_work nd radii angles T Rd omp_max team t HI HT) as (vs & H1 & _ & _ & H2 & H3). destruct (C77_memory radii angles T Rd omp_max team t HI HT) as (_ & H4 & _). rewrite E in *.
  exists vs. split; [exact H1|]. repeat split; lra.
Qed.

(** ** a concrete case: three points in a disc of radius 6, two threads *)
Example C77_inputs : forall T, hrg_input [1/2; 3; 6] [0; 1; 3] 6 2 2 /\ is_partition task_eq ex_part /\ exists t, htree_outcome [1/2; 3; 6] [0; 1; 3] T 6 2 (Some t) /\
  hfirst_parallel_level 2 = Some 2%N /\ (2 < h_levels t)%N.
Proof.
  intros T. assert (HI : hrg_input [1/2; 3; 6] [0; 1; 3] 6 2 2) by (apply ex_hrg_input; [split; apply N.leb_le; reflexivity|lia]).
  split; [exact HI|split; [exact ex_part_ok|]]. destruct (omp_nat _ (hi_omp _ _ _ _ _ HI)) as [O1 O2]. destruct (hbuild_ok _ _ T _ (use_di HI) 2 O1) as (t & ord & TS & HT & _). exists t. split; [exact HT|].
  destruct (proj2 (use_finishing HI T t ord TS) ex_hrg_returns) as [[E _]|(_ & _ & fpl & Ef & Hf)]; [discriminate|].
  destruct (fpl_pow 2 fpl (conj (Nat.le_refl 2) (proj2 O2)) Ef) as [F1 F2]. assert (fpl = 2%N); [|subst; now split].
  destruct (fpl_defined 2 (conj (Nat.le_refl 2) (proj2 O2))) as (f & E & _ & F3 & F4). rewrite Ef in E. injection E as <-.
  assert (L2 : log2R (INR (2 * 2)) = 2). { replace (INR (2 * 2)) with (b2 2) by (cbn; lra). rewrite log2R_b2. reflexivity. } rewrite L2 in F3. assert (IZR (Z.of_N fpl) < IZR 3) by lra. apply lt_IZR in H. lia.
Qed.
Print Assumptions C77_sequential_work.
Print Assumptions C77_parallel_work.
Print Assumptions C77_memory.
Print Assumptions C77_linear.
