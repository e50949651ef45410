(** Property C79: how many random numbers a hyperbolic random graph of positive temperature costs. *)
From Coq Require Import Arith NArith ZArith List Bool Reals Permutation Lia Lra Psatz.
From Flocq Require Import Core.
From Coquelicot Require Import Coquelicot.
From Verif Require Import Base Sched Bits_Proofs Coord_Model Coord_Proofs Coord_Geo Tree_Model Tree_Proofs Tree_Plan Tree_Run Girg_Model Girg_Num Prop_Girg
  Hyp_Model Hyp_Math Hyp_Angle Hyp_Levels Hyp_Build Hyp_Run Hyp_Sched Hyp_Threads Hyp_Gen Prop_Hyp HypIn_Model Prop_HypIn Mean Prop_Mean Mean_Cells Sampling_Model Scaling_Model Cost_Touch Prop_Cost
  HypCost_Calls HypCost_Mean Prop_HypCost Prob_Spec Prop_HypWork Draws_Law Draws_Bound HypDraws_Law HypDraws_Bound HypDraws_Mean.
Import ListNotations.
Local Open Scope R_scope.

(** ** Specification *)
(** The engines are independent tapes of uniform random numbers ([tape_hrng], as in C47: an engine is one of the k tapes, chosen by what it is
    seeded with), [hcounted] adds to every engine a counter of the numbers the three distributions take from it, [hrun_draws] sums the counters at
    the end of all units of work of all threads. The constructor and generate have defined results for all tapes, and for every result the
    constructor may have (the schedule of its loops may vary) and every result generate may have for it, the mean over all tapes of the number of
    random numbers taken is v. *)
Definition expected_hyp_draws (nd : bool) (part : list (N * N) -> list (N * N)) (T : R) (radii angles : list R) (Rd : R) (seed : Z) (omp_max team : nat) (v : R) : Prop :=
  let run t tapes := generate_outcome nd part t (hcounted (tape_hrng tapes)) seed omp_max team in
  (exists t, htree_outcome radii angles T Rd omp_max (Some t)) /\
  forall t, htree_outcome radii angles T Rd omp_max (Some t) ->
    (exists out, forall tapes, run t tapes (Some (out tapes))) /\
    forall k, (15 * omp_max <= k)%nat -> forall out, (forall tapes, length tapes = k -> run t tapes (Some (out tapes))) ->
      expects_n k (fun tapes => INR (hrun_draws (out tapes))) v.

(** ** Proofs *)
Section Runs.
  Context {n : nat} {T Rd : R} {omp_max team : nat} (CI : hcost_input n Rd omp_max team) (HT : 1 / IZR (2 ^ 52) < T).
  Context {radii xs : list R} (LR : length radii = n) (FR : List.Forall (fun r => 0 < r <= Rd) radii) (CX : in_cube n xs).
  Notation angles := (map angle_of xs).
  Let HI := hcost_hrg n Rd omp_max team radii xs CI LR FR CX.
  Lemma hvalue_run (H99 : 2 * T * ln 99 <= Rd) nd part seed : is_partition task_eq part -> expected_hyp_draws nd part T radii angles Rd seed omp_max team (hvalue T Rd (codes Rd radii xs)).
  Proof.
    intros HP. destruct (omp_nat _ (hi_omp _ _ _ _ _ HI)) as [O1 O2]. destruct (hbuild_ok radii angles T Rd (use_di HI) omp_max O1) as (t & ord & TS & HT1 & HU).
    split; [now exists t|]. intros t' HT'. specialize (HU _ HT'). injection HU as <-. split.
    - exact (hgen_runs HI HT t' ord TS nd part HP seed (hc_returns _ _ _ _ CI)).
    - intros k Hk out Hout. rewrite <- (hvalue_eq CI LR FR CX t' ord TS). exact (hgen_count HI HT H99 t' ord TS nd part HP seed (hc_returns _ _ _ _ CI) k Hk out Hout).
  Qed.
  Lemma hvalue_le : hvalue T Rd (codes Rd radii xs) <= 480 * exp (Rd / 2) +
    sumR (map (fun uv => hpair_bound T Rd (layer_of Rd (nth (fst uv) radii 0)) (layer_of Rd (nth (snd uv) radii 0)) (nth (fst uv) xs 0) (nth (snd uv) xs 0)) (all_pairs n)).
  Proof.
    destruct (omp_nat _ (hi_omp _ _ _ _ _ HI)) as [O1 O2]. destruct (hbuild_ok radii angles T Rd (use_di HI) omp_max O1) as (t & ord & TS & _ & _).
    rewrite <- (hvalue_eq CI LR FR CX t ord TS). eapply Rle_trans; [exact (hdraws_total HI HT t ord TS)|]. apply Rplus_le_compat_l. rewrite LR. right. apply sumR_ext. intros [u v] I. cbn [fst snd].
    unfold all_pairs in I. apply in_flat_map in I as (v' & Hv' & I). apply in_map_iff in I as (u' & E & Hu'). injection E as -> ->. apply in_seq in Hv', Hu'.
    assert (PH : forall w, (w < n)%nat -> phi angles w / 2 / PI = nth w xs 0).
    { intros w Hw. unfold phi. rewrite (nth_indep angles 0 (angle_of 0)), map_nth by (rewrite map_length; pose proof (proj1 CX); lia). apply angle_unit. }
    rewrite !PH by lia. reflexivity.
  Qed.
  Lemma hvalue_ge : sumR (map (fun uv => hind Rd (nth (fst uv) radii 0) (nth (snd uv) radii 0) (nth (fst uv) xs 0) (nth (snd uv) xs 0)) (all_pairs n)) <= hvalue T Rd (codes Rd radii xs).
  Proof.
    destruct (omp_nat _ (hi_omp _ _ _ _ _ HI)) as [O1 O2]. destruct (hbuild_ok radii angles T Rd (use_di HI) omp_max O1) as (t & ord & TS & _ & _).
    rewrite <- (hvalue_eq CI LR FR CX t ord TS). eapply Rle_trans; [|exact (hdraws_least HI HT t ord TS)]. rewrite LR. right. apply sumR_ext. intros [u v] I. cbn [fst snd].
    unfold all_pairs in I. apply in_flat_map in I as (v' & Hv' & I). apply in_map_iff in I as (u' & E & Hu'). injection E as -> ->. apply in_seq in Hv', Hu'.
    assert (PH : forall w, (w < n)%nat -> phi angles w / 2 / PI = nth w xs 0).
    { intros w Hw. unfold phi. rewrite (nth_indep angles 0 (angle_of 0)), map_nth by (rewrite map_length; pose proof (proj1 CX); lia). apply angle_unit. }
    rewrite !PH by lia. reflexivity.
  Qed.
End Runs.
Lemma all_pairs_sym (f : nat -> nat -> R) n : (forall u v, f u v = f v u) -> 2 * sumR (map (fun uv => f (fst uv) (snd uv)) (all_pairs n)) = sumR (map (fun u => sumR (map (fun v => if (u =? v)%nat then 0 else f u v) (seq 0 n))) (seq 0 n)).
Proof.
  intros Hf. induction n as [|n IH]; [cbn; ring|].
  assert (E : all_pairs (S n) = all_pairs n ++ map (fun u => (u, n)) (seq 0 n)). { unfold all_pairs. rewrite seq_S, flat_map_app. cbn [flat_map Nat.add]. now rewrite app_nil_r. }
  rewrite E, map_app, sumR_app, map_map, Rmult_plus_distr_l, IH. cbn [fst snd].
  assert (ROW : forall u, sumR (map (fun v => if (u =? v)%nat then 0 else f u v) (seq 0 (S n))) = sumR (map (fun v => if (u =? v)%nat then 0 else f u v) (seq 0 n)) + (if (u =? n)%nat then 0 else f u n)).
  { intros u. rewrite seq_S, map_app, sumR_app. cbn [map Nat.add]. rewrite sumR_cons, sumR_nil. ring. }
  rewrite (sumR_ext _ _ (seq 0 (S n)) (fun u _ => ROW u)), sumR_plus. rewrite seq_S, !map_app, !sumR_app. cbn [map Nat.add]. rewrite !sumR_cons, !sumR_nil, Nat.eqb_refl.
  assert (A1 : sumR (map (fun u => if (u =? n)%nat then 0 else f u n) (seq 0 n)) = sumR (map (fun u => f u n) (seq 0 n))). { apply sumR_ext. intros u Hu. apply in_seq in Hu. destruct (Nat.eqb_spec u n); [lia|reflexivity]. }
  assert (A2 : sumR (map (fun v => if (n =? v)%nat then 0 else f n v) (seq 0 n)) = sumR (map (fun u => f u n) (seq 0 n))). { apply sumR_ext. intros u Hu. apply in_seq in Hu. destruct (Nat.eqb_spec n u); [lia|apply Hf]. }
  rewrite A1, A2. ring.
Qed.
Lemma in_all_pairs u v n : In (u, v) (all_pairs n) -> (u < n)%nat /\ (v < n)%nat /\ u <> v.
Proof. intros I. unfold all_pairs in I. apply in_flat_map in I as (v' & Hv' & I). apply in_map_iff in I as (u' & E & Hu'). injection E as -> ->. apply in_seq in Hv', Hu'. lia. Qed.
Lemma T_pos T : 1 / IZR (2 ^ 52) < T -> 0 < T.
Proof. intros H. assert (0 < / IZR (2 ^ 52)) by (apply Rinv_0_lt_compat, IZR_lt; reflexivity). lra. Qed.
Definition kpair T := 96 + 45 / (1 - Rpower 2 (1 - 1 / T)).
Lemma kpair_half T : kdraws T = 2 * kpair T.
Proof. unfold kdraws, kpair, hrho. lra. Qed.
(** the expected number of random numbers is at least the number of distance comparisons the threshold graph on the same points costs *)
Theorem C79_at_least_threshold : forall n T Rd omp_max team radii xs nd part seed v, hcost_input n Rd omp_max team -> 1 / IZR (2 ^ 52) < T -> 2 * T * ln 99 <= Rd -> length radii = n -> List.Forall (fun r => 0 < r <= Rd) radii -> in_cube n xs ->
  is_partition task_eq part -> expected_hyp_draws nd part T radii (map angle_of xs) Rd seed omp_max team v ->
  forall nd' part' hg seed' k, is_partition task_eq part' -> good_rng (hb hg) -> always_compares_hyp nd' part' hg radii (map angle_of xs) Rd seed' omp_max team k -> INR k <= v.
Proof.
  intros n T Rd omp_max team radii xs nd part seed v CI T0 H99 LR FR CX HP ((t & HT) & EV) nd' part' hg seed' k HP' GG ((t0 & rss & HT0 & HG0) & AC).
  destruct (hcount_ok n Rd omp_max team radii xs CI LR FR CX nd' part' hg seed' HP' GG) as [[_ U] EC].
  assert (Ek : k = hcount Rd radii xs) by (rewrite <- (AC t0 rss HT0 HG0); exact (U t0 rss HT0 HG0)).
  destruct (hvalue_run CI T0 LR FR CX H99 nd part seed HP) as [_ EW]. destruct (EV t HT) as [(out & Hout) EV1]. destruct (EW t HT) as [_ EW1].
  assert (Ev : v = hvalue T Rd (codes Rd radii xs)) by (apply (Prob.expects_n_unique (15 * omp_max) (fun tapes => INR (hrun_draws (out tapes)))); [apply EV1; auto|apply EW1; auto]).
  rewrite Ek, EC, Ev. eapply Rle_trans; [|exact (hvalue_ge CI T0 LR FR CX)]. right. unfold hpairs_sum. rewrite LR.
  rewrite <- (all_pairs_sym (fun u v => hind Rd (nth u radii 0) (nth v radii 0) (nth u xs 0) (nth v xs 0))); [field|]. intros a b. apply hind_sym.
Qed.
(** the radii are given, the angles are drawn *)
Theorem C79_given_radii : forall n T Rd omp_max team radii, hcost_input n Rd omp_max team -> 1 / IZR (2 ^ 52) < T < 1 -> 2 * T * ln 99 <= Rd -> length radii = n -> List.Forall (fun r => 0 < r <= Rd) radii ->
  exists (F : list R -> R) (m : R),
    (forall nd part seed xs, is_partition task_eq part -> in_cube n xs -> expected_hyp_draws nd part T radii (map angle_of xs) Rd seed omp_max team (F xs)) /\
    is_cube_mean n F m /\ m <= 480 * exp (Rd / 2) + (96 + 45 / (1 - Rpower 2 (1 - 1 / T))) * exp (Rd / 2) * sumR (map (fun r => exp (- r / 2)) radii) ^ 2.
Proof.
  intros n T Rd omp_max team radii CI [T0 T1] H99 LR FR. pose proof (T_pos T T0) as TP. pose proof (hc_R _ _ _ _ CI) as HR. fold (kpair T).
  set (cF := fun cells => hvalue T Rd (combine (map (layer_of Rd) radii) cells)). exists (fun xs => hvalue T Rd (codes Rd radii xs)), (cmean (lev Rd 0) n cF).
  assert (CM : is_cube_mean n (fun xs => hvalue T Rd (codes Rd radii xs)) (cmean (lev Rd 0) n cF)) by exact (cmean_is (lev Rd 0) n cF).
  split; [|split; [exact CM|]].
  - intros nd part seed xs HP CX. now apply (hvalue_run CI T0 LR FR CX H99).
  - set (ly := fun u => layer_of Rd (nth u radii 0)).
    set (B := fun xs => 480 * exp (Rd / 2) + sumR (map (fun uv => hpair_bound T Rd (ly (fst uv)) (ly (snd uv)) (nth (fst uv) xs 0) (nth (snd uv) xs 0)) (all_pairs n))).
    set (M := 480 * exp (Rd / 2) + sumR (map (fun uv => hmean_bound T Rd (ly (fst uv)) (ly (snd uv))) (all_pairs n))).
    assert (HB : is_cube_mean n B M).
    { apply points1_cube. unfold B, M. apply points_mean_plus; [apply points_mean_const|].
      apply (points_mean_sum n 1 (fun uv ps => hpair_bound T Rd (ly (fst uv)) (ly (snd uv)) (nth (fst uv) (concat ps) 0) (nth (snd uv) (concat ps) 0))). intros [u v] I. apply in_all_pairs in I as (Hu & Hv & E). cbn [fst snd].
      apply (points_mean_ext 1 n (fun ps => (fun x y => hpair_bound T Rd (ly u) (ly v) (nth 0 x 0) (nth 0 y 0)) (nth u ps []) (nth v ps []))).
      { intros ps Hps. cbv beta. rewrite !(nth_concat1 n ps) by (assumption || lia). reflexivity. }
      apply (points_mean_two 1 (fun x y => hpair_bound T Rd (ly u) (ly v) (nth 0 x 0) (nth 0 y 0))); [| |exact Hu|exact Hv|exact E].
      - intros [|x [|? ?]] [Lx Fx]; cbn in Lx; try lia. inversion Fx; subst. apply cube1. cbn [nth]. now apply hpair_mean.
      - intros [|x [|? ?]] [Lx Fx]; cbn in Lx; try lia. inversion Fx; subst. apply cube1. cbn [nth]. rewrite hmean_bound_sym.
        apply (is_RInt_ext (fun y => hpair_bound T Rd (ly v) (ly u) x y)); [intros y _; apply hpair_bound_sym|]. now apply hpair_mean. }
    assert (LE : cmean (lev Rd 0) n cF <= M) by (apply (cube_mean_le n _ B _ _) with (2 := CM) (3 := HB); intros xs CX; exact (hvalue_le CI T0 LR FR CX)).
    eapply Rle_trans; [exact LE|]. unfold M. apply Rplus_le_compat_l. set (S := sumR (map (fun r => exp (- r / 2)) radii)).
    assert (SE : sumR (map (fun u => exp (- nth u radii 0 / 2)) (seq 0 n)) = S).
    { unfold S. f_equal. rewrite <- LR. rewrite <- (map_map (fun u => nth u radii 0) (fun r => exp (- r / 2))). now rewrite map_nth_all. }
    set (w := fun u => exp (- nth u radii 0 / 2)) in *.
    assert (ST : sumR (map (fun uv => hmean_bound T Rd (ly (fst uv)) (ly (snd uv))) (all_pairs n)) <= sumR (map (fun uv => (2 * kpair T * exp (Rd / 2)) * (w (fst uv) * w (snd uv))) (all_pairs n))).
    { apply sumR_le. intros [u v] I. apply in_all_pairs in I as (Hu & Hv & E). cbn [fst snd]. rewrite List.Forall_forall in FR. pose proof (FR _ (nth_In radii 0 (n := u) ltac:(lia))) as Ru. pose proof (FR _ (nth_In radii 0 (n := v) ltac:(lia))) as Rv.
      eapply Rle_trans; [exact (hmean_bound_le T Rd (conj TP T1) HR _ _ Ru Rv)|]. rewrite kpair_half. right. unfold w. replace ((Rd - nth u radii 0 - nth v radii 0) / 2) with (Rd / 2 + (- nth u radii 0 / 2 + - nth v radii 0 / 2)) by field. rewrite !exp_plus. ring. }
    eapply Rle_trans; [exact ST|]. rewrite (sumR_scal (2 * kpair T * exp (Rd / 2)) (fun uv => w (fst uv) * w (snd uv))).
    pose proof (all_pairs_square w n (fun u _ => Rlt_le _ _ (exp_pos _))) as SQ. rewrite SE in SQ. pose proof (kdraws_pos T (conj TP T1)) as KP. rewrite kpair_half in KP. pose proof (exp_pos (Rd / 2)) as EP.
    replace (2 * kpair T * exp (Rd / 2) * sumR (map (fun uv => w (fst uv) * w (snd uv)) (all_pairs n))) with (kpair T * exp (Rd / 2) * (2 * sumR (map (fun uv => w (fst uv) * w (snd uv)) (all_pairs n)))) by ring.
    cbn [pow]. rewrite Rmult_1_r. apply Rmult_le_compat_l; [|exact SQ]. apply Rmult_le_pos; lra.
Qed.
(** radii and angles are drawn *)
Theorem C79_sampled : forall n alpha T Rd omp_max team, hcost_input n Rd omp_max team -> 1 / 2 < alpha -> 1 / IZR (2 ^ 52) < T < 1 -> 2 * T * ln 99 <= Rd ->
  exists (F : list (list R) -> R) (m : R),
    (forall nd part seed ps, is_partition task_eq part -> points_in n 2 ps ->
       expected_hyp_draws nd part T (map (fun p => radius_of alpha Rd (radius_draw p)) ps) (map (fun p => angle_of (angle_draw p)) ps) Rd seed omp_max team (F ps)) /\
    is_points_mean n 2 F m /\
    m <= 480 * exp (Rd / 2) + (96 + 45 / (1 - Rpower 2 (1 - 1 / T))) * INR n ^ 2 * (10 * alpha / (2 * alpha - 1)) ^ 2 * exp (- Rd / 2).
Proof.
  intros n alpha T Rd omp_max team CI Ha [T0 T1] H99. pose proof (T_pos T T0) as TP. pose proof (hc_R _ _ _ _ CI) as HR. fold (kpair T).
  set (rr := fun ps : list (list R) => map (fun p => radius_of alpha Rd (radius_draw p)) ps). set (xx := fun ps : list (list R) => map angle_draw ps).
  assert (CUBE2 : forall p, in_cube 2 p -> 0 <= radius_draw p < 1 /\ 0 <= angle_draw p < 1).
  { intros [|x [|t [|? ?]]] [L F]; cbn in L; try lia. inversion F as [|? ? F1 F']; subst. inversion F' as [|? ? F2 _]; subst. split; assumption. }
  assert (OKP : forall ps, points_in n 2 ps -> length (rr ps) = n /\ List.Forall (fun r => 0 < r <= Rd) (rr ps) /\ in_cube n (xx ps)).
  { intros ps [L F]. unfold rr, xx. rewrite map_length. split; [exact L|]. split.
    - apply List.Forall_map. eapply List.Forall_impl; [|exact F]. intros p Hp. apply (rad_range alpha Rd Ha HR). apply CUBE2, Hp.
    - split; [now rewrite map_length|]. apply List.Forall_map. eapply List.Forall_impl; [|exact F]. intros p Hp. apply CUBE2, Hp. }
  set (F := fun ps => hvalue T Rd (codes Rd (rr ps) (xx ps))). set (m := code_mean alpha Rd n (hvalue T Rd)).
  assert (CM : is_points_mean n 2 F m).
  { apply (points_mean_ext 2 n (fun ps => hvalue T Rd (map (code alpha Rd) ps))); [|apply (code_mean_is alpha Rd Ha HR n (hvalue T Rd))]. intros ps _. unfold F, rr, xx. now rewrite codes_code. }
  exists F, m. split; [|split; [exact CM|]].
  - intros nd part seed ps HP Hps. destruct (OKP ps Hps) as (L & FR & CX). replace (map (fun p => angle_of (angle_draw p)) ps) with (map angle_of (xx ps)) by (unfold xx; apply map_map).
    now apply (hvalue_run CI T0 L FR CX H99).
  - set (lr := fun p : list R => layer_of Rd (radius_of alpha Rd (radius_draw p))).
    set (H := fun p q : list R => hpair_bound T Rd (lr p) (lr q) (angle_draw p) (angle_draw q)).
    set (pm := layer_mean alpha Rd (fun i => layer_mean alpha Rd (fun j => hmean_bound T Rd i j))).
    set (B := fun ps => 480 * exp (Rd / 2) + sumR (map (fun uv => H (nth (fst uv) ps []) (nth (snd uv) ps [])) (all_pairs n))).
    set (M := 480 * exp (Rd / 2) + sumR (map (fun uv : nat * nat => pm) (all_pairs n))).
    assert (HB : is_points_mean n 2 B M).
    { unfold B, M. apply points_mean_plus; [apply points_mean_const|].
      apply (points_mean_sum n 2 (fun uv ps => H (nth (fst uv) ps []) (nth (snd uv) ps []))). intros [u v] I. apply in_all_pairs in I as (Hu & Hv & E). cbn [fst snd].
      assert (H1 : forall p, in_cube 2 p -> is_cube_mean 2 (H p) (layer_mean alpha Rd (fun j => hmean_bound T Rd (lr p) j))).
      { intros p Hp. destruct (CUBE2 p Hp) as [_ Ap]. exists (fun x => hmean_bound T Rd (lr p) (layer_of Rd (radius_of alpha Rd x))). split.
        - intros x Hx. apply cube1. unfold H, lr, radius_draw, angle_draw. cbn [nth]. now apply hpair_mean.
        - apply (layer_RInt alpha Rd Ha HR (fun j => hmean_bound T Rd (lr p) j)). }
      apply (points_mean_two_gen 2 H (fun p => layer_mean alpha Rd (fun j => hmean_bound T Rd (lr p) j))); [exact H1| | |exact Hu|exact Hv|exact E].
      - intros p Hp. apply (cube_mean_ext 2 (H p)); [|now apply H1]. intros q _. unfold H. apply hpair_bound_sym.
      - exists (fun x => layer_mean alpha Rd (fun j => hmean_bound T Rd (layer_of Rd (radius_of alpha Rd x)) j)). split.
        + intros x Hx. unfold lr, radius_draw. cbn [nth]. apply (cube_mean_const 1).
        + apply (layer_RInt alpha Rd Ha HR (fun i => layer_mean alpha Rd (fun j => hmean_bound T Rd i j))). }
    assert (LE : m <= M).
    { apply (points_mean_le 2 n F B m M); [|exact CM|exact HB]. intros ps Hps. destruct (OKP ps Hps) as (L & FR & CX). unfold F. eapply Rle_trans; [exact (hvalue_le CI T0 L FR CX)|]. right. unfold B. apply Rplus_eq_compat_l. apply sumR_ext.
      intros [u v] I. apply in_all_pairs in I as (Hu & Hv & _). cbn [fst snd].
      assert (NR : forall w, (w < n)%nat -> nth w (rr ps) 0 = radius_of alpha Rd (radius_draw (nth w ps [])) /\ nth w (xx ps) 0 = angle_draw (nth w ps [])).
      { intros w Hw. assert (LP : length ps = n) by apply Hps. unfold rr, xx. split.
        - rewrite (nth_indep _ 0 (radius_of alpha Rd (radius_draw []))) by (rewrite map_length; lia). now rewrite (map_nth (fun p => radius_of alpha Rd (radius_draw p))).
        - rewrite (nth_indep _ 0 (angle_draw [])) by (rewrite map_length; lia). now rewrite (map_nth angle_draw). }
      unfold H, lr. destruct (NR u Hu) as [-> ->]. destruct (NR v Hv) as [-> ->]. reflexivity. }
    eapply Rle_trans; [exact LE|]. unfold M. apply Rplus_le_compat_l. rewrite sumR_const. set (k := 10 * alpha / (2 * alpha - 1)).
    pose proof (layer_pair_le alpha Rd Ha HR (hmean_bound T Rd) (kdraws T) (kdraws_pos T (conj TP T1)) (hmean_bound_le T Rd (conj TP T1) HR)) as PL. fold pm k in PL. pose proof (kdraws_pos T (conj TP T1)) as KP. rewrite kpair_half in *.
    assert (EB : 2 * kpair T * exp (Rd / 2) * (k * exp (- Rd / 2)) ^ 2 = 2 * kpair T * k ^ 2 * exp (- Rd / 2)).
    { cbn [pow]. rewrite !Rmult_1_r. replace (2 * kpair T * exp (Rd / 2) * (k * exp (- Rd / 2) * (k * exp (- Rd / 2)))) with (2 * kpair T * (k * k) * exp (- Rd / 2) * (exp (Rd / 2) * exp (- Rd / 2))) by ring. rewrite <- (exp_plus (Rd / 2)). replace (Rd / 2 + - Rd / 2) with 0 by field. rewrite exp_0. ring. }
    rewrite EB in PL. assert (B0 : 0 <= 2 * kpair T * k ^ 2 * exp (- Rd / 2)). { apply Rmult_le_pos; [|left; apply exp_pos]. apply Rmult_le_pos; [lra|]. cbn [pow]. rewrite Rmult_1_r. apply Rle_0_sqr. }
    pose proof (all_pairs_square (fun _ => 1) n (fun u _ => Rle_0_1)) as SQ. rewrite !sumR_const, seq_length, ?Rmult_1_r, ?Rmult_1_l in SQ.
    assert (PN : 0 <= INR (length (all_pairs n))) by apply pos_INR.
    apply Rle_trans with (INR (length (all_pairs n)) * (2 * kpair T * k ^ 2 * exp (- Rd / 2))); [rewrite (Rmult_comm pm); now apply Rmult_le_compat_l|].
    replace (INR (length (all_pairs n)) * (2 * kpair T * k ^ 2 * exp (- Rd / 2))) with ((2 * INR (length (all_pairs n))) * (kpair T * k ^ 2 * exp (- Rd / 2))) by ring.
    replace (kpair T * INR n ^ 2 * k ^ 2 * exp (- Rd / 2)) with ((INR n * INR n) * (kpair T * k ^ 2 * exp (- Rd / 2))) by ring. apply Rmult_le_compat_r; [lra|exact SQ].
Qed.
(** in discs of radius 2 log n + C the expected number of random numbers is at most linear in n *)
Theorem C79_linear : forall n alpha T C omp_max team, hcost_input n (2 * ln (INR n) + C) omp_max team -> 1 / 2 < alpha -> 1 / IZR (2 ^ 52) < T < 1 -> 2 * T * ln 99 <= 2 * ln (INR n) + C ->
  exists (F : list (list R) -> R) (m : R),
    (forall nd part seed ps, is_partition task_eq part -> points_in n 2 ps ->
       expected_hyp_draws nd part T (map (fun p => radius_of alpha (2 * ln (INR n) + C) (radius_draw p)) ps) (map (fun p => angle_of (angle_draw p)) ps) (2 * ln (INR n) + C) seed omp_max team (F ps)) /\
    is_points_mean n 2 F m /\
    m <= (480 * exp (C / 2) + (96 + 45 / (1 - Rpower 2 (1 - 1 / T))) * (10 * alpha / (2 * alpha - 1)) ^ 2 * exp (- C / 2)) * INR n.
Proof.
  intros n alpha T C omp_max team CI Ha HT H99. destruct (C79_sampled n alpha T _ omp_max team CI Ha HT H99) as (F & m & H1 & H2 & H3). exists F, m. split; [exact H1|]. split; [exact H2|]. fold (kpair T) in *.
  assert (N0 : 0 < INR n) by (apply lt_0_INR; pose proof (hc_n _ _ _ _ CI); lia). eapply Rle_trans; [exact H3|]. right.
  replace (- (2 * ln (INR n) + C) / 2) with (- ln (INR n) + - C / 2) by field. replace ((2 * ln (INR n) + C) / 2) with (ln (INR n) + C / 2) by field. rewrite !exp_plus, exp_Ropp, exp_ln by exact N0. set (k := 10 * alpha / (2 * alpha - 1)). field. lra.
Qed.

(** with the radius that calculateRadius returns for an average degree: linear in n for constant average degree *)
Theorem C79_calculated_radius : forall n alpha T deg Rd omp_max team, calculateRadius n alpha T deg = Some Rd -> hcost_input n Rd omp_max team -> 1 / 2 < alpha -> 1 / IZR (2 ^ 52) < T < 1 -> 2 * T * ln 99 <= Rd ->
  exists (F : list (list R) -> R) (m : R),
    (forall nd part seed ps, is_partition task_eq part -> points_in n 2 ps ->
       expected_hyp_draws nd part T (map (fun p => radius_of alpha Rd (radius_draw p)) ps) (map (fun p => angle_of (angle_draw p)) ps) Rd seed omp_max team (F ps)) /\
    is_points_mean n 2 F m /\
    m <= (960 * T / sin (PI * T) * (alpha / (alpha - 1 / 2)) ^ 2 / deg + (96 + 45 / (1 - Rpower 2 (1 - 1 / T))) * 25 / 2 * (sin (PI * T) / T) * deg) * INR n.
Proof.
  intros n alpha T deg Rd omp_max team HC CI Ha [T0 T1] H99. destruct (C79_sampled n alpha T Rd omp_max team CI Ha (conj T0 T1) H99) as (F & m & H1 & H2 & H3). exists F, m. split; [exact H1|]. split; [exact H2|]. fold (kpair T) in *.
  pose proof (T_pos T T0) as TP. assert (N0 : 0 < INR n) by (apply lt_0_INR; pose proof (hc_n _ _ _ _ CI); lia). eapply Rle_trans; [exact H3|]. right. unfold calculateRadius in HC.
  pose proof PI_RGT_0 as P0. assert (SP : 0 < sin (PI * T)) by (apply sin_gt_0; nra).
  destruct (Req_EM_T T 0) as [X|_]; [lra|]. unfold div_nz in HC. destruct (Req_EM_T (sin (PI * T)) 0) as [X|_]; [lra|]. cbn [obind] in HC. destruct (Req_EM_T _ 0) as [|ND]; [discriminate|]. cbn [obind] in HC. unfold log_pos in HC. destruct (Rlt_dec _ _) as [LP|]; [|discriminate]. cbn [obind] in HC. injection HC as <-.
  assert (DN : deg <> 0). { intros ->. apply ND. ring. }
  set (Q := INR n * 2 * alpha * alpha * (T / sin (PI * T)) / (deg * (alpha - 1 / 2) * (alpha - 1 / 2))) in *. replace (- (2 * ln Q) / 2) with (- ln Q) by field. replace (2 * ln Q / 2) with (ln Q) by field. rewrite exp_Ropp, exp_ln by exact LP. unfold Q. set (K := kpair T). field. repeat split; lra.
Qed.

(** ** Non-vacuity *)
Lemma ln99 : ln 99 <= 5.
Proof.
  rewrite <- (ln_exp 5). apply Rcomplements.ln_le; [lra|]. replace 5 with (1 + 1 + 1 + 1 + 1) by lra. rewrite !exp_plus. pose proof (exp_ineq1 1 ltac:(lra)). pose proof e_bounds as [B _]. set (e := exp 1) in *.
  assert (27 / 10 <= e) by lra. assert (729 / 100 <= e * e) by nra. assert (53 <= (e * e) * (e * e)) by nra. replace (e * e * e * e * e) with ((e * e) * (e * e) * e) by ring. nra.
Qed.
Example C79_inputs : hcost_input 100 6 2 2 /\ 1 / IZR (2 ^ 52) < 1 / 2 < 1 /\ 2 * (1 / 2) * ln 99 <= 6 /\
  List.Forall (fun r => 0 < r <= 6) (map (fun k => INR (k mod 6) + 1) (seq 0 100)) /\ is_partition task_eq ex_part.
Proof.
  destruct C76_inputs as (A & B & C & _). split; [exact A|]. split; [|split; [pose proof ln99; lra|split; assumption]].
  split; [|lra]. unfold Rdiv. rewrite !Rmult_1_l. apply Rinv_lt_contravar; [|apply IZR_lt; reflexivity]. apply Rmult_lt_0_compat; apply IZR_lt; reflexivity.
Qed.
Example C79_inputs_log : hcost_input 1000 (2 * ln (INR 1000) + 1) 1 1 /\ 2 * (1 / 2) * ln 99 <= 2 * ln (INR 1000) + 1.
Proof.
  split; [exact C76_inputs_log|]. assert (E : INR 1000 = 1000) by (rewrite INR_IZR_INZ; reflexivity). rewrite E. assert (ln 99 <= ln 1000) by (apply Rcomplements.ln_le; lra). assert (0 < ln 99) by (rewrite <- ln_1; apply ln_increasing; lra). lra.
Qed.
Example C79_inputs_radius : exists deg Rd, calculateRadius 1000 1 (1 / 2) deg = Some Rd /\ hcost_input 1000 Rd 1 1 /\ 2 * (1 / 2) * ln 99 <= Rd /\ 0 < deg.
Proof.
  exists (4 * exp (- / 2)), (2 * ln (INR 1000) + 1). pose proof (exp_pos (- / 2)) as E0. assert (E : INR 1000 = 1000) by (rewrite INR_IZR_INZ; reflexivity).
  split; [|split; [apply C79_inputs_log|split; [apply C79_inputs_log|lra]]]. unfold calculateRadius. destruct (Req_EM_T (1 / 2) 0) as [X|_]; [lra|]. unfold div_nz. replace (PI * (1 / 2)) with (PI / 2) by field. rewrite sin_PI2.
  destruct (Req_EM_T 1 0) as [X|_]; [lra|]. cbn [obind]. destruct (Req_EM_T _ 0) as [Z|_]; [lra|]. cbn [obind].
  replace (INR 1000 * 2 * 1 * 1 * (1 / 2 / 1) / (4 * exp (- / 2) * (1 - 1 / 2) * (1 - 1 / 2))) with (1000 * exp (/ 2)).
  2:{ rewrite E, exp_Ropp. pose proof (exp_pos (/ 2)). field. lra. }
  unfold log_pos. pose proof (exp_pos (/ 2)). destruct (Rlt_dec _ _) as [_|N]; [|lra]. cbn [obind]. f_equal. rewrite E, ln_mult, ln_exp by lra. field.
Qed.
Print Assumptions C79_given_radii.
Print Assumptions C79_sampled.
Print Assumptions C79_linear.
Print Assumptions C79_at_least_threshold.
Print Assumptions C79_calculated_radius.
