(** Property C76: how many pairs of points a hyperbolic threshold graph costs. *)
From Coq Require Import Arith NArith ZArith List Bool Reals Permutation Lia Lra Psatz.
From Flocq Require Import Core.
From Coquelicot Require Import Coquelicot.
From Verif Require Import Base Sched Bits_Proofs Coord_Model Coord_Proofs Coord_Geo Tree_Model Tree_Proofs Tree_Plan Tree_Run Girg_Model Girg_Num Prop_Girg
  Hyp_Model Hyp_Math Hyp_Angle Hyp_Levels Hyp_Build Hyp_Run Hyp_Sched Hyp_Threads Hyp_Gen Prop_Hyp HypIn_Model Prop_HypIn Mean Prop_Mean Sampling_Model Scaling_Model Cost_Touch Prop_Cost HypCost_Calls HypCost_Mean.
Import ListNotations.
Local Open Scope R_scope.

(** ** Specification *)
(** the number of pairs of points whose hyperbolic distance is compared with R one by one, over all units of work of all threads *)
Definition hcomparisons {T} (rss : list (list (result T))) : nat := length (filter is_comparison (flat_map evs (concat rss))).
(** every run of the constructor and of generate for the threshold graph makes k comparisons, and there is one *)
Definition always_compares_hyp (nd : bool) (part : list (N * N) -> list (N * N)) (hg : hrng) (radii angles : list R) (Rd : R) (seed : Z) (omp_max team k : nat) : Prop :=
  (exists t rss, htree_outcome radii angles 0 Rd omp_max (Some t) /\ generate_outcome nd part t hg seed omp_max team (Some rss)) /\
  (forall t rss, htree_outcome radii angles 0 Rd omp_max (Some t) -> generate_outcome nd part t hg seed omp_max team (Some rss) -> hcomparisons rss = k).
(** the inputs of a hyperbolic random graph apart from the points *)
Record hcost_input (n : nat) (Rd : R) (omp_max team : nat) : Prop := {
  hc_n : (1 <= n)%nat;
  hc_n31 : (N.of_nat n < 2 ^ 31)%N;
  hc_R : 4 / 3 <= Rd <= 40;
  hc_omp : (1 <= N.of_nat omp_max <= 2 ^ 17)%N;
  hc_team : (1 <= team <= omp_max)%nat;
  hc_returns : returns Rd omp_max team }.
(** a point drawn from two numbers of [0,1): its radius and its angle as sampleRadiiAndAngles computes them *)
Definition radius_draw (p : list R) : R := nth 0 p 0.
Definition angle_draw (p : list R) : R := nth 1 p 0.

(** ** Proofs *)
Lemma comparisons_compared {T} (rs : list (result T)) : length (filter is_comparison (flat_map evs rs)) = length (flat_map compared_of rs).
Proof.
  induction rs as [|r rs IH]; [reflexivity|]. cbn [flat_map]. rewrite filter_app, !app_length, IH. f_equal. unfold compared_of. clear. induction (evs r) as [|[u v h|A B C] es IH]; cbn; [reflexivity| |exact IH]. now rewrite IH.
Qed.
Definition hind (Rd : R) (r s x y : R) : R := if near1 (base Rd (layer_of Rd r) (layer_of Rd s)) x y then 1 else 0.
Definition hpairs_sum (Rd : R) (radii xs : list R) : R :=
  sumR (map (fun u => sumR (map (fun v => if (u =? v)%nat then 0 else hind Rd (nth u radii 0) (nth v radii 0) (nth u xs 0) (nth v xs 0)) (seq 0 (length radii)))) (seq 0 (length radii))).
Lemma angle_unit x : angle_of x / 2 / PI = x.
Proof. unfold angle_of, uni. pose proof PI_RGT_0. field. lra. Qed.
Lemma hcost_hrg n Rd omp_max team radii xs : hcost_input n Rd omp_max team -> length radii = n -> List.Forall (fun r => 0 < r <= Rd) radii -> in_cube n xs ->
  hrg_input radii (map angle_of xs) Rd omp_max team.
Proof.
  intros [H1 H2 H3 H4 H5 H6] L FR [LX FX]. constructor; auto; try (rewrite ?map_length, ?L, ?LX; auto; fail); [lra| |left; lra].
  apply List.Forall_map. eapply List.Forall_impl; [|exact FX]. intros x Hx. cbn beta in Hx. unfold angle_of, uni. pose proof PI_RGT_0. split; nra.
Qed.
Section Runs.
  Context {n : nat} {Rd : R} {omp_max team : nat} (CI : hcost_input n Rd omp_max team).
  Context {radii xs : list R} (LR : length radii = n) (FR : List.Forall (fun r => 0 < r <= Rd) radii) (CX : in_cube n xs).
  Variables (nd : bool) (part : list (N * N) -> list (N * N)) (HP : is_partition task_eq part) (hg : hrng) (GG : good_rng (hb hg)) (seed : Z).
  Notation angles := (map angle_of xs).
  Let HI := hcost_hrg n Rd omp_max team radii xs CI LR FR CX.
  Lemma hrun_exists : exists t rss, htree_outcome radii angles 0 Rd omp_max (Some t) /\ generate_outcome nd part t hg seed omp_max team (Some rss).
  Proof.
    destruct (omp_nat _ (hi_omp _ _ _ _ _ HI)) as [O1 O2]. destruct (hbuild_ok radii angles 0 Rd (use_di HI) omp_max O1) as (t & ord & TS & HT & _).
    destruct (generate_ok radii angles 0 Rd (use_di HI) t ord TS hg GG nd part HP seed omp_max team O2 (hi_team _ _ _ _ _ HI)) as (G1 & _ & _).
    destruct (G1 (proj2 (use_finishing HI 0 t ord TS) (hc_returns _ _ _ _ CI))) as (rss & HG). exists t, rss. now split.
  Qed.
  Lemma hrun_count t rss : htree_outcome radii angles 0 Rd omp_max (Some t) -> generate_outcome nd part t hg seed omp_max team (Some rss) ->
    hpairs_sum Rd radii xs = 2 * INR (hcomparisons rss).
  Proof.
    intros HT HG. destruct (omp_nat _ (hi_omp _ _ _ _ _ HI)) as [O1 O2]. destruct (hbuild_ok radii angles 0 Rd (use_di HI) omp_max O1) as (t' & ord & TS & _ & HU). specialize (HU _ HT). injection HU as <-.
    pose proof (generate_compared radii angles 0 Rd (use_di HI) t ord TS hg GG nd part HP eq_refl seed omp_max team rss O2 (hi_team _ _ _ _ _ HI) HG) as PM.
    unfold hcomparisons. rewrite comparisons_compared, (Permutation_length PM). unfold hpairs_sum. apply count_edges.
    - eapply compared_NoDup; eassumption || exact (use_di HI).
    - intros u v I. destruct (compared_once radii angles 0 Rd (use_di HI) t ord TS u v I) as (Hu & Hv & _). now split.
    - intros u I. destruct (compared_once radii angles 0 Rd (use_di HI) t ord TS u u I) as (_ & _ & N & _). now apply N.
    - intros u v I. apply (compared_once radii angles 0 Rd (use_di HI) t ord TS u v I).
    - intros u v Hu Hv Huv. pose proof (compared_iff radii angles 0 Rd (use_di HI) t ord TS eq_refl u v Hu Hv Huv) as Q.
      assert (PH : forall w, (w < length radii)%nat -> phi angles w / 2 / PI = nth w xs 0).
      { intros w Hw. unfold phi. rewrite (nth_indep angles 0 (angle_of 0)), map_nth by (rewrite map_length; pose proof (proj1 CX); lia). apply angle_unit. }
      rewrite !PH in Q by assumption. unfold hlvl, hlay, rad in Q. fold (layer_of Rd (nth u radii 0)) (layer_of Rd (nth v radii 0)) in Q. unfold hind.
      destruct (near1 _ _ _); split; intros H; try reflexivity; exfalso; [apply H; now apply Q|]. apply Q in H. discriminate.
  Qed.
End Runs.
Definition hcount (Rd : R) (radii xs : list R) : nat := Z.to_nat (Zfloor (hpairs_sum Rd radii xs / 2)).
Lemma hcount_ok n Rd omp_max team radii xs : hcost_input n Rd omp_max team -> length radii = n -> List.Forall (fun r => 0 < r <= Rd) radii -> in_cube n xs ->
  forall nd part hg seed, is_partition task_eq part -> good_rng (hb hg) ->
  always_compares_hyp nd part hg radii (map angle_of xs) Rd seed omp_max team (hcount Rd radii xs) /\ INR (hcount Rd radii xs) = hpairs_sum Rd radii xs / 2.
Proof.
  intros CI LR FR CX nd part hg seed HP GG.
  assert (K : forall t rss, htree_outcome radii (map angle_of xs) 0 Rd omp_max (Some t) -> generate_outcome nd part t hg seed omp_max team (Some rss) -> hcount Rd radii xs = hcomparisons rss /\ INR (hcount Rd radii xs) = hpairs_sum Rd radii xs / 2).
  { intros t rss HT HG. pose proof (hrun_count CI LR FR CX nd part HP hg GG seed t rss HT HG) as E. unfold hcount. rewrite E. replace (2 * INR (hcomparisons rss) / 2) with (INR (hcomparisons rss)) by field.
    rewrite (INR_IZR_INZ (hcomparisons rss)), Zfloor_IZR, Nat2Z.id. split; [reflexivity|]. apply INR_IZR_INZ. }
  destruct (hrun_exists CI LR FR CX nd part HP hg GG seed) as (t & rss & HT & HG). split.
  - split; [exists t, rss; now split|]. intros t' rss' HT' HG'. symmetry. now apply (K t').
  - now apply (K t rss).
Qed.
Lemma hind_mean Rd r s x : 0 <= x < 1 -> is_RInt (fun y => hind Rd r s x y) 0 1 (near_prob (base Rd (layer_of Rd r) (layer_of Rd s))).
Proof. intros Hx. unfold hind. now apply near1_mean. Qed.
Lemma hind_sym Rd r s x y : hind Rd r s x y = hind Rd s r y x.
Proof. unfold hind. now rewrite near1_sym, base_sym. Qed.
Lemma cube1 (F : list R -> R) m : is_RInt (fun t => F [t]) 0 1 m -> is_cube_mean 1 F m.
Proof. intros H. exists (fun t => F [t]). split; [|exact H]. intros t _. reflexivity. Qed.
Lemma nth_concat1 n : forall ps u, points_in n 1 ps -> (u < n)%nat -> nth u (concat ps) 0 = nth 0 (nth u ps []) 0.
Proof.
  induction n as [|n IH]; intros ps u [L F] Hu; [lia|]. destruct ps as [|p ps]; [discriminate|]. inversion F as [|? ? Hp Fp]; subst. destruct Hp as [Lp _]. destruct p as [|x [|? ?]]; cbn in Lp; try lia.
  destruct u as [|u]; [reflexivity|]. cbn [concat app nth]. apply IH; [|lia]. split; [cbn in L; lia|exact Fp].
Qed.
(** the points are given, the angles are drawn *)
Theorem C76_given_radii : forall n Rd omp_max team radii, hcost_input n Rd omp_max team -> length radii = n -> List.Forall (fun r => 0 < r <= Rd) radii ->
  exists (F : list R -> nat) (m : R),
    (forall nd part hg seed xs, is_partition task_eq part -> good_rng (hb hg) -> in_cube n xs -> always_compares_hyp nd part hg radii (map angle_of xs) Rd seed omp_max team (F xs)) /\
    is_cube_mean n (fun xs => INR (F xs)) m /\ m <= 6 * exp (Rd / 2) * sumR (map (fun r => exp (- r / 2)) radii) ^ 2.
Proof.
  intros n Rd omp_max team radii CI LR FR. set (lp := fun u v => near_prob (base Rd (layer_of Rd (nth u radii 0)) (layer_of Rd (nth v radii 0)))).
  set (M := sumR (map (fun u => sumR (map (fun v => if (u =? v)%nat then 0 else lp u v) (seq 0 n))) (seq 0 n))).
  exists (hcount Rd radii), (M / 2). split; [|split].
  - intros nd part hg seed xs HP GG CX. apply (hcount_ok n Rd omp_max team radii xs CI LR FR CX nd part hg seed HP GG).
  - assert (PM : is_points_mean n 1 (fun ps => / 2 * hpairs_sum Rd radii (concat ps)) (/ 2 * M)).
    { apply points_mean_scal. unfold hpairs_sum, M. rewrite LR.
      apply (points_mean_sum n 1 (fun u ps => sumR (map (fun v => if (u =? v)%nat then 0 else hind Rd (nth u radii 0) (nth v radii 0) (nth u (concat ps) 0) (nth v (concat ps) 0)) (seq 0 n)))). intros u Hu. apply in_seq in Hu.
      apply (points_mean_sum n 1 (fun v ps => if (u =? v)%nat then 0 else hind Rd (nth u radii 0) (nth v radii 0) (nth u (concat ps) 0) (nth v (concat ps) 0))). intros v Hv. apply in_seq in Hv.
      destruct (Nat.eqb_spec u v) as [E|E]; [apply points_mean_const|].
      apply (points_mean_ext 1 n (fun ps => (fun x y => hind Rd (nth u radii 0) (nth v radii 0) (nth 0 x 0) (nth 0 y 0)) (nth u ps []) (nth v ps []))).
      { intros ps Hps. cbv beta. rewrite !(nth_concat1 n ps) by (assumption || lia). reflexivity. }
      apply (points_mean_two 1 (fun x y => hind Rd (nth u radii 0) (nth v radii 0) (nth 0 x 0) (nth 0 y 0))); [| |lia|lia|exact E].
      - intros [|x [|? ?]] [Lx Fx]; cbn in Lx; try lia. inversion Fx; subst. apply cube1. cbn [nth]. now apply hind_mean.
      - intros [|x [|? ?]] [Lx Fx]; cbn in Lx; try lia. inversion Fx; subst. apply cube1. cbn [nth]. unfold lp. rewrite base_sym.
        apply (is_RInt_ext (fun y => hind Rd (nth v radii 0) (nth u radii 0) x y)); [intros y _; apply hind_sym|]. now apply hind_mean. }
    replace (M / 2) with (/ 2 * M) by field. apply (points1_cube n (fun xs => INR (hcount Rd radii xs))). apply (points_mean_ext 1 n _ _ _) with (2 := PM).
    intros ps [LP FP]. assert (CX : in_cube n (concat ps)).
    { clear -LP FP. revert n LP. induction FP as [|p ps [Lp Fp] FP IH]; intros n LP; cbn in LP; subst n; [split; [reflexivity|constructor]|]. destruct (IH _ eq_refl) as [L F]. cbn [concat]. split; [rewrite app_length; lia|]. apply List.Forall_app. now split. }
    destruct (hcount_ok n Rd omp_max team radii _ CI LR FR CX true ex_part ex_hrng 0%Z ex_part_ok ex_rng_good) as [_ ->]. field.
  - assert (BM : M <= sumR (map (fun u => sumR (map (fun v => 12 * exp (Rd / 2) * exp (- nth u radii 0 / 2) * exp (- nth v radii 0 / 2)) (seq 0 n))) (seq 0 n))).
    { apply sumR_le. intros u Hu. apply in_seq in Hu. apply sumR_le. intros v Hv. apply in_seq in Hv. rewrite List.Forall_forall in FR. pose proof (FR _ (nth_In radii 0 (n := u) ltac:(lia))) as Ru. pose proof (FR _ (nth_In radii 0 (n := v) ltac:(lia))) as Rv.
      replace (12 * exp (Rd / 2) * exp (- nth u radii 0 / 2) * exp (- nth v radii 0 / 2)) with (12 * exp ((Rd - nth u radii 0 - nth v radii 0) / 2)).
      2:{ rewrite !Rmult_assoc, <- !exp_plus. do 2 f_equal. field. }
      destruct (u =? v)%nat; [pose proof (exp_pos ((Rd - nth u radii 0 - nth v radii 0) / 2)); lra|]. apply near_radius; [apply CI|exact Ru|exact Rv]. }
    set (S := sumR (map (fun r => exp (- r / 2)) radii)).
    assert (SE : sumR (map (fun u => exp (- nth u radii 0 / 2)) (seq 0 n)) = S).
    { unfold S. f_equal. rewrite <- LR. apply (nth_ext _ _ 0 0); rewrite !map_length, seq_length; [reflexivity|]. intros k Hk.
      rewrite (nth_indep _ 0 (exp (- nth 0 radii 0 / 2))) by (rewrite map_length, seq_length; lia). rewrite (map_nth (fun u => exp (- nth u radii 0 / 2)) (seq 0 (length radii)) 0%nat), seq_nth by lia.
      symmetry. etransitivity; [apply nth_indep with (d' := exp (- 0 / 2)); rewrite map_length; lia|]. rewrite (map_nth (fun r => exp (- r / 2))). reflexivity. }
    assert (SM : sumR (map (fun u => sumR (map (fun v => 12 * exp (Rd / 2) * exp (- nth u radii 0 / 2) * exp (- nth v radii 0 / 2)) (seq 0 n))) (seq 0 n)) = 12 * exp (Rd / 2) * S * S).
    { transitivity (sumR (map (fun u => 12 * exp (Rd / 2) * S * exp (- nth u radii 0 / 2)) (seq 0 n))).
      - apply sumR_ext. intros u _. rewrite (sumR_scal (12 * exp (Rd / 2) * exp (- nth u radii 0 / 2)) (fun v => exp (- nth v radii 0 / 2))), SE. ring.
      - rewrite (sumR_scal (12 * exp (Rd / 2) * S) (fun u => exp (- nth u radii 0 / 2))), SE. reflexivity. }
    rewrite SM in BM. cbn [pow]. rewrite Rmult_1_r. lra.
Qed.
(** radii and angles are drawn *)
Theorem C76_sampled : forall n alpha Rd omp_max team, hcost_input n Rd omp_max team -> 1 / 2 < alpha ->
  exists (F : list (list R) -> nat) (m : R),
    (forall nd part hg seed ps, is_partition task_eq part -> good_rng (hb hg) -> points_in n 2 ps ->
       always_compares_hyp nd part hg (map (fun p => radius_of alpha Rd (radius_draw p)) ps) (map (fun p => angle_of (angle_draw p)) ps) Rd seed omp_max team (F ps)) /\
    is_points_mean n 2 (fun ps => INR (F ps)) m /\
    m <= 6 * INR n ^ 2 * (10 * alpha / (2 * alpha - 1)) ^ 2 * exp (- Rd / 2).
Proof.
  intros n alpha Rd omp_max team CI Ha. pose proof (hc_R _ _ _ _ CI) as HR.
  set (rr := fun ps : list (list R) => map (fun p => radius_of alpha Rd (radius_draw p)) ps). set (xx := fun ps : list (list R) => map angle_draw ps).
  assert (CUBE2 : forall p, in_cube 2 p -> 0 <= radius_draw p < 1 /\ 0 <= angle_draw p < 1).
  { intros [|x [|t [|? ?]]] [L F]; cbn in L; try lia. inversion F as [|? ? F1 F']; subst. inversion F' as [|? ? F2 _]; subst. split; assumption. }
  assert (OKP : forall ps, points_in n 2 ps -> length (rr ps) = n /\ List.Forall (fun r => 0 < r <= Rd) (rr ps) /\ in_cube n (xx ps)).
  { intros ps [L F]. unfold rr, xx. rewrite map_length. split; [exact L|]. split.
    - apply List.Forall_map. eapply List.Forall_impl; [|exact F]. intros p Hp. apply (rad_range alpha Rd Ha HR). apply CUBE2, Hp.
    - split; [now rewrite map_length|]. apply List.Forall_map. eapply List.Forall_impl; [|exact F]. intros p Hp. apply CUBE2, Hp. }
  set (pm := pair_mean alpha Rd). set (M := sumR (map (fun u => sumR (map (fun v => if (u =? v)%nat then 0 else pm) (seq 0 n))) (seq 0 n))).
  exists (fun ps => hcount Rd (rr ps) (xx ps)), (/ 2 * M). split; [|split].
  - intros nd part hg seed ps HP GG Hps. destruct (OKP ps Hps) as (L & FR & CX). replace (map (fun p => angle_of (angle_draw p)) ps) with (map angle_of (xx ps)) by (unfold xx; apply map_map).
    apply (hcount_ok n Rd omp_max team (rr ps) (xx ps) CI L FR CX nd part hg seed HP GG).
  - set (H := fun p q : list R => hind Rd (radius_of alpha Rd (radius_draw p)) (radius_of alpha Rd (radius_draw q)) (angle_draw p) (angle_draw q)).
    assert (PM : is_points_mean n 2 (fun ps => / 2 * sumR (map (fun u => sumR (map (fun v => if (u =? v)%nat then 0 else H (nth u ps []) (nth v ps [])) (seq 0 n))) (seq 0 n))) (/ 2 * M)).
    { apply points_mean_scal. unfold M.
      apply (points_mean_sum n 2 (fun u ps => sumR (map (fun v => if (u =? v)%nat then 0 else H (nth u ps []) (nth v ps [])) (seq 0 n)))). intros u Hu. apply in_seq in Hu.
      apply (points_mean_sum n 2 (fun v ps => if (u =? v)%nat then 0 else H (nth u ps []) (nth v ps []))). intros v Hv. apply in_seq in Hv.
      destruct (Nat.eqb_spec u v) as [E|E]; [apply points_mean_const|].
      assert (H1 : forall p, in_cube 2 p -> is_cube_mean 2 (H p) (layer_mean alpha Rd (fun j => near_prob (base Rd (layer_of Rd (radius_of alpha Rd (radius_draw p))) j)))).
      { intros p Hp. destruct (CUBE2 p Hp) as [_ Ap]. exists (fun x => near_prob (base Rd (layer_of Rd (radius_of alpha Rd (radius_draw p))) (layer_of Rd (radius_of alpha Rd x)))). split.
        - intros x Hx. apply cube1. unfold H, radius_draw, angle_draw. cbn [nth]. now apply hind_mean.
        - apply (layer_RInt alpha Rd Ha HR (fun j => near_prob (base Rd (layer_of Rd (radius_of alpha Rd (radius_draw p))) j))). }
      apply (points_mean_two_gen 2 H (fun p => layer_mean alpha Rd (fun j => near_prob (base Rd (layer_of Rd (radius_of alpha Rd (radius_draw p))) j)))); [exact H1| | |lia|lia|exact E].
      - intros p Hp. apply (cube_mean_ext 2 (H p)); [|now apply H1]. intros q _. unfold H. apply hind_sym.
      - exists (fun x => layer_mean alpha Rd (fun j => near_prob (base Rd (layer_of Rd (radius_of alpha Rd x)) j))). split.
        + intros x Hx. unfold radius_draw. cbn [nth]. apply (cube_mean_const 1).
        + apply (layer_RInt alpha Rd Ha HR (fun i => layer_mean alpha Rd (fun j => near_prob (base Rd i j)))). }
    apply (points_mean_ext 2 n _ _ _) with (2 := PM). intros ps Hps. destruct (OKP ps Hps) as (L & FR & CX).
    destruct (hcount_ok n Rd omp_max team _ _ CI L FR CX true ex_part ex_hrng 0%Z ex_part_ok ex_rng_good) as [_ ->]. unfold hpairs_sum. rewrite L.
    unfold Rdiv. rewrite Rmult_comm. apply Rmult_eq_compat_r. apply sumR_ext. intros u Hu. apply in_seq in Hu. apply sumR_ext. intros v Hv. apply in_seq in Hv. destruct (u =? v)%nat; [reflexivity|].
    assert (NR : forall w, (w < n)%nat -> nth w (rr ps) 0 = radius_of alpha Rd (radius_draw (nth w ps [])) /\ nth w (xx ps) 0 = angle_draw (nth w ps [])).
    { intros w Hw. assert (LP : length ps = n) by apply Hps. unfold rr, xx. split.
      - rewrite (nth_indep _ 0 (radius_of alpha Rd (radius_draw []))) by (rewrite map_length; lia). now rewrite (map_nth (fun p => radius_of alpha Rd (radius_draw p))).
      - rewrite (nth_indep _ 0 (angle_draw [])) by (rewrite map_length; lia). now rewrite (map_nth angle_draw). }
    unfold H. destruct (NR u ltac:(lia)) as [-> ->]. destruct (NR v ltac:(lia)) as [-> ->]. reflexivity.
  - pose proof (pair_mean_le alpha Rd Ha HR) as PL. fold pm in PL. set (k := 10 * alpha / (2 * alpha - 1)) in *.
    assert (EB : 12 * exp (Rd / 2) * (k * exp (- Rd / 2)) ^ 2 = 12 * k ^ 2 * exp (- Rd / 2)).
    { cbn [pow]. rewrite !Rmult_1_r. replace (12 * exp (Rd / 2) * (k * exp (- Rd / 2) * (k * exp (- Rd / 2)))) with (12 * (k * k) * exp (- Rd / 2) * (exp (Rd / 2) * exp (- Rd / 2))) by ring. rewrite <- (exp_plus (Rd / 2)). replace (Rd / 2 + - Rd / 2) with 0 by field. rewrite exp_0. ring. }
    rewrite EB in PL. set (B := 12 * k ^ 2 * exp (- Rd / 2)) in *. assert (B0 : 0 <= B). { unfold B. apply Rmult_le_pos; [|left; apply exp_pos]. apply Rmult_le_pos; [lra|]. cbn [pow]. rewrite Rmult_1_r. apply Rle_0_sqr. }
    assert (BM : M <= sumR (map (fun u => sumR (map (fun v => B) (seq 0 n))) (seq 0 n))).
    { apply sumR_le. intros u _. apply sumR_le. intros v _. destruct (u =? v)%nat; assumption. }
    assert (SC : forall (X : R) l, sumR (map (fun _ : nat => X) l) = INR (length l) * X). { intros X. induction l as [|a l IH]; [cbn; ring|]. unfold sumR in *. cbn [map fold_right]. rewrite IH. cbn [length]. rewrite S_INR. ring. }
    rewrite SC, SC, seq_length in BM. unfold B in BM. cbn [pow] in *. rewrite Rmult_1_r in *. lra.
Qed.
(** in discs of radius 2 log n + C the mean number of comparisons is at most linear in n *)
Theorem C76_linear : forall n alpha C omp_max team, hcost_input n (2 * ln (INR n) + C) omp_max team -> 1 / 2 < alpha ->
  exists (F : list (list R) -> nat) (m : R),
    (forall nd part hg seed ps, is_partition task_eq part -> good_rng (hb hg) -> points_in n 2 ps ->
       always_compares_hyp nd part hg (map (fun p => radius_of alpha (2 * ln (INR n) + C) (radius_draw p)) ps) (map (fun p => angle_of (angle_draw p)) ps) (2 * ln (INR n) + C) seed omp_max team (F ps)) /\
    is_points_mean n 2 (fun ps => INR (F ps)) m /\
    m <= 6 * (10 * alpha / (2 * alpha - 1)) ^ 2 * exp (- C / 2) * INR n.
Proof.
  intros n alpha C omp_max team CI Ha. destruct (C76_sampled n alpha _ omp_max team CI Ha) as (F & m & H1 & H2 & H3). exists F, m. split; [exact H1|]. split; [exact H2|].
  assert (N0 : 0 < INR n) by (apply lt_0_INR; pose proof (hc_n _ _ _ _ CI); lia). eapply Rle_trans; [exact H3|]. right.
  replace (- (2 * ln (INR n) + C) / 2) with (- ln (INR n) + - C / 2) by field. rewrite exp_plus, exp_Ropp, exp_ln by exact N0. field. split; lra.
Qed.

(** with the radius that calculateRadius returns for an average degree, the mean number of comparisons is at most 75 pi times the sum of the
    expected degrees *)
Theorem C76_calculated_radius : forall n alpha deg Rd omp_max team, calculateRadius n alpha 0 deg = Some Rd -> hcost_input n Rd omp_max team -> 1 / 2 < alpha ->
  exists (F : list (list R) -> nat) (m : R),
    (forall nd part hg seed ps, is_partition task_eq part -> good_rng (hb hg) -> points_in n 2 ps ->
       always_compares_hyp nd part hg (map (fun p => radius_of alpha Rd (radius_draw p)) ps) (map (fun p => angle_of (angle_draw p)) ps) Rd seed omp_max team (F ps)) /\
    is_points_mean n 2 (fun ps => INR (F ps)) m /\
    m <= 75 * PI * (deg * INR n).
Proof.
  intros n alpha deg Rd omp_max team HC CI Ha. destruct (C76_sampled n alpha Rd omp_max team CI Ha) as (F & m & H1 & H2 & H3). exists F, m. split; [exact H1|]. split; [exact H2|].
  assert (N0 : 0 < INR n) by (apply lt_0_INR; pose proof (hc_n _ _ _ _ CI); lia). eapply Rle_trans; [exact H3|]. right. unfold calculateRadius in HC.
  destruct (Req_EM_T 0 0) as [_|X]; [|lra]. cbn [obind] in HC. unfold div_nz in HC. destruct (Req_EM_T _ 0) as [|ND]; [discriminate|]. cbn [obind] in HC. unfold log_pos in HC. destruct (Rlt_dec _ _) as [LP|]; [|discriminate]. cbn [obind] in HC. injection HC as <-.
  pose proof PI_RGT_0 as P0. assert (DN : deg <> 0). { intros ->. apply ND. ring. }
  set (Q := INR n * 2 * alpha * alpha * (1 / PI) / (deg * (alpha - 1 / 2) * (alpha - 1 / 2))) in *. replace (- (2 * ln Q) / 2) with (- ln Q) by field. rewrite exp_Ropp, exp_ln by exact LP. unfold Q. field. repeat split; lra.
Qed.

(** ** Non-vacuity *)
Example C76_inputs : hcost_input 100 6 2 2 /\ List.Forall (fun r => 0 < r <= 6) (map (fun k => INR (k mod 6) + 1) (seq 0 100)) /\ is_partition task_eq ex_part /\ good_rng (hb ex_hrng).
Proof.
  split; [|split; [|split; [exact ex_part_ok|exact ex_rng_good]]].
  - constructor; try lia; try lra. exact ex_hrg_returns.
  - apply List.Forall_map, List.Forall_forall. intros k _. pose proof (Nat.mod_upper_bound k 6 ltac:(lia)) as H. assert (INR (k mod 6) <= INR 5) by (apply le_INR; lia). pose proof (pos_INR (k mod 6)). cbn [INR] in *. lra.
Qed.
Example C76_inputs_log : hcost_input 1000 (2 * ln (INR 1000) + 1) 1 1.
Proof.
  assert (E : INR 1000 = 1000) by (rewrite INR_IZR_INZ; reflexivity). rewrite E. assert (L1 : 1 <= ln 1000). { rewrite <- (ln_exp 1). apply Rcomplements.ln_le; [apply exp_pos|]. pose proof e_bounds. lra. }
  assert (L2 : ln 1000 <= 10). { rewrite <- (ln_exp 10). apply Rcomplements.ln_le; [lra|]. replace 10 with (1 + 1 + 1 + 1 + 1 + 1 + 1 + 1 + 1 + 1) by lra. rewrite !exp_plus. pose proof e_bounds as [B _]. set (e := exp 1) in *. assert (2 <= e) by lra.
    assert (4 <= e * e) by nra. assert (16 <= (e * e) * (e * e)) by nra. assert (256 <= ((e * e) * (e * e)) * ((e * e) * (e * e))) by nra. replace (e * e * e * e * e * e * e * e * e * e) with (((e * e) * (e * e)) * ((e * e) * (e * e)) * (e * e)) by ring. nra. }
  constructor; try lia; try lra. now left.
Qed.
Print Assumptions C76_given_radii.
Print Assumptions C76_sampled.
Print Assumptions C76_linear.
Example C76_inputs_radius : exists deg Rd, calculateRadius 1000 1 0 deg = Some Rd /\ hcost_input 1000 Rd 1 1 /\ 0 < deg.
Proof.
  exists (8 * exp (- / 2) / PI), (2 * ln (INR 1000) + 1). pose proof PI_RGT_0 as P0. pose proof (exp_pos (- / 2)) as E0. assert (E : INR 1000 = 1000) by (rewrite INR_IZR_INZ; reflexivity). assert (D0 : 0 < 8 * exp (- / 2) / PI) by (apply Rdiv_lt_0_compat; lra).
  split; [|split; [exact C76_inputs_log|exact D0]]. unfold calculateRadius. destruct (Req_EM_T 0 0) as [_|X]; [|lra]. cbn [obind]. unfold div_nz. destruct (Req_EM_T _ 0) as [Z|_]; [lra|]. cbn [obind].
  replace (INR 1000 * 2 * 1 * 1 * (1 / PI) / (8 * exp (- / 2) / PI * (1 - 1 / 2) * (1 - 1 / 2))) with (1000 * exp (/ 2)).
  2:{ rewrite E, exp_Ropp. pose proof (exp_pos (/ 2)). field. lra. }
  unfold log_pos. pose proof (exp_pos (/ 2)). destruct (Rlt_dec _ _) as [_|N]; [|lra]. cbn [obind]. f_equal. rewrite E, ln_mult, ln_exp by lra. field.
Qed.
Print Assumptions C76_calculated_radius.
