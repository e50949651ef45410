(** Properties C36-C39, C48: hypergirgs::generateEdges, in exact real arithmetic.
    Specification vocabulary: [is_hyp_dist] (hyperbolic distance of two points in polar coordinates), [interleaving] (Sched.v). *)
From Coq Require Import Arith NArith ZArith List Bool Reals Permutation Lia Lra.
From Flocq Require Import Core.
From Verif Require Import Base Sched Bits_Model Bits_Proofs Coord_Model Coord_Proofs Coord_Geo IntSort_Model IntSort_Proofs Prop_IntSort Prefix_Model
  Tree_Model Cover Tree_Proofs Tree_Build Tree_Plan Tree_Run Girg_Model Girg_Proofs Girg_Num Prop_Girg Hyp_Model Hyp_Math Hyp_Angle Hyp_Levels Hyp_Build Hyp_Run
  Hyp_Sched Hyp_Threads Hyp_Gen.
Import ListNotations.
Local Open Scope nat_scope.

(** the hyperbolic law of cosines determines the distance *)
Definition is_hyp_dist (r1 phi1 r2 phi2 d : R) : Prop :=
  (0 <= d /\ cosh d = cosh r1 * cosh r2 - sinh r1 * sinh r2 * cos (phi1 - phi2))%R.
Lemma hyp_dist_exists r1 p1 r2 p2 : is_hyp_dist r1 p1 r2 p2 (hyp_distance r1 p1 r2 p2).
Proof.
  unfold is_hyp_dist. rewrite hyp_distance_eq. split; [apply acosh_nonneg, hc_ge_1|]. rewrite cosh_acosh by apply hc_ge_1. reflexivity.
Qed.
Lemma hyp_dist_unique r1 p1 r2 p2 d : is_hyp_dist r1 p1 r2 p2 d -> d = hyp_distance r1 p1 r2 p2.
Proof.
  intros [H0 H1]. rewrite hyp_distance_eq. unfold hc. rewrite <- H1. symmetry. now apply acosh_cosh.
Qed.

(** Valid inputs: at least one point; radii in (0,R], angles in [0,2pi); a disc of radius 2/3 <= R <= 40 (up to e^20 points of constant average
    degree), where a disc with 1 < R < 4/3 must not have a point in the second layer; indices are int; up to 2^17 OpenMP threads. *)
Record hrg_input (radii angles : list R) (Rd : R) (omp_max team : nat) : Prop := {
  hi_len : length radii = length angles;
  hi_n : 1 <= length radii;
  hi_n31 : (N.of_nat (length radii) < 2 ^ 31)%N;
  hi_R : (2 / 3 <= Rd <= 40)%R;
  hi_r : Forall (fun r => 0 < r <= Rd)%R radii;
  hi_phi : Forall (fun phi => 0 <= phi < 2 * PI)%R angles;
  hi_thin : (4 / 3 <= Rd \/ Rd <= 1 \/ Forall (fun r => Rd - 1 < r) radii)%R;
  hi_omp : (1 <= N.of_nat omp_max <= 2 ^ 17)%N;
  hi_team : 1 <= team <= omp_max }.

(** the tree has enough levels for the first phase of the parallel algorithm: at every level k with 2^k < 2 * threads, two points on the
    inner circle of the outermost layer whose angles differ by a whole cell of that level's children are farther apart than R *)
Definition deep_enough (Rd : R) (threads : nat) : Prop :=
  forall k d, (2 ^ k < 2 * INR threads)%R -> is_hyp_dist (Rd - 1) 0 (Rd - 1) (PI / 2 ^ k) d -> (Rd < d)%R.
(** generate() can return: a single thread, or a full team and a deep tree *)
Definition returns (Rd : R) (omp_max team : nat) : Prop := omp_max = 1 \/ (team = omp_max /\ deep_enough Rd omp_max).

Lemma pow2R_nat k : pow2R (N.of_nat k) = (2 ^ k)%R.
Proof.
  induction k as [|k IH]; [apply pow2R_0|]. replace (N.of_nat (S k)) with (N.of_nat k + 1)%N by lia. rewrite pow2R_add, IH, pow2R_1.
  change (2 ^ S k)%R with (2 * 2 ^ k)%R. ring.
Qed.
Lemma INR_pow2 k : (2 ^ k)%R = INR (2 ^ k).
Proof. rewrite pow_INR. reflexivity. Qed.
Lemma log2R_pow_iff x k : (0 < x)%R -> (INR k < log2R x)%R <-> (2 ^ k < x)%R.
Proof.
  intros Hx. pose proof (log2R_ge_iff) as G. 
  assert (E : b2 (Z.of_nat k) = (2 ^ k)%R).
  { rewrite <- pow2R_nat, pow2R_b2. f_equal. lia. }
  assert (Ek : log2R (2 ^ k)%R = INR k) by (rewrite <- E, log2R_b2, INR_IZR_INZ; reflexivity).
  assert (P : (0 < 2 ^ k)%R) by (apply pow_lt; lra). split; intros H.
  - destruct (Rle_or_lt x (2 ^ k)) as [L|L]; [|exact L]. exfalso. pose proof (log2R_le x (2 ^ k)%R Hx L). lra.
  - destruct (Rle_or_lt (log2R x) (INR k)) as [L|L]; [|exact L]. exfalso. rewrite <- Ek in L. unfold log2R in L.
    assert (L2 : (0 < ln 2)%R) by (rewrite <- ln_1; apply ln_increasing; lra).
    assert (ln (2 ^ k) < ln x)%R by (apply ln_increasing; assumption).
    apply (Rmult_le_compat_r (ln 2)) in L; [|lra]. unfold Rdiv in L. rewrite !Rmult_assoc, Rinv_l in L by lra. lra.
Qed.
Lemma far_at_iff r Rd k : (0 <= Rd)%R -> far_at r r Rd (N.of_nat k) <-> forall d, is_hyp_dist r 0 r (PI / 2 ^ k) d -> (Rd < d)%R.
Proof.
  intros HR. unfold far_at, half. rewrite pow2R_nat. split.
  - intros H d Hd. rewrite (hyp_dist_unique _ _ _ _ _ Hd), hyp_distance_0. apply acosh_gt_iff; [apply hc_ge_1|exact HR|exact H].
  - intros H. specialize (H _ (hyp_dist_exists r 0 r (PI / 2 ^ k))). rewrite hyp_distance_0 in H. apply acosh_gt_iff; [apply hc_ge_1|exact HR|exact H].
Qed.
Lemma deep_iff radii angles T Rd t ord nt fpl : disc_input radii angles Rd -> htree_spec radii angles T Rd t ord ->
  2 <= nt <= N.to_nat (2 ^ 17) -> hfirst_parallel_level nt = Some fpl -> ((fpl < h_levels t)%N <-> deep_enough Rd nt).
Proof.
  intros DI TS Hnt Ef. destruct (fpl_defined nt Hnt) as (f & E & _ & F1 & F2). rewrite Ef in E. injection E as <-.
  pose proof (di_R _ _ _ DI) as HR. destruct (lev_spec Rd 0 HR) as (EP & _ & _); [cbn; lra|].
  assert (ER : rmin Rd 0 = (Rd - 1)%R) by (rewrite rmin_eq; cbn [INR]; lra). rewrite ER in EP.
  apply pbl_spec in EP as [N0 NK]; [|lra]. rewrite (hs_levels _ _ _ _ _ _ TS).
  assert (PN : (0 < INR (2 * nt))%R) by (apply lt_0_INR; lia).
  assert (KL : forall k, (2 ^ k < 2 * INR nt)%R <-> (N.of_nat k < fpl)%N).
  { intros k. replace (2 * INR nt)%R with (INR (2 * nt)) by (rewrite mult_INR; reflexivity). rewrite <- (log2R_pow_iff _ k PN). rewrite INR_IZR_INZ.
    split; intros H.
    - assert (IZR (Z.of_nat k) < IZR (Z.of_N fpl))%R by lra. apply lt_IZR in H0. lia.
    - assert (Z.of_nat k + 1 <= Z.of_N fpl)%Z by lia. apply IZR_le in H0. rewrite plus_IZR in H0. lra. }
  split.
  - intros H k d Hk. apply (far_at_iff (Rd - 1) Rd k ltac:(lra)). apply NK. apply KL in Hk. lia.
  - intros H. destruct (N.lt_ge_cases fpl (lev Rd 0 + 1)) as [|C]; [assumption|]. exfalso. apply N0.
    replace (lev Rd 0) with (N.of_nat (N.to_nat (lev Rd 0))) by lia. apply far_at_iff; [lra|]. intros d. apply H. apply KL. lia.
Qed.

(** a simple sufficient condition: 2 * threads <= e^(R/2 - 1) *)
Lemma sin_half_pow k : (1 / 2 ^ k <= sin (PI / 2 ^ k / 2))%R.
Proof.
  induction k as [|k IH]; [cbn [pow]; replace (PI / 1 / 2)%R with (PI / 2)%R by field; rewrite sin_PI2; lra|].
  set (x := (PI / 2 ^ k / 2)%R) in *. assert (P : (1 <= 2 ^ k)%R) by (apply pow_R1_Rle; lra).
  assert (E : (PI / 2 ^ S k / 2 = x / 2)%R) by (unfold x; cbn [pow]; field; lra). rewrite E.
  assert (X : (0 < x <= PI / 2)%R).
  { unfold x. pose proof PI_RGT_0. assert (0 < / 2 ^ k <= 1)%R by (split; [apply Rinv_0_lt_compat; lra|rewrite <- Rinv_1; apply Rinv_le_contravar; lra]).
    unfold Rdiv. nra. }
  assert (S2 : sin x = (2 * sin (x / 2) * cos (x / 2))%R) by (rewrite <- sin_2a; f_equal; field).
  assert (0 < sin (x / 2))%R by (apply sin_gt_0; pose proof PI_RGT_0; lra).
  pose proof (COS_bound (x / 2)). replace (1 / 2 ^ S k)%R with (1 / 2 ^ k / 2)%R by (cbn [pow]; field; lra). nra.
Qed.
Lemma cosh_double x : cosh (2 * x) = (1 + 2 * (sinh x * sinh x))%R.
Proof. replace (2 * x)%R with (x + x)%R by ring. rewrite cosh_plus. pose proof (cosh_sqr x). lra. Qed.
Lemma deep_if Rd threads : (1 <= threads) -> (2 * INR threads <= exp (Rd / 2 - 1))%R -> deep_enough Rd threads.
Proof.
  intros HT H k d Hk Hd. assert (T1 : (1 <= INR threads)%R) by (change 1%R with (INR 1); apply le_INR; lia).
  set (y := (Rd / 2 - 1)%R) in *. assert (Y : (0 < y)%R).
  { destruct (Rle_or_lt y 0) as [L|L]; [|exact L]. exfalso. assert (exp y <= exp 0)%R by (destruct L as [L| ->]; [left; now apply exp_increasing|lra]). rewrite exp_0 in *. lra. }
  rewrite (hyp_dist_unique _ _ _ _ _ Hd), hyp_distance_0. apply acosh_gt_iff; [apply hc_ge_1|unfold y in Y; lra|].
  set (th := (PI / 2 ^ k)%R). unfold hc. replace Rd with (2 * (Rd / 2))%R at 1 by field. rewrite cosh_double.
  assert (CT : cos th = (1 - 2 * (sin (th / 2) * sin (th / 2)))%R).
  { replace th with (2 * (th / 2))%R at 1 by field. rewrite cos_2a_sin. ring. }
  rewrite CT. pose proof (cosh_sqr (Rd - 1)) as CS. pose proof (sin_half_pow k) as SH. fold th in SH.
  set (s := sin (th / 2)) in *. set (S := sinh (Rd - 1)) in *. set (q := sinh (Rd / 2)).
  assert (P2 : (1 <= 2 ^ k)%R) by (apply pow_R1_Rle; lra).
  assert (S1 : (1 / (2 * INR threads) < s)%R).
  { eapply Rlt_le_trans; [|exact SH]. unfold Rdiv. rewrite !Rmult_1_l. apply Rinv_lt_contravar; [apply Rmult_lt_0_compat; lra|exact Hk]. }
  assert (Q : (0 < q)%R) by (apply sinh_pos; unfold y in Y; lra).
  assert (SQ : (exp y * q <= S)%R).
  { unfold S, q, sinh. replace (Rd - 1)%R with (y + Rd / 2)%R by (unfold y; field). rewrite exp_plus. replace (- (y + Rd / 2))%R with (- y + - (Rd / 2))%R by ring. rewrite exp_plus.
    assert (E1 : (exp (- y) <= exp y)%R) by (left; apply exp_increasing; lra). pose proof (exp_pos (- (Rd / 2))). nra. }
  assert (SS : (q < S * s)%R).
  { apply Rlt_le_trans with (exp y * q * s)%R; [|apply Rmult_le_compat_r; [|exact SQ]].
    - assert (0 < 1 / (2 * INR threads))%R by (apply Rdiv_lt_0_compat; lra).
      assert (1 < exp y * s)%R.
      { apply Rlt_le_trans with (2 * INR threads * s)%R; [|apply Rmult_le_compat_r; lra].
        replace 1%R with (2 * INR threads * (1 / (2 * INR threads)))%R by (field; lra). apply Rmult_lt_compat_l; lra. }
      nra.
    - apply Rlt_le. eapply Rlt_trans; [|exact S1]. apply Rdiv_lt_0_compat; lra. }
  assert (0 < S * s)%R by lra. nra.
Qed.

Section Use.
  Context {radii angles : list R} {Rd : R} {omp_max team : nat} (HI : hrg_input radii angles Rd omp_max team).
  Lemma use_di : disc_input radii angles Rd.
  Proof. destruct HI. constructor; assumption. Qed.
  Lemma use_finishing T t ord : htree_spec radii angles T Rd t ord -> (finishing t omp_max team <-> returns Rd omp_max team).
  Proof.
    intros TS. pose proof (hi_team _ _ _ _ _ HI) as HT. destruct (omp_nat _ (hi_omp _ _ _ _ _ HI)) as [_ HO]. unfold finishing, returns. split.
    - intros [[H _]|(H1 & H2 & fpl & H3 & H4)]; [auto|]. right. split; [exact H2|]. eapply deep_iff; eauto using use_di. lia.
    - intros H. destruct (Nat.eq_dec omp_max 1) as [E|E]; [left; lia|]. destruct H as [H|[H1 H2]]; [lia|]. right. split; [lia|]. split; [exact H1|].
      destruct (fpl_defined omp_max ltac:(lia)) as (fpl & Ef & _). exists fpl. split; [exact Ef|].
      apply (deep_iff radii angles T Rd t ord omp_max fpl use_di TS ltac:(lia) Ef). exact H2.
  Qed.
  Lemma use_hrg T hg nd part seed : good_rng (hb hg) -> is_partition task_eq part ->
    exists t ord, htree_spec radii angles T Rd t ord /\
      (returns Rd omp_max team <-> exists o, hrg_outcome nd part hg radii angles T Rd seed omp_max team o) /\
      forall o, hrg_outcome nd part hg radii angles T Rd seed omp_max team o ->
        exists rss edges, generate_outcome nd part t hg seed omp_max team (Some rss) /\ o = Some edges /\
          hsampled radii angles T Rd t ord hg nd (concat rss) /\ interleaving (map (fun rs => flat_map edges_of rs) rss) edges.
  Proof.
    intros GG HP. destruct (omp_nat _ (hi_omp _ _ _ _ _ HI)) as [O1 O2].
    destruct (hrg_ok radii angles T Rd hg nd part seed omp_max team use_di GG HP O1 O2 (hi_team _ _ _ _ _ HI)) as (t & ord & TS & H1 & H2 & H3).
    exists t, ord. split; [exact TS|]. split; [|exact H3]. rewrite <- (use_finishing T t ord TS). split; [exact H1|].
    intros [o Ho]. assert (D : finishing t omp_max team \/ ~ finishing t omp_max team).
    { destruct (Nat.eq_dec omp_max 1) as [E1|E1]; [left; left; pose proof (hi_team _ _ _ _ _ HI); lia|].
      destruct (fpl_defined omp_max ltac:(lia)) as (fpl & Ef & _). destruct (Nat.eq_dec team omp_max) as [Et|Et]; [|right; intros [?|(_ & ? & _)]; lia].
      destruct (N.lt_ge_cases fpl (h_levels t)) as [L|L]; [left; right; split; [lia|]; eauto|].
      right. intros [?|(_ & _ & f & E2 & L2)]; [lia|]. rewrite Ef in E2. injection E2 as <-. lia. }
    destruct D as [D|D]; [exact D|]. exfalso. exact (H2 D o Ho).
  Qed.
  Lemma hedges_In {X} (rss : list (list (result X))) edges x : interleaving (map (fun rs => flat_map edges_of rs) rss) edges ->
    (In x edges <-> In x (flat_map edges_of (concat rss))).
  Proof.
    intros H. apply interleaving_Permutation in H.
    assert (Q : Permutation edges (flat_map edges_of (concat rss))).
    { rewrite H. clear. induction rss as [|rs rss IH]; [constructor|]. cbn [map concat]. rewrite flat_map_app. now apply Permutation_app_head. }
    split; apply Permutation_in; [exact Q|now symmetry].
  Qed.
  Lemma hedges_perm {X} (rss : list (list (result X))) edges : interleaving (map (fun rs => flat_map edges_of rs) rss) edges ->
    Permutation edges (flat_map edges_of (concat rss)).
  Proof.
    intros H. apply interleaving_Permutation in H. rewrite H. clear H.
    induction rss as [|rs rss IH]; [constructor|]. cbn [map concat]. rewrite flat_map_app. now apply Permutation_app_head.
  Qed.
End Use.

(** ** C36: the threshold graph is exact *)
Theorem C36_threshold_hrg_is_exact : forall nd part hg radii angles Rd seed omp_max team,
  hrg_input radii angles Rd omp_max team -> good_rng (hb hg) -> is_partition task_eq part ->
  (returns Rd omp_max team -> exists o, hrg_outcome nd part hg radii angles 0 Rd seed omp_max team o) /\
  forall o, hrg_outcome nd part hg radii angles 0 Rd seed omp_max team o ->
    exists edges, o = Some edges /\
    forall u v, u < length radii -> v < length radii -> u <> v ->
      (In (u, v) edges \/ In (v, u) edges <->
       exists d, is_hyp_dist (nth u radii 0%R) (nth u angles 0%R) (nth v radii 0%R) (nth v angles 0%R) d /\ (d < Rd)%R).
Proof.
  intros nd part hg radii angles Rd seed omp_max team HI GG HP.
  destruct (use_hrg HI 0%R hg nd part seed GG HP) as (t & ord & TS & H1 & H2). split; [apply H1|].
  intros o Ho. destruct (H2 o Ho) as (rss & edges & _ & -> & SA & IL). exists edges. split; [reflexivity|].
  intros u v Hu Hv Hne. rewrite !(hedges_In rss edges _ IL), (hsa_hit _ _ _ _ _ _ _ _ _ SA eq_refl u v Hu Hv Hne).
  pose proof (use_di HI) as DI. rewrite (hhit_iff radii angles Rd DI u v Hu Hv). pose proof (hi_R _ _ _ _ _ HI) as HR.
  unfold rad, phi. split.
  - intros H. eexists. split; [apply hyp_dist_exists|]. rewrite hyp_distance_eq. apply acosh_lt_iff; [apply hc_ge_1|lra|exact H].
  - intros (d & Hd & H). rewrite (hyp_dist_unique _ _ _ _ _ Hd), hyp_distance_eq in H. apply acosh_lt_iff in H; [exact H|apply hc_ge_1|lra].
Qed.
(** the set of edges does not depend on the random numbers, the seed, the schedule or the number of threads *)
Theorem C36_threshold_hrg_is_deterministic : forall radii angles Rd nd1 part1 hg1 seed1 omp1 team1 nd2 part2 hg2 seed2 omp2 team2,
  hrg_input radii angles Rd omp1 team1 -> good_rng (hb hg1) -> is_partition task_eq part1 ->
  hrg_input radii angles Rd omp2 team2 -> good_rng (hb hg2) -> is_partition task_eq part2 ->
  forall o1 o2, hrg_outcome nd1 part1 hg1 radii angles 0 Rd seed1 omp1 team1 o1 -> hrg_outcome nd2 part2 hg2 radii angles 0 Rd seed2 omp2 team2 o2 ->
    exists e1 e2, o1 = Some e1 /\ o2 = Some e2 /\
      forall u v, u < length radii -> v < length radii -> u <> v -> (In (u, v) e1 \/ In (v, u) e1 <-> In (u, v) e2 \/ In (v, u) e2).
Proof.
  intros radii angles Rd nd1 part1 hg1 seed1 omp1 team1 nd2 part2 hg2 seed2 omp2 team2 HI1 GG1 HP1 HI2 GG2 HP2 o1 o2 Ho1 Ho2.
  destruct (C36_threshold_hrg_is_exact nd1 part1 hg1 radii angles Rd seed1 omp1 team1 HI1 GG1 HP1) as [_ M1].
  destruct (C36_threshold_hrg_is_exact nd2 part2 hg2 radii angles Rd seed2 omp2 team2 HI2 GG2 HP2) as [_ M2].
  destruct (M1 o1 Ho1) as (e1 & -> & E1), (M2 o2 Ho2) as (e2 & -> & E2). exists e1, e2. split; [reflexivity|]. split; [reflexivity|].
  intros u v Hu Hv Hne. rewrite (E1 u v Hu Hv Hne), (E2 u v Hu Hv Hne). reflexivity.
Qed.

(** ** C37: simple graph, valid indices, every pair decided once *)
Theorem C37_simple_graph : forall nd part hg radii angles T Rd seed omp_max team,
  hrg_input radii angles Rd omp_max team -> good_rng (hb hg) -> is_partition task_eq part ->
  forall o, hrg_outcome nd part hg radii angles T Rd seed omp_max team o ->
    exists edges, o = Some edges /\ NoDup edges /\
      (forall u v, In (u, v) edges -> u < length radii /\ v < length radii) /\
      (forall u, ~ In (u, u) edges) /\ (forall u v, In (u, v) edges -> ~ In (v, u) edges).
Proof.
  intros nd part hg radii angles T Rd seed omp_max team HI GG HP.
  destruct (use_hrg HI T hg nd part seed GG HP) as (t & ord & TS & H1 & H2).
  intros o Ho. destruct (H2 o Ho) as (rss & edges & _ & -> & SA & IL). exists edges. split; [reflexivity|].
  assert (Hin : forall u v, In (u, v) edges -> u < length radii /\ v < length radii /\ u <> v).
  { intros u v H. apply (hedges_In rss edges _ IL) in H. apply (le_count_incl _ _ _ (hsa_le _ _ _ _ _ _ _ _ _ SA)) in H.
    now apply (hsa_range _ _ _ _ _ _ _ _ _ SA). }
  assert (Hc : forall u v, u < length radii -> v < length radii -> u <> v -> cnt2 edges u v <= 1).
  { intros u v Hu Hv Hne. rewrite (cnt2_perm _ _ u v (hedges_perm rss edges IL)).
    pose proof (hsa_once _ _ _ _ _ _ _ _ _ SA u v Hu Hv Hne) as Ho1. unfold cnt2 in *.
    pose proof (hsa_le _ _ _ _ _ _ _ _ _ SA (u, v)). pose proof (hsa_le _ _ _ _ _ _ _ _ _ SA (v, u)). lia. }
  split; [|split; [|split]].
  - apply (NoDup_count_occ pair_dec). intros [u v]. destruct (in_dec pair_dec (u, v) edges) as [H|H].
    + destruct (Hin u v H) as (Hu & Hv & Hne). specialize (Hc u v Hu Hv Hne). unfold cnt2 in Hc. lia.
    + apply (count_occ_not_In pair_dec) in H. lia.
  - intros u v H. destruct (Hin u v H) as (Hu & Hv & _). auto.
  - intros u H. destruct (Hin u u H) as (_ & _ & Hne). congruence.
  - intros u v H H'. destruct (Hin u v H) as (Hu & Hv & Hne). specialize (Hc u v Hu Hv Hne). unfold cnt2 in Hc.
    apply (count_occ_In pair_dec) in H, H'. lia.
Qed.
Theorem C37_every_pair_decided_once : forall nd part hg radii angles T Rd seed omp_max team t,
  hrg_input radii angles Rd omp_max team -> good_rng (hb hg) -> is_partition task_eq part ->
  (nd = true -> T <> 0%R) (* release builds do not visit far cell pairs of threshold graphs at all *) ->
  htree_outcome radii angles T Rd omp_max (Some t) ->
  (returns Rd omp_max team -> exists ors, generate_outcome nd part t hg seed omp_max team ors) /\
  forall ors, generate_outcome nd part t hg seed omp_max team ors ->
    exists rss, ors = Some rss /\
      (forall u v, In (u, v) (flat_map pairs_of (concat rss)) -> u < length radii /\ v < length radii /\ u <> v) /\
      (forall u v, u < length radii -> v < length radii -> u <> v ->
         count_occ pair_dec (flat_map pairs_of (concat rss)) (u, v) + count_occ pair_dec (flat_map pairs_of (concat rss)) (v, u) = 1) /\
      (forall e, In e (flat_map edges_of (concat rss)) -> In e (flat_map pairs_of (concat rss))) /\
      (* the closing debug assertion, HyperbolicTree.inl:144 *)
      (fold_right Z.add 0 (map (fun r => type1 r + type2 r) (concat rss)) = Z.of_nat (length radii) * (Z.of_nat (length radii) - 1))%Z.
Proof.
  intros nd part hg radii angles T Rd seed omp_max team t HI GG HP Ha Ht. destruct (omp_nat _ (hi_omp _ _ _ _ _ HI)) as [O1 O2].
  destruct (hbuild_ok radii angles T Rd (use_di HI) omp_max O1) as (t' & ord & TS & _ & HU). specialize (HU _ Ht). injection HU as ->.
  destruct (generate_ok radii angles T Rd (use_di HI) t' ord TS hg GG nd part HP seed omp_max team O2 (hi_team _ _ _ _ _ HI)) as (G1 & _ & G3). split.
  - intros HR. apply (use_finishing HI T t' ord TS) in HR. destruct (G1 HR) as (rss & H). eauto.
  - intros ors Hors. destruct (G3 ors Hors) as (rss & -> & _ & SA). exists rss. split; [reflexivity|].
    assert (Hk : nd && is_zero T = false).
    { destruct nd; [|reflexivity]. cbn [andb]. unfold is_zero. destruct (Req_EM_T T 0); [now specialize (Ha eq_refl)|reflexivity]. }
    pose proof (hsa_all _ _ _ _ _ _ _ _ _ SA Hk) as Hall. pose proof (hsa_range _ _ _ _ _ _ _ _ _ SA) as Hr.
    split; [exact Hr|]. split; [exact Hall|]. split.
    + intros e He. eapply le_count_incl; [apply (hsa_le _ _ _ _ _ _ _ _ _ SA)|exact He].
    + rewrite (hsa_checks _ _ _ _ _ _ _ _ _ SA). now apply pairs_length.
Qed.
(** no undefined behaviour *)
Theorem C37_no_undefined_behaviour : forall nd part hg radii angles T Rd seed omp_max team,
  hrg_input radii angles Rd omp_max team -> good_rng (hb hg) -> is_partition task_eq part ->
  ~ hrg_outcome nd part hg radii angles T Rd seed omp_max team None /\ ~ htree_outcome radii angles T Rd omp_max None.
Proof.
  intros nd part hg radii angles T Rd seed omp_max team HI GG HP. split.
  - intros Ho. destruct (C37_simple_graph _ _ _ _ _ _ _ _ _ _ HI GG HP _ Ho) as (e & He & _). discriminate.
  - intros Ho. destruct (omp_nat _ (hi_omp _ _ _ _ _ HI)) as [O1 _].
    destruct (hbuild_ok radii angles T Rd (use_di HI) omp_max O1) as (t & ord & TS & _ & HU). specialize (HU _ Ho). discriminate.
Qed.

(** ** C38: the work distribution *)
(** the generator of a unit of work among the generators of initialize_prngs *)
Definition unit_gen (threads : nat) (u : hunit) : nat := match u with USample tid => tid | UTask i => threads - 1 + i end.
Theorem C38_work_distribution : forall nd part radii angles T Rd omp_max t fpl,
  hrg_input radii angles Rd omp_max omp_max -> is_partition task_eq part -> 2 <= omp_max ->
  htree_outcome radii angles T Rd omp_max (Some t) -> hfirst_parallel_level omp_max = Some fpl -> (fpl < h_levels t)%N ->
  exists work shares tasks task_calls,
    (* the sequential recursion *)
    hvisit nd t (N.to_nat (h_levels t)) 0 0 0 = Some work /\
    (* what the first threads - 1 threads sample in the first phase *)
    omap (fun tid => hsample t fpl (omp_max - 1) (N.to_nat fpl) 0 0 0 tid) (seq 0 (omp_max - 1)) = Some shares /\
    (* the queue; it has the precomputed length *)
    hcreate fpl (N.to_nat fpl) 0 0 0 = Some tasks /\ num_tasks fpl = Some (N.of_nat (length tasks)) /\
    omap (fun ab => hvisit nd t (N.to_nat (h_levels t)) (fst ab) (snd ab) fpl) (part tasks) = Some task_calls /\
    (* together they are the sequential recursion; in release builds with T = 0 the first phase also visits far cell pairs *)
    ((nd = true -> T <> 0%R) -> Permutation (concat (map fst shares) ++ concat task_calls) work) /\
    (nd = true -> T = 0%R -> Permutation (filter isI (concat (map fst shares)) ++ concat task_calls) work).
Proof.
  intros nd part radii angles T Rd omp_max t fpl HI HP H2 Ht Ef HL. destruct (omp_nat _ (hi_omp _ _ _ _ _ HI)) as [O1 O2].
  destruct (hbuild_ok radii angles T Rd (use_di HI) omp_max O1) as (t' & ord & TS & _ & HU). specialize (HU _ Ht). injection HU as <-.
  pose proof (use_di HI) as DI. destruct (fpl_defined omp_max ltac:(lia)) as (f & E & Hf & _). rewrite Ef in E. injection E as <-.
  destruct (num_tasks_defined fpl Hf) as (k & Ek).
  set (sp := hseqplan Rd t fpl (N.to_nat (h_levels t - 1)) 0%N 0%N 0%N).
  assert (Ec : hcreate fpl (N.to_nat fpl) 0 0 0 = Some (snd sp)).
  { exact (created_eq radii angles T Rd DI t ord TS fpl ltac:(lia) HL). }
  destruct (task_count fpl k ltac:(lia) Ek) as (ts & E & L). rewrite Ec in E. injection E as <-.
  pose proof (proj1 (HP (snd sp))) as PT.
  exists (filter (hkeep T nd) (hplan Rd t (N.to_nat (h_levels t - 1)) 0%N 0%N 0%N)).
  exists (map (fun tid => my_calls (omp_max - 1) tid (fst sp)) (seq 0 (omp_max - 1))), (snd sp).
  exists (map (fun ab => filter (hkeep T nd) (hplan Rd t (N.to_nat (h_levels t - 1 - fpl)) (fst ab) (snd ab) fpl)) (part (snd sp))).
  split; [|split; [|split; [exact Ec|split; [congruence|split]]]].
  - apply (hvisit_eq radii angles T Rd DI t ord TS nd); try exact root_lv; lia.
  - apply omap_some. intros tid _. apply (hsample_eq radii angles T Rd DI t ord TS fpl (omp_max - 1) HL); try exact root_lv; lia.
  - apply omap_some. intros ab Hab. apply (Permutation_in _ PT) in Hab.
    destruct (tasks_lv radii angles T Rd DI t ord TS fpl HL (N.to_nat (h_levels t - 1)) 0%N 0%N 0%N ltac:(lia) root_lv root_lv ab Hab) as [HA HB].
    apply (hvisit_eq radii angles T Rd DI t ord TS nd); try assumption; lia.
  - set (F := fun ab => hplan Rd t (N.to_nat (h_levels t - 1 - fpl)) (fst ab) (snd ab) fpl).
    assert (SH : Permutation (concat (map fst (map (fun tid => my_calls (omp_max - 1) tid (fst sp)) (seq 0 (omp_max - 1))))) (fst sp)).
    { rewrite map_map, <- flat_map_concat_map. apply round_robin; [lia|reflexivity]. }
    assert (TC : Permutation (concat (map (fun ab => filter (hkeep T nd) (F ab)) (part (snd sp)))) (filter (hkeep T nd) (flat_map F (snd sp)))).
    { rewrite <- flat_map_concat_map. rewrite (Permutation_flat_map _ PT). generalize (snd sp). clear. induction l as [|a l IH]; [constructor|].
      cbn [flat_map]. rewrite filter_app. now apply Permutation_app_head. }
    pose proof (hphases Rd t fpl HL ltac:(lia)) as PH. fold sp in PH. change (fun ab : N * N => hplan Rd t (N.to_nat (h_levels t - 1 - fpl)) (fst ab) (snd ab) fpl) with F in PH.
    split.
    + intros HT. assert (HK : forall l, filter (hkeep T nd) l = l).
      { intros l. apply filter_true. intros x _. unfold hkeep. destruct nd; [|cbn; apply orb_true_r]. unfold is_zero. destruct (Req_EM_T T 0); [now specialize (HT eq_refl)|].
        cbn. apply orb_true_r. }
      rewrite HK, SH. unfold F in TC at 1. rewrite TC, HK. now symmetry.
    + intros -> ->. rewrite (filter_Permutation _ _ _ SH). unfold F in TC at 1. rewrite TC. rewrite (filter_Permutation _ _ _ PH), filter_app.
      assert (HK : forall l, filter (hkeep 0 true) l = filter isI l).
      { intros l. apply filter_ext. intros x. unfold hkeep, is_zero. destruct (Req_EM_T 0 0); [|lra]. cbn. apply orb_false_r. }
      rewrite !HK. reflexivity.
Qed.
(** in every finished execution every thread share and every task has been run exactly once; the generators are pairwise different members of the
    vector made by initialize_prngs *)
Theorem C38_each_unit_once : forall omp_max has_tasks ntasks k m fin, 2 <= omp_max -> has_tasks = true ->
  psteps omp_max has_tasks ntasks k m (pinit omp_max) fin -> pfinished fin ->
  let units := flat_map t_units (ps_threads fin) in
  Permutation units (map USample (seq 0 (omp_max - 1)) ++ map UTask (seq 0 ntasks)) /\
  Permutation (map (unit_gen omp_max) units) (seq 0 (omp_max - 1 + ntasks)).
Proof.
  intros omp_max has_tasks ntasks k m fin H2 HT HS HF units. pose proof (final_units omp_max ntasks has_tasks HT H2 k m fin HS HF) as HU. fold units in HU.
  split; [exact HU|]. rewrite HU, map_app, !map_map. cbn [unit_gen]. rewrite seq_app, map_id. apply Permutation_app_head. cbn [plus].
  assert (E : forall a l, map (fun x => a + x) (seq l ntasks) = seq (a + l) ntasks).
  { clear. intros a. induction ntasks as [|n IH]; intros l; [reflexivity|]. cbn [seq map]. rewrite IH. now replace (a + S l) with (S (a + l)) by lia. }
  rewrite E, Nat.add_0_r. reflexivity.
Qed.
(** a unit runs with the generator at its position, and each of these generators is seeded with its own 312 words *)
Theorem C38_own_generator : forall nd t hg fpl threads tasks gens u r,
  unit_result nd t hg fpl threads tasks gens u = Some r ->
  exists cs g, nth_error gens (unit_gen threads u) = Some g /\ hrun_calls t (hb hg) cs g = Some r.
Proof.
  intros nd t hg fpl threads tasks gens u r H. destruct u as [tid|i]; cbn [unit_result unit_gen] in *.
  - destruct (hsample _ _ _ _ _ _ _ _) as [[cs x]|]; [|discriminate]. cbn [obind] in H. destruct (nth_error gens tid) as [g|] eqn:E; [|discriminate]. cbn [obind] in H. eauto.
  - destruct (nth_error tasks i) as [ab|]; [|discriminate]. cbn [obind] in H. destruct (hvisit _ _ _ _ _ _) as [cs|]; [|discriminate]. cbn [obind] in H.
    destruct (nth_error gens (threads - 1 + i)) as [g|] eqn:E; [|discriminate]. cbn [obind] in H. eauto.
Qed.

(** ** C39: termination of the parallel region *)
(** generateEdges has a finishing run if and only if [returns] *)
Theorem C39_returns_iff : forall nd part hg radii angles T Rd seed omp_max team,
  hrg_input radii angles Rd omp_max team -> good_rng (hb hg) -> is_partition task_eq part ->
  (returns Rd omp_max team <-> exists o, hrg_outcome nd part hg radii angles T Rd seed omp_max team o).
Proof.
  intros nd part hg radii angles T Rd seed omp_max team HI GG HP. destruct (use_hrg HI T hg nd part seed GG HP) as (t & ord & TS & H1 & H2). exact H1.
Qed.
(** then no schedule can avoid finishing: every execution is short unless it consists of spurious wakeups, and no reachable state is stuck *)
Theorem C39_every_schedule_finishes : forall radii angles T Rd omp_max t fpl ntasks,
  hrg_input radii angles Rd omp_max omp_max -> 2 <= omp_max -> deep_enough Rd omp_max ->
  htree_outcome radii angles T Rd omp_max (Some t) -> hfirst_parallel_level omp_max = Some fpl -> 
  forall k spurious s, psteps omp_max (fpl <? h_levels t)%N ntasks k spurious (pinit omp_max) s ->
    k <= omp_max * (2 * omp_max + 9) + ntasks + 3 * spurious /\
    (pfinished s \/ exists s', pstep omp_max (fpl <? h_levels t)%N ntasks false s s') /\
    exists k' s', psteps omp_max (fpl <? h_levels t)%N ntasks (k' + k) spurious (pinit omp_max) s' /\ pfinished s'.
Proof.
  intros radii angles T Rd omp_max t fpl ntasks HI H2 HD Ht Ef k sp s HS. destruct (omp_nat _ (hi_omp _ _ _ _ _ HI)) as [O1 O2].
  destruct (hbuild_ok radii angles T Rd (use_di HI) omp_max O1) as (t' & ord & TS & _ & HU). specialize (HU _ Ht). injection HU as <-.
  apply (deep_iff radii angles T Rd t ord omp_max fpl (use_di HI) TS ltac:(lia) Ef) in HD. apply N.ltb_lt in HD. rewrite HD in *.
  split; [destruct (steps_bound omp_max ntasks omp_max true k sp s HS); lia|]. split; [exact (no_deadlock omp_max ntasks true eq_refl H2 k sp s HS)|].
  exact (can_finish omp_max ntasks true k sp s eq_refl H2 HS).
Qed.
(** a sufficient condition in terms of R and the number of threads *)
Theorem C39_enough_radius : forall Rd omp_max, 1 <= omp_max -> (2 + 2 * ln (2 * INR omp_max) <= Rd)%R -> returns Rd omp_max omp_max.
Proof.
  intros Rd omp_max H HR. right. split; [reflexivity|]. apply deep_if; [exact H|].
  assert (0 < 2 * INR omp_max)%R by (assert (0 < INR omp_max)%R by (apply lt_0_INR; lia); lra).
  rewrite <- (exp_ln (2 * INR omp_max)) at 1 by assumption. destruct (Rle_lt_or_eq_dec (ln (2 * INR omp_max)) (Rd / 2 - 1) ltac:(lra)) as [L|L];
    [left; now apply exp_increasing|rewrite L; lra].
Qed.

(** ** C48: reproducibility *)
Theorem C48_reproducible : forall nd part hg radii angles T Rd seed omp_max team,
  hrg_input radii angles Rd omp_max team -> good_rng (hb hg) -> is_partition task_eq part -> (0 <= seed)%Z ->
  forall o1 o2, hrg_outcome nd part hg radii angles T Rd seed omp_max team o1 -> hrg_outcome nd part hg radii angles T Rd seed omp_max team o2 ->
    exists e1 e2, o1 = Some e1 /\ o2 = Some e2 /\ Permutation e1 e2 /\ (omp_max = 1 -> e1 = e2).
Proof.
  intros nd part hg radii angles T Rd seed omp_max team HI GG HP Hs o1 o2 Ho1 Ho2. destruct (use_hrg HI T hg nd part seed GG HP) as (t & ord & TS & _ & M).
  destruct (M o1 Ho1) as (r1 & e1 & G1 & -> & _ & IL1). destruct (M o2 Ho2) as (r2 & e2 & G2 & -> & _ & IL2).
  destruct (omp_nat _ (hi_omp _ _ _ _ _ HI)) as [O1 O2].
  destruct (generate_repro radii angles T Rd (use_di HI) t ord TS hg GG nd part HP seed omp_max team r1 r2 O2 (hi_team _ _ _ _ _ HI) Hs G1 G2) as [P1 P2].
  exists e1, e2. split; [reflexivity|]. split; [reflexivity|]. split.
  - rewrite (hedges_perm r1 e1 IL1), (hedges_perm r2 e2 IL2). now apply Permutation_flat_map.
  - intros ->. specialize (P2 eq_refl). subst r2. unfold generate_outcome in G1. cbn [Nat.eqb] in G1. destruct G1 as (s & _ & E).
    destruct (seq_run radii angles T Rd (use_di HI) t ord TS hg GG nd (rseed (hb hg) s)) as (r & E' & _). rewrite E' in E. injection E as ->.
    cbn [map flat_map] in IL1, IL2. apply interleaving_single in IL1, IL2. congruence.
Qed.

(** ** C39 as originally stated is false: with a full team of threads and valid input the parallel region may never be left *)
(** any disc of radius at most 2 with two or more threads *)
Theorem C39_small_disc_refuted : forall nd part hg radii angles T Rd seed omp_max team,
  hrg_input radii angles Rd omp_max team -> good_rng (hb hg) -> is_partition task_eq part -> (1 <= Rd <= 2)%R -> 2 <= omp_max ->
  forall o, ~ hrg_outcome nd part hg radii angles T Rd seed omp_max team o.
Proof.
  intros nd part hg radii angles T Rd seed omp_max team HI GG HP HR H2 o Ho.
  assert (RT : returns Rd omp_max team) by (apply (C39_returns_iff nd part hg radii angles T Rd seed omp_max team HI GG HP); eauto).
  destruct RT as [RT|[_ RT]]; [lia|]. specialize (RT 0 (2 * (Rd - 1))%R).
  assert (H : (Rd < 2 * (Rd - 1))%R); [|lra]. apply RT.
  - cbn [pow]. assert (INR 2 <= INR omp_max)%R by (apply le_INR; lia). cbn [INR] in *. lra.
  - split; [lra|]. cbn [pow]. replace (0 - PI / 1)%R with (- PI)%R by field. rewrite cos_neg, cos_PI.
    replace (2 * (Rd - 1))%R with ((Rd - 1) + (Rd - 1))%R by ring. rewrite cosh_plus. ring.
Qed.
Lemma one_minus_cos th : (0 <= th <= PI)%R -> (1 - cos th <= th * th / 2)%R.
Proof.
  intros H. replace th with (2 * (th / 2))%R at 1 by field. rewrite cos_2a_sin.
  destruct (Req_dec th 0) as [->|N]; [replace (0 / 2)%R with 0%R by field; rewrite sin_0; lra|].
  assert (sin (th / 2) < th / 2)%R by (apply sin_lt_x; lra). assert (0 < sin (th / 2))%R by (apply sin_gt_0; lra). nra.
Qed.
(** a disc of radius 8 (several hundred points) with 64 threads *)
Theorem C39_radius_8_refuted : ~ deep_enough 8 64.
Proof.
  intros H. specialize (H 6 (hyp_distance (8 - 1) 0 (8 - 1) (PI / 2 ^ 6))%R).
  assert (L : (8 < hyp_distance (8 - 1) 0 (8 - 1) (PI / 2 ^ 6))%R).
  { apply H; [|apply hyp_dist_exists]. rewrite INR_IZR_INZ. change (IZR (Z.of_nat 64)) with 64%R. cbn [pow]. lra. }
  rewrite hyp_distance_0 in L. apply acosh_gt_iff in L; [|apply hc_ge_1|lra]. unfold hc in L.
  set (th := (PI / 2 ^ 6)%R) in L. replace (8 - 1)%R with 7%R in L by ring. pose proof (cosh_sqr 7) as CS.
  pose proof PI_RGT_0 as P0. pose proof PI_upper as PU.
  assert (TH : (0 <= th <= 491 / 10000)%R) by (unfold th; cbn [pow]; lra).
  pose proof (one_minus_cos th ltac:(pose proof PI2_3_2; lra)) as OC.
  assert (T2 : (th * th / 2 <= 121 / 100000)%R) by nra.
  assert (E7 : (0 <= sinh 7 <= exp 7 / 2)%R).
  { split; [apply sinh_nonneg; lra|]. unfold sinh. pose proof (exp_pos (Ropp 7)). lra. }
  assert (E8 : (exp 8 / 2 <= cosh 8)%R) by (unfold cosh; pose proof (exp_pos (Ropp 8)); lra).
  assert (E14 : (exp 7 * exp 7 = exp 6 * exp 8)%R) by (rewrite <- !exp_plus; f_equal; lra).
  assert (B6 : (exp 6 <= 407)%R).
  { replace 6%R with (INR 6) by (rewrite INR_IZR_INZ; reflexivity). rewrite exp_INR. destruct e_bounds as [_ EB].
    pose proof (pow_lt_compat (exp 1) (272095 / 100000) 6 ltac:(left; apply exp_pos) EB ltac:(lia)) as Hp.
    assert (K : ((272095 / 100000) ^ 6 < 407 / 1)%R) by (apply rat_gt; [lia|lia|vm_compute; reflexivity]). lra. }
  assert (B8 : (8 < exp 8)%R) by (pose proof (exp_ineq1 8 ltac:(lra)); lra).
  assert (B : (sinh 7 * sinh 7 * (1 - cos th) <= (exp 7 * exp 7 / 4) * (121 / 100000))%R).
  { pose proof (COS_bound th). apply Rmult_le_compat; [nra|lra|nra|lra]. }
  rewrite E14 in B. assert (exp 6 * exp 8 <= 407 * exp 8)%R by (apply Rmult_le_compat_r; lra). nra.
Qed.

(** ** concrete instances *)
Definition ex_hrng : hrng := {| hb := ex_rng; draw_u32 := fun g => (7%N, g); seed_seq := fun l => rseed ex_rng (Z.of_nat (length l)) |}.
Definition ex_part (l : list (N * N)) : list (N * N) := filter task_eq l ++ filter (fun x => negb (task_eq x)) l.
Example ex_part_ok : is_partition task_eq ex_part.
Proof.
  intros l. split; [symmetry; apply perm_partition|]. exists (filter task_eq l), (filter (fun x => negb (task_eq x)) l). split; [reflexivity|].
  split; apply Forall_forall; intros x Hx; apply filter_In in Hx as [_ Hx]; [exact Hx|now apply negb_true_iff].
Qed.
Example ex_hrg_input omp team : (1 <= N.of_nat omp <= 2 ^ 17)%N -> 1 <= team <= omp -> hrg_input [1/2; 3; 6]%R [0; 1; 3]%R 6 omp team.
Proof.
  intros H1 H2. assert (P : (3 < PI)%R) by (pose proof PI2_3_2; lra).
  constructor; try assumption; try (cbn; lia); try lra; repeat (apply Forall_cons; [lra|]); apply Forall_nil.
Qed.
(** two threads finish, the edge (0,1) is reported, (1,2) is not *)
Example ex_hrg_returns : returns 6 2 2.
Proof.
  apply C39_enough_radius; [lia|]. replace (2 * INR 2)%R with 4%R by (cbn [INR]; ring).
  assert (L : (ln 4 <= 2)%R); [|lra]. rewrite <- (ln_exp 2). left. apply ln_increasing; [lra|].
  replace 2%R with (1 + 1)%R at 1 by ring. rewrite exp_plus. destruct e_bounds. nra.
Qed.
Example ex_hrg_edges : forall seed o, hrg_outcome true ex_part ex_hrng [1/2; 3; 6]%R [0; 1; 3]%R 0 6 seed 2 2 o ->
  exists edges, o = Some edges /\ (In (0, 1) edges \/ In (1, 0) edges) /\ ~ (In (1, 2) edges \/ In (2, 1) edges).
Proof.
  intros seed o Ho. pose proof (ex_hrg_input 2 2 ltac:(split; [apply N.leb_le|apply N.leb_le]; reflexivity) ltac:(lia)) as HI.
  destruct (C36_threshold_hrg_is_exact true ex_part ex_hrng _ _ _ seed 2 2 HI ex_rng_good ex_part_ok) as [_ M].
  destruct (M o Ho) as (edges & -> & E). exists edges. split; [reflexivity|].
  rewrite (E 0 1), (E 1 2) by (cbn; lia). cbn [nth]. split.
  - eexists. split; [apply hyp_dist_exists|]. rewrite hyp_distance_eq. apply acosh_lt_iff; [apply hc_ge_1|lra|].
    eapply Rle_lt_trans; [apply hc_upper; lra|]. apply cosh_lt; lra.
  - intros (d & Hd & L). destruct Hd as [D0 D1]. assert (cosh d < cosh 6)%R by (apply cosh_lt; assumption).
    assert (C : (cos (1 - 3) <= 0)%R).
    { replace (1 - 3)%R with (- (2))%R by ring. rewrite cos_neg. apply Rlt_le, cos_lt_0; pose proof PI_upper; pose proof PI2_3_2; lra. }
    pose proof (cosh_ge_1 3). pose proof (cosh_ge_1 6). pose proof (sinh_pos 3 ltac:(lra)). pose proof (sinh_pos 6 ltac:(lra)).
    assert (0 < sinh 3 * sinh 6)%R by (apply Rmult_lt_0_compat; assumption). nra.
Qed.
Example ex_hrg_outcome : exists o, hrg_outcome true ex_part ex_hrng [1/2; 3; 6]%R [0; 1; 3]%R 0 6 5 2 2 o.
Proof.
  pose proof (ex_hrg_input 2 2 ltac:(split; [apply N.leb_le|apply N.leb_le]; reflexivity) ltac:(lia)) as HI.
  apply (C36_threshold_hrg_is_exact true ex_part ex_hrng _ _ _ 5 2 2 HI ex_rng_good ex_part_ok). apply ex_hrg_returns.
Qed.
(** the deadlock has concrete inputs *)
Example ex_hrg_stuck : hrg_input [1; 3/2]%R [0; 3]%R (3 / 2) 2 2 /\
  forall o, ~ hrg_outcome true ex_part ex_hrng [1; 3/2]%R [0; 3]%R 0 (3 / 2) 5 2 2 o.
Proof.
  assert (HI : hrg_input [1; 3/2]%R [0; 3]%R (3 / 2) 2 2).
  { assert (P : (3 < PI)%R) by (pose proof PI2_3_2; lra).
    constructor; try (cbn; lia); try lra; try (split; [apply N.leb_le|apply N.leb_le]; reflexivity); repeat (apply Forall_cons; [lra|]); apply Forall_nil. }
  split; [exact HI|]. intros o. apply (C39_small_disc_refuted true ex_part ex_hrng _ _ 0 (3 / 2) 5 2 2 HI ex_rng_good ex_part_ok); [lra|lia].
Qed.

Print Assumptions C36_threshold_hrg_is_exact.
Print Assumptions C36_threshold_hrg_is_deterministic.
Print Assumptions C37_simple_graph.
Print Assumptions C37_every_pair_decided_once.
Print Assumptions C37_no_undefined_behaviour.
Print Assumptions C38_work_distribution.
Print Assumptions C38_each_unit_once.
Print Assumptions C38_own_generator.
Print Assumptions C39_returns_iff.
Print Assumptions C39_every_schedule_finishes.
Print Assumptions C39_enough_radius.
Print Assumptions C39_small_disc_refuted.
Print Assumptions C39_radius_8_refuted.
Print Assumptions C48_reproducible.
