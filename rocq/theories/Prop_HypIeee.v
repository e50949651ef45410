(** Property C74: hypergirgs::generateEdges in IEEE-754 double arithmetic with an accurate <cmath>.
    Specification vocabulary: [is_hyp_dist] (Prop_Hyp.v), [is_double], [RN] (Ieee.v: doubles, rounding to nearest even), [libm_ok] and [double_disc] (HypF_Ieee.v). *)
From Coq Require Import Arith NArith ZArith List Bool Reals Permutation Lia Lra Psatz.
From Flocq Require Import Core.
From Verif Require Import Base Sched Coord_Model Coord_Proofs Coord_Geo Tree_Model Tree_Proofs Tree_Build Tree_Plan Tree_Run Girg_Model Girg_Proofs Girg_Num Prop_Girg Ieee
  Hyp_Model Hyp_Math Hyp_Angle Hyp_Levels Hyp_Build Hyp_Run Hyp_Sched Hyp_Threads Hyp_Gen Prop_Hyp HypF_Model HypF_Build HypF_Run HypF_Gen HypF_Err HypF_Ieee.
Import ListNotations.
Local Open Scope nat_scope.

(** the random engine hands out doubles *)
Definition double_rng (rg : rng) : Prop := good_rng rg /\ forall p g, is_double p -> is_double (fst (uni0 rg p g)).

(** *** two points: the comparison and the cells *)
Section Two.
  Context {M : hmath} (LM : libm_ok M) {radii angles : list R} {Rd : R} (DD : double_disc radii angles Rd).
  Notation radii' := (map (radF Rd) radii).
  Notation angles' := (map phiF angles).
  Notation n := (length radii).
  Notation err w z := (cosh (rad radii w) * cosh (rad radii z) + cosh Rd)%R.
  Notation X w z := (hc (rad radii w) (rad radii z) (phi angles w - phi angles z)).
  Lemma rad_pos w : w < n -> (0 < rad radii w <= Rd * (1 + b2 (-46)))%R.
  Proof. intros H. destruct (rad_dd radii angles Rd DD w H) as (_ & A). destruct (dd_R _ _ _ DD) as [_ B]. pose proof (bpow_gt_0 radix2 (-52)). nra. Qed.
  Lemma rad_pos1 w : w < n -> (0 < rad radii w <= Rd + 1)%R.
  Proof.
    intros H. pose proof (rad_pos w H) as A. destruct (dd_R _ _ _ DD) as [_ B]. assert (b2 (-46) <= b2 (-10))%R by (apply bpow_le; lia). change (b2 (-10)) with (/ 1024)%R in H0. nra.
  Qed.
  Lemma phi_abs w : w < n -> (Rabs (phi angles w) <= 7)%R.
  Proof. intros H. destruct (phi_dd radii angles Rd DD w H) as (_ & A). pose proof PIF_bounds. rewrite Rabs_pos_eq by lra. lra. Qed.
  Lemma hitF_close w z : w < n -> z < n ->
    if hitF M radii angles radii' angles' Rd w z then (X w z < cosh Rd + b2 (-47) * err w z)%R else (cosh Rd - b2 (-47) * err w z < X w z)%R.
  Proof.
    intros Hw Hz. destruct (dd_R _ _ _ DD) as [DR HR]. unfold hitF, isDistanceBelowRF. cbn [coth_r invsinh_r cos_phi sin_phi mkF]. rewrite !(lm_r M LM).
    apply (hit_close M LM Rd (rad radii w) (rad radii z) (phi angles w) (phi angles z) DR HR); try (apply (rad_dd radii angles Rd DD); assumption);
      try (apply (phi_dd radii angles Rd DD); assumption); try (apply rad_pos1; assumption); apply phi_abs; assumption.
  Qed.
  Lemma lay_below w : w < n -> (rmin Rd (hlay radii' Rd w) <= rad radii w /\ INR (hlay radii' Rd w) < Rd)%R.
  Proof.
    intros Hw. pose proof (disc' radii angles Rd DD) as DI. split; [|apply (lt_hm _ _ _ DI), (hlay_spec _ _ _ DI); rewrite map_length; exact Hw].
    rewrite rmin_eq. unfold hlay. rewrite (rad' radii Rd w Hw). unfold radF.
    replace (Rd - (Rd - Rmax 0 (RN (Rd - rad radii w))))%R with (Rmax 0 (RN (Rd - rad radii w)))%R by ring.
    destruct (dd_R _ _ _ DD) as [_ HR]. pose proof (rad_pos w Hw) as HP. destruct (Rle_lt_dec (RN (Rd - rad radii w)) 0) as [L0|L0].
    { rewrite Rmax_left by exact L0. rewrite (Zfloor_IZR 0). cbn [Z.to_nat INR]. destruct (Rle_lt_dec (Rd - 0 - 1) (rad radii w)) as [L|L]; [exact L|]. exfalso.
      assert (1 <= Rd - rad radii w)%R by lra. apply RN_le in H. rewrite (RN_Z 1) in H by lia. lra. }
    rewrite Rmax_right by lra. set (x := (Rd - rad radii w)%R) in *. pose proof (Rlt_le _ _ L0) as H1.
    assert (F0 : (0 <= Zfloor (RN x))%Z) by (apply Zfloor_lub; exact H1). rewrite INR_IZR_INZ, Z2Nat.id by exact F0.
    assert (B : (x <= 40)%R) by (unfold x; lra).
    assert (F1 : (Zfloor (RN x) <= 40)%Z). { apply le_IZR. eapply Rle_trans; [apply Zfloor_lb|]. rewrite <- (RN_Z 40) by lia. apply RN_le. exact B. }
    destruct (Rle_lt_dec x (IZR (Zfloor (RN x) + 1))) as [L|L]; [rewrite plus_IZR in L; unfold x in *; lra|].
    exfalso. pose proof (Zfloor_ub (RN x)) as U. apply Rlt_le, RN_le in L. rewrite RN_Z in L by lia. rewrite plus_IZR in L. lra.
  Qed.
  Lemma not_far w z : w < n -> z < n -> (X w z < cosh Rd - b2 (-46) * err w z)%R -> ~ clearly_far radii' angles' Rd w z.
  Proof.
    intros Hw Hz HX (k & T1 & T2 & R1 & R2 & HF). pose proof (rad_pos w Hw) as Pw. pose proof (rad_pos z Hz) as Pz. destruct (dd_R _ _ _ DD) as [_ HR].
    destruct (lay_below w Hw) as [Lw Iw]. destruct (lay_below z Hz) as [Lz Iz]. pose proof (half_range k) as HK. set (th := half k) in *.
    set (c := cos (phi angles' w - phi angles' z)) in *.
    (* the comparison of the levels is clear, so it does not matter that a radius exceeds R a little *)
    assert (HF' : (cosh (Rd * (1 + b2 (-46))) < hc (rmin Rd (hlay radii' Rd w)) (rmin Rd (hlay radii' Rd z)) th)%R).
    { pose proof (dd_clear _ _ _ DD (hlay radii' Rd w) (hlay radii' Rd z) k Iw Iz T1) as CL. rewrite <- !rmin_eq in CL. change (PI / pow2R k)%R with (half k) in CL. fold th in CL.
      rewrite Rabs_pos_eq in CL by lra. pose proof (cosh_ge_1 (rmin Rd (hlay radii' Rd w))). pose proof (cosh_ge_1 (rmin Rd (hlay radii' Rd z))). pose proof (cosh_ge_1 Rd).
      assert (EE : (b2 (-45) = 2 * b2 (-46))%R). { change 2%R with (b2 1). rewrite <- bpow_plus. reflexivity. } pose proof (bpow_gt_0 radix2 (-46)) as P46.
      assert (B46 : (b2 (-46) <= b2 (-10))%R) by (apply bpow_le; lia). change (b2 (-10)) with (/ 1024)%R in B46.
      replace (Rd * (1 + b2 (-46)))%R with (Rd + Rd * b2 (-46))%R by ring. eapply Rle_lt_trans; [apply cosh_grow; nra|].
      assert (0 < b2 (-45) * (cosh (rmin Rd (hlay radii' Rd w)) * cosh (rmin Rd (hlay radii' Rd z))))%R by (apply Rmult_lt_0_compat; [lra|nra]). nra. }
    assert (H1 : (hc (rmin Rd (hlay radii' Rd w)) (rmin Rd (hlay radii' Rd z)) th <= hc (rad radii w) (rad radii z) th)%R).
    { apply (hc_mono (Rd * (1 + b2 (-46)))%R); try lra. }
    assert (H2 : (hc (rad radii w) (rad radii z) th <= hc (rad radii w) (rad radii z) (phi angles' w - phi angles' z))%R) by (apply hc_angle_le; fold c; lra).
    assert (EU : b2 (-46) = (128 * u53)%R). { change 128%R with (b2 7). unfold u53. rewrite <- bpow_plus. reflexivity. }
    pose proof u_small as U. rewrite EU in HX. revert HX. unfold hc in *.
    pose proof (cosh_sinh_abs (rad radii w)) as Cw. pose proof (cosh_sinh_abs (rad radii z)) as Cz. pose proof (sinh_pos _ (proj1 Pw)) as Sw. pose proof (sinh_pos _ (proj1 Pz)) as Sz.
    rewrite Rabs_pos_eq in Cw, Cz by lra. pose proof (cosh_ge_1 (rad radii w)). pose proof (cosh_ge_1 (rad radii z)). pose proof (cosh_ge_1 Rd).
    assert (E : (Rabs (cos (phi angles' w - phi angles' z) - cos (phi angles w - phi angles z)) <= 64 * u53)%R).
    { eapply Rle_trans; [apply cos_lip|]. rewrite (phi' radii angles Rd DD w Hw), (phi' radii angles Rd DD z Hz).
      destruct (phi_dd radii angles Rd DD w Hw) as [Dw Aw]. destruct (phi_dd radii angles Rd DD z Hz) as [Dz Az]. pose proof (phiF_err _ Dw Aw) as E1. pose proof (phiF_err _ Dz Az) as E2.
      match goal with |- (Rabs (?a - ?b - (?x - ?y)) <= _)%R => replace (a - b - (x - y))%R with ((a - x) + - (b - y))%R by ring end.
      eapply Rle_trans; [apply Rabs_triang|]. rewrite Rabs_Ropp. lra. }
    apply Rabs_le_inv in E. set (S := (sinh (rad radii w) * sinh (rad radii z))%R) in *. set (C := (cosh (rad radii w) * cosh (rad radii z))%R) in *.
    assert (SC : (0 < S <= C)%R). { split; [apply Rmult_lt_0_compat; assumption|apply Rmult_le_compat; lra]. }
    set (c' := cos (phi angles w - phi angles z)) in *. fold c in E, H2. intros HX.
    assert (S * c' - S * c <= S * (64 * u53))%R by nra. assert (S * (64 * u53) <= C * (64 * u53))%R by (apply Rmult_le_compat_r; lra).
    assert (0 < u53 * C)%R by (apply Rmult_lt_0_compat; lra). assert (0 < u53 * cosh Rd)%R by (apply Rmult_lt_0_compat; lra). lra.
  Qed.
End Two.

Section UseF.
  Context {M : hmath} (LM : libm_ok M) {radii angles : list R} {Rd : R} (DD : double_disc radii angles Rd).
  Notation radii' := (map (radF Rd) radii).
  Notation angles' := (map phiF angles).
  Lemma hi' omp_max team : (1 <= N.of_nat omp_max <= 2 ^ 17)%N -> 1 <= team <= omp_max -> hrg_input radii' angles' Rd omp_max team.
  Proof. intros H1 H2. destruct (disc' radii angles Rd DD). constructor; assumption. Qed.
  Lemma use_hrgF T : exists t ord, htree_specF M radii angles radii' angles' T Rd t ord /\
    forall hg nd part seed omp_max team, double_rng (hb hg) -> is_partition task_eq part -> (1 <= N.of_nat omp_max <= 2 ^ 17)%N -> 1 <= team <= omp_max ->
      (returns Rd omp_max team <-> exists o, hrg_outcomeF M nd part hg radii angles T Rd seed omp_max team o) /\
      forall o, hrg_outcomeF M nd part hg radii angles T Rd seed omp_max team o ->
        exists rss edges, generate_outcomeF M nd part t hg seed omp_max team (Some rss) /\ o = Some edges /\
          hsampledF M radii angles radii' angles' T Rd t ord hg nd (concat rss) /\ interleaving (map (fun rs => flat_map edges_of rs) rss) edges.
  Proof.
    destruct (hrgF_ok M radii angles radii' angles' T Rd (double_fits M LM radii angles Rd DD)) as (t & ord & TS & H). exists t, ord. split; [exact TS|].
    intros hg nd part seed omp_max team [GG GD] HP HO HT. destruct (omp_nat _ HO) as [O1 O2].
    destruct (H hg nd part seed omp_max team GG (libm_sound M (hb hg) LM GG GD) HP O1 O2 HT) as (H1 & H2 & H3). split; [|exact H3].
    pose proof (use_finishing (hi' omp_max team HO HT) T _ ord (hf_spec _ _ _ _ _ _ _ _ _ TS)) as UF.
    change (finishing (with_points t (map (hmk radii' angles' Rd) ord)) omp_max team) with (finishing t omp_max team) in UF.
    rewrite <- UF. split; [exact H1|]. intros [o Ho].
    assert (D : finishing t omp_max team \/ ~ finishing t omp_max team).
    { destruct (Nat.eq_dec omp_max 1) as [E1|E1]; [left; left; lia|].
      destruct (fpl_defined omp_max ltac:(lia)) as (fpl & Ef & _). destruct (Nat.eq_dec team omp_max) as [Et|Et]; [|right; intros [?|(_ & ? & _)]; lia].
      destruct (N.lt_ge_cases fpl (h_levels t)) as [L|L]; [left; right; split; [lia|]; eauto|].
      right. intros [?|(_ & _ & f & E2 & L2)]; [lia|]. rewrite Ef in E2. injection E2 as <-. lia. }
    destruct D as [D|D]; [exact D|]. exfalso. exact (H2 D o Ho).
  Qed.
End UseF.

(** ** C74: it returns exactly when it does in exact arithmetic, without undefined behaviour, and produces a simple graph *)
Theorem C74_simple_graph : forall M nd part hg radii angles T Rd seed omp_max team,
  libm_ok M -> double_disc radii angles Rd -> double_rng (hb hg) -> is_partition task_eq part -> (1 <= N.of_nat omp_max <= 2 ^ 17)%N -> 1 <= team <= omp_max ->
  (returns Rd omp_max team <-> exists o, hrg_outcomeF M nd part hg radii angles T Rd seed omp_max team o) /\
  forall o, hrg_outcomeF M nd part hg radii angles T Rd seed omp_max team o ->
    exists edges, o = Some edges /\ NoDup edges /\
      (forall u v, In (u, v) edges -> u < length radii /\ v < length radii) /\
      (forall u, ~ In (u, u) edges) /\ (forall u v, In (u, v) edges -> ~ In (v, u) edges).
Proof.
  intros M nd part hg radii angles T Rd seed omp_max team LM DD GG HP HO HT. destruct (use_hrgF LM DD T) as (t & ord & TS & H).
  destruct (H hg nd part seed omp_max team GG HP HO HT) as (H1 & H2). split; [exact H1|].
  intros o Ho. destruct (H2 o Ho) as (rss & edges & _ & -> & SA & IL). exists edges. split; [reflexivity|].
  assert (Hin : forall u v, In (u, v) edges -> u < length radii /\ v < length radii /\ u <> v).
  { intros u v Hi. apply (hedges_In rss edges _ IL) in Hi. apply (le_count_incl _ _ _ (sf_le _ _ _ _ _ _ _ _ _ _ _ _ SA)) in Hi.
    now apply (sf_range _ _ _ _ _ _ _ _ _ _ _ _ SA). }
  assert (Hc : forall u v, u < length radii -> v < length radii -> u <> v -> cnt2 edges u v <= 1).
  { intros u v Hu Hv Hne. rewrite (cnt2_perm _ _ u v (hedges_perm rss edges IL)).
    pose proof (sf_once _ _ _ _ _ _ _ _ _ _ _ _ SA u v Hu Hv Hne) as Ho1. unfold cnt2 in *.
    pose proof (sf_le _ _ _ _ _ _ _ _ _ _ _ _ SA (u, v)). pose proof (sf_le _ _ _ _ _ _ _ _ _ _ _ _ SA (v, u)). lia. }
  split; [|split; [|split]].
  - apply (NoDup_count_occ pair_dec). intros [u v]. destruct (in_dec pair_dec (u, v) edges) as [Hi|Hi].
    + destruct (Hin u v Hi) as (Hu & Hv & Hne). specialize (Hc u v Hu Hv Hne). unfold cnt2 in Hc. lia.
    + apply (count_occ_not_In pair_dec) in Hi. lia.
  - intros u v Hi. destruct (Hin u v Hi) as (Hu & Hv & _). auto.
  - intros u Hi. destruct (Hin u u Hi) as (_ & _ & Hne). congruence.
  - intros u v Hi H'. destruct (Hin u v Hi) as (Hu & Hv & Hne). specialize (Hc u v Hu Hv Hne). unfold cnt2 in Hc.
    apply (count_occ_In pair_dec) in Hi, H'. lia.
Qed.

(** every pair of points is decided exactly once: no pair is skipped and none is tried twice *)
Theorem C74_every_pair_decided_once : forall M nd part hg radii angles T Rd seed omp_max team t,
  libm_ok M -> double_disc radii angles Rd -> double_rng (hb hg) -> is_partition task_eq part -> (1 <= N.of_nat omp_max <= 2 ^ 17)%N -> 1 <= team <= omp_max ->
  (nd = true -> T <> 0%R) (* release builds do not visit far cell pairs of threshold graphs at all *) ->
  htree_outcomeF M radii angles T Rd omp_max (Some t) ->
  (returns Rd omp_max team -> exists ors, generate_outcomeF M nd part t hg seed omp_max team ors) /\
  forall ors, generate_outcomeF M nd part t hg seed omp_max team ors ->
    exists rss, ors = Some rss /\
      (forall u v, In (u, v) (flat_map pairs_of (concat rss)) -> u < length radii /\ v < length radii /\ u <> v) /\
      (forall u v, u < length radii -> v < length radii -> u <> v ->
         count_occ pair_dec (flat_map pairs_of (concat rss)) (u, v) + count_occ pair_dec (flat_map pairs_of (concat rss)) (v, u) = 1) /\
      (forall e, In e (flat_map edges_of (concat rss)) -> In e (flat_map pairs_of (concat rss))) /\
      (* the closing debug assertion, HyperbolicTree.inl:144 *)
      (fold_right Z.add 0 (map (fun r => type1 r + type2 r) (concat rss)) = Z.of_nat (length radii) * (Z.of_nat (length radii) - 1))%Z.
Proof.
  intros M nd part hg radii angles T Rd seed omp_max team t LM DD GG HP HO HT Ha Ht. destruct (omp_nat _ HO) as [O1 O2].
  pose proof (double_fits M LM radii angles Rd DD) as FT.
  destruct (hbuildF_det M radii angles _ _ T Rd FT) as (t' & ord & TS & HU). specialize (HU omp_max O1). pose proof (proj2 HU _ Ht) as E. injection E as ->.
  destruct (generateF_ok M radii angles _ _ T Rd FT t' ord TS hg (proj1 GG) (libm_sound M (hb hg) LM (proj1 GG) (proj2 GG)) nd part HP seed omp_max team O2 HT) as (G1 & _ & G3). split.
  - intros HR. pose proof (use_finishing (hi' DD omp_max team HO HT) T _ ord (hf_spec _ _ _ _ _ _ _ _ _ TS)) as UF.
    change (finishing (with_points t' (map (hmk (map (radF Rd) radii) (map phiF angles) Rd) ord)) omp_max team) with (finishing t' omp_max team) in UF.
    apply UF in HR. destruct (G1 HR) as (rss & H). eauto.
  - intros ors Hors. destruct (G3 ors Hors) as (rss & -> & _ & SA). exists rss. split; [reflexivity|].
    assert (Hk : nd && is_zero T = false).
    { destruct nd; [|reflexivity]. cbn [andb]. unfold is_zero. destruct (Req_EM_T T 0); [now specialize (Ha eq_refl)|reflexivity]. }
    pose proof (sf_all _ _ _ _ _ _ _ _ _ _ _ _ SA Hk) as Hall. pose proof (sf_range _ _ _ _ _ _ _ _ _ _ _ _ SA) as Hr.
    split; [exact Hr|]. split; [exact Hall|]. split.
    + intros e He. eapply le_count_incl; [apply (sf_le _ _ _ _ _ _ _ _ _ _ _ _ SA)|exact He].
    + rewrite (sf_checks _ _ _ _ _ _ _ _ _ _ _ _ SA). now apply pairs_length.
Qed.

(** ** threshold graphs: pairs whose distance is not too close to R are decided as in exact arithmetic *)
Definition tolerance (r1 r2 Rd : R) : R := (b2 (-46) * (cosh r1 * cosh r2 + cosh Rd))%R.
Theorem C74_threshold_close : forall M nd part hg radii angles Rd seed omp_max team,
  libm_ok M -> double_disc radii angles Rd -> double_rng (hb hg) -> is_partition task_eq part -> (1 <= N.of_nat omp_max <= 2 ^ 17)%N -> 1 <= team <= omp_max ->
  forall edges, hrg_outcomeF M nd part hg radii angles 0 Rd seed omp_max team (Some edges) ->
  forall u v d, u < length radii -> v < length radii -> u <> v ->
    is_hyp_dist (nth u radii 0%R) (nth u angles 0%R) (nth v radii 0%R) (nth v angles 0%R) d ->
    ((cosh d < cosh Rd - tolerance (nth u radii 0) (nth v radii 0) Rd)%R -> In (u, v) edges \/ In (v, u) edges) /\
    ((cosh Rd + tolerance (nth u radii 0) (nth v radii 0) Rd < cosh d)%R -> ~ In (u, v) edges /\ ~ In (v, u) edges).
Proof.
  intros M nd part hg radii angles Rd seed omp_max team LM DD GG HP HO HT edges Ho u v d Hu Hv Hne [_ Hd]. destruct (use_hrgF LM DD 0) as (t & ord & TS & H).
  destruct (H hg nd part seed omp_max team GG HP HO HT) as (_ & H2). destruct (H2 _ Ho) as (rss & edges' & _ & [= <-] & SA & IL).
  change (cosh d = hc (rad radii u) (rad radii v) (phi angles u - phi angles v)) in Hd. change (nth u radii 0%R) with (rad radii u). change (nth v radii 0%R) with (rad radii v).
  assert (Hd' : cosh d = hc (rad radii v) (rad radii u) (phi angles v - phi angles u)).
  { rewrite Hd, hc_sym. unfold hc. rewrite <- (cos_neg (phi angles u - phi angles v)). do 3 f_equal. ring. }
  rewrite !(hedges_In rss edges _ IL). unfold tolerance.
  pose proof (hitF_close LM DD u v Hu Hv) as K1. pose proof (hitF_close LM DD v u Hv Hu) as K2. rewrite <- Hd in K1. rewrite <- Hd' in K2.
  assert (EE : (b2 (-46) = 2 * b2 (-47))%R). { change 2%R with (b2 1). rewrite <- bpow_plus. reflexivity. }
  pose proof (bpow_gt_0 radix2 (-47)) as P. pose proof (cosh_ge_1 (rad radii u)). pose proof (cosh_ge_1 (rad radii v)). pose proof (cosh_ge_1 Rd).
  set (e := (cosh (rad radii u) * cosh (rad radii v) + cosh Rd)%R) in *. replace (cosh (rad radii v) * cosh (rad radii u) + cosh Rd)%R with e in K2 by (unfold e; ring).
  assert (Pe : (0 < b2 (-47) * e)%R) by (apply Rmult_lt_0_compat; [exact P|unfold e; nra]).
  split.
  - intros L. assert (h1 : hitF M radii angles (map (radF Rd) radii) (map phiF angles) Rd u v = true) by (destruct (hitF _ _ _ _ _ _ u v); [reflexivity|rewrite EE in L; lra]).
    assert (h2 : hitF M radii angles (map (radF Rd) radii) (map phiF angles) Rd v u = true) by (destruct (hitF _ _ _ _ _ _ v u); [reflexivity|rewrite EE in L; lra]).
    apply (sf_complete _ _ _ _ _ _ _ _ _ _ _ _ SA eq_refl u v Hu Hv Hne h1 h2). apply (not_far DD u v Hu Hv). rewrite <- Hd. exact L.
  - intros L. split; intros Hi; apply (sf_sound _ _ _ _ _ _ _ _ _ _ _ _ SA eq_refl) in Hi; rewrite Hi in *; rewrite EE in L; lra.
Qed.
(** the same graph, whatever the random numbers, the seed, the number of threads, the schedule and the build *)
Theorem C74_threshold_deterministic : forall M radii angles Rd nd1 part1 hg1 seed1 omp1 team1 nd2 part2 hg2 seed2 omp2 team2 edges1 edges2,
  libm_ok M -> double_disc radii angles Rd ->
  double_rng (hb hg1) -> is_partition task_eq part1 -> (1 <= N.of_nat omp1 <= 2 ^ 17)%N -> 1 <= team1 <= omp1 ->
  double_rng (hb hg2) -> is_partition task_eq part2 -> (1 <= N.of_nat omp2 <= 2 ^ 17)%N -> 1 <= team2 <= omp2 ->
  hrg_outcomeF M nd1 part1 hg1 radii angles 0 Rd seed1 omp1 team1 (Some edges1) -> hrg_outcomeF M nd2 part2 hg2 radii angles 0 Rd seed2 omp2 team2 (Some edges2) ->
  Permutation edges1 edges2.
Proof.
  intros M radii angles Rd nd1 part1 hg1 seed1 omp1 team1 nd2 part2 hg2 seed2 omp2 team2 edges1 edges2 LM DD G1 P1 O1 T1 G2 P2 O2 T2 R1 R2.
  destruct (use_hrgF LM DD 0) as (t & ord & TS & H).
  destruct (proj2 (H hg1 nd1 part1 seed1 omp1 team1 G1 P1 O1 T1) _ R1) as (rss1 & e1 & _ & [= <-] & S1 & I1).
  destruct (proj2 (H hg2 nd2 part2 seed2 omp2 team2 G2 P2 O2 T2) _ R2) as (rss2 & e2 & _ & [= <-] & S2 & I2).
  rewrite (hedges_perm rss1 edges1 I1), (hedges_perm rss2 edges2 I2), (sf_det _ _ _ _ _ _ _ _ _ _ _ _ S1 eq_refl), (sf_det _ _ _ _ _ _ _ _ _ _ _ _ S2 eq_refl). reflexivity.
Qed.
(** any temperature: the seed determines the edges up to their order, and with one thread the order too *)
Theorem C74_reproducible : forall M radii angles T Rd nd part hg seed omp_max team edges1 edges2,
  libm_ok M -> double_disc radii angles Rd -> double_rng (hb hg) -> is_partition task_eq part -> (1 <= N.of_nat omp_max <= 2 ^ 17)%N -> 1 <= team <= omp_max -> (0 <= seed)%Z ->
  hrg_outcomeF M nd part hg radii angles T Rd seed omp_max team (Some edges1) -> hrg_outcomeF M nd part hg radii angles T Rd seed omp_max team (Some edges2) ->
  Permutation edges1 edges2 /\ (omp_max = 1 -> edges1 = edges2).
Proof.
  intros M radii angles T Rd nd part hg seed omp_max team edges1 edges2 LM DD GG HP HO HT Hs R1 R2. destruct (use_hrgF LM DD T) as (t & ord & TS & H).
  destruct (H hg nd part seed omp_max team GG HP HO HT) as (_ & H2). destruct (omp_nat _ HO) as [O1 O2].
  destruct (H2 _ R1) as (rss1 & e1 & Q1 & [= <-] & _ & I1). destruct (H2 _ R2) as (rss2 & e2 & Q2 & [= <-] & _ & I2).
  destruct (generateF_repro M radii angles _ _ T Rd (double_fits M LM radii angles Rd DD) t ord TS hg (proj1 GG) (libm_sound M (hb hg) LM (proj1 GG) (proj2 GG)) nd part HP seed omp_max team rss1 rss2 O2 HT Hs Q1 Q2) as [P E].
  split.
  - rewrite (hedges_perm rss1 edges1 I1), (hedges_perm rss2 edges2 I2). now apply Permutation_flat_map.
  - intros E1. specialize (E E1). subst rss2 omp_max. unfold generate_outcomeF in Q1. cbn [Nat.eqb] in Q1. destruct Q1 as (s & _ & Q1).
    destruct (hvisitF _ _ _ _ _ _ _) as [cs|]; [cbn [obind] in Q1|discriminate]. destruct (hrun_callsF _ _ _ _ _) as [r|]; [cbn [obind] in Q1|discriminate]. injection Q1 as ->.
    cbn [map] in I1, I2. apply interleaving_single in I1, I2. congruence.
Qed.

(** ** An accurate <cmath>: every function correctly rounded *)
Definition rounded_math : hmath :=
  {| hr := RN; hpi := RN PI; hcosh := fun x => RN (cosh x); hsinh := fun x => RN (sinh x); hcos := fun x => RN (cos x); hsin := fun x => RN (sin x);
     hacosh := fun x => RN (acosh x); hexp := fun x => RN (exp x); hlog := fun x => RN (ln x) |}.
Lemma RN_rel4 x : (b2 (-1000) <= Rabs x -> Rabs (RN x - x) <= 4 * u53 * Rabs x)%R.
Proof.
  intros H. pose proof (RN_err x) as E. pose proof u_small as U. assert (eta <= u53 * Rabs x)%R; [|pose proof (Rabs_pos x); nra].
  apply Rle_trans with (u53 * b2 (-1000))%R; [|apply Rmult_le_compat_l; lra]. unfold eta, u53. rewrite <- bpow_plus. apply bpow_le. lia.
Qed.
Lemma RN_nearest x y : is_double y -> (Rabs (RN x - x) <= Rabs (y - x))%R.
Proof. intros D. apply (round_N_pt radix2 fexp64 (fun z => negb (Z.even z)) x). exact D. Qed.
Lemma sinh_small x : (0 <= x <= / 2 -> 0 <= sinh x - x <= x * x)%R.
Proof.
  intros H. pose proof (exp_opp_mul x) as E. pose proof (exp_pos x) as P. pose proof (exp_pos (- x)) as P'.
  assert (L1 : (1 - x <= exp (- x))%R). { pose proof (exp_ineq1_le (- x)). lra. } assert (L2 : (1 + x <= exp x)%R) by apply exp_ineq1_le.
  split.
  - unfold sinh. assert (exp (- x) * (1 + x) <= 1)%R by nra.
    (* sinh x - x is increasing; use convexity: exp x >= 1 + x + x^2/2 *)
    assert (Q : (1 + x + x * x / 2 <= exp x)%R).
    { pose proof (exp_ineq1_le (x / 2)) as A. assert (E2 : exp x = (exp (x / 2) * exp (x / 2))%R) by (rewrite <- exp_plus; f_equal; field).
      (* (1 + x/2)^2 = 1 + x + x^2/4 is not enough; iterate once more with the derivative *)
      destruct (Req_dec x 0) as [->|NZ]; [rewrite exp_0; lra|].
      assert (D : derivable (fun y => exp y - y - y * y / 2)%R) by (unfold derivable; intros y; reg).
      destruct (MVT_cor1 (fun y => exp y - y - y * y / 2)%R 0 x D ltac:(lra)) as (c & Hc & Hr). cbn beta in Hc.
      assert (DE : derive_pt (fun y => exp y - y - y * y / 2)%R c (D c) = (exp c - 1 - c)%R).
      { erewrite (pr_nu _ _ _ _). instantiate (1 := ltac:(reg)). reg. field. }
      rewrite DE, exp_0 in Hc. pose proof (exp_ineq1_le c). nra. }
    assert (Q2 : (exp (- x) <= 1 - x + x * x / 2)%R).
    { assert (exp (- x) * (1 + x + x * x / 2) <= 1)%R by nra. assert (1 <= (1 - x + x * x / 2) * (1 + x + x * x / 2))%R by nra. assert (0 < 1 + x + x * x / 2)%R by nra. nra. }
    lra.
  - unfold sinh. assert (exp x <= 1 + x + 2 * (x * x))%R.
    { assert (exp x * (1 - x) <= 1)%R by nra. assert (1 <= (1 + x + 2 * (x * x)) * (1 - x))%R by nra. nra. }
    lra.
Qed.
Lemma rounded_ok : libm_ok rounded_math.
Proof.
  pose proof u_small as U. pose proof eta_small as T0. assert (N0 : (b2 (-1000) <= b2 0)%R) by (apply bpow_le; lia). change (b2 0) with 1%R in N0.
  assert (N1 : (b2 (-1000) <= u53)%R) by (apply bpow_le; lia). pose proof (bpow_gt_0 radix2 (-1000)) as N2.
  constructor; cbn [rounded_math hr hpi hcosh hsinh hcos hsin hacosh hexp hlog]; auto.
  - intros x _ _. apply RN_rel4. pose proof (cosh_ge_1 x). rewrite Rabs_pos_eq by lra. lra.
  - intros x D _. destruct (Rle_lt_dec (b2 (-1000)) (Rabs (sinh x))) as [L|L]; [now apply RN_rel4|].
    assert (K : forall y, is_double y -> (0 <= y)%R -> (Rabs (sinh y) < b2 (-1000))%R -> (Rabs (RN (sinh y) - sinh y) <= 4 * u53 * Rabs (sinh y))%R).
    { intros y Dy Hy Ly. eapply Rle_trans; [apply (RN_nearest _ y Dy)|]. pose proof (sinh_nonneg y Hy) as S. rewrite (Rabs_pos_eq (sinh y)) in * by exact S.
      assert (Y : (y <= sinh y)%R).
      { destruct (Rle_lt_dec y (/ 2)) as [A|A]; [pose proof (sinh_small y ltac:(lra)); lra|]. exfalso.
        assert (sinh (/ 2) <= sinh y)%R. { unfold sinh. assert (exp (/ 2) <= exp y)%R by (apply exp_le; lra). assert (exp (- y) <= exp (- / 2))%R by (apply exp_le; lra). lra. }
        pose proof (sinh_small (/ 2) ltac:(lra)). lra. }
      pose proof (sinh_small y ltac:(lra)) as [A B]. rewrite Rabs_minus_sym, Rabs_pos_eq by lra. nra. }
    destruct (Rle_lt_dec 0 x) as [Hx|Hx]; [now apply K|].
    replace x with (- - x)%R by ring. rewrite sinh_opp, RN_opp. replace (- RN (sinh (- x)) - - sinh (- x))%R with (- (RN (sinh (- x)) - sinh (- x)))%R by ring. rewrite !Rabs_Ropp.
    apply K; [unfold is_double; now apply generic_format_opp|lra|]. rewrite sinh_opp, Rabs_Ropp. exact L.
  - intros x D Hx. destruct (Req_dec x 1) as [->|NE]; [rewrite acosh_1, RN_0, Rminus_0_r, Rabs_R0; lra|].
    pose proof (acosh_nonneg x Hx) as A. apply RN_rel4. rewrite Rabs_pos_eq by exact A. apply Rle_trans with u53; [exact N1|].
    assert (G : (1 + 2 * u53 <= x)%R).
    { assert (1 < x)%R by lra. replace (1 + 2 * u53)%R with (succ radix2 fexp64 1).
      - apply succ_le_lt; try typeclasses eauto; [apply (double_Z 1); lia|exact D|lra].
      - rewrite succ_eq_pos by lra. f_equal. change 1%R with (bpow radix2 0) at 1. rewrite ulp_bpow. change (fexp64 (0 + 1)) with (-52)%Z. change 2%R with (b2 1). unfold u53. rewrite <- bpow_plus. reflexivity. }
    destruct (Rle_lt_dec u53 (acosh x)) as [L|L]; [exact L|]. exfalso. pose proof (cosh_acosh x Hx) as E.
    assert (B : (cosh (0 + acosh x) <= cosh 0 * (1 + 2 * acosh x))%R) by (apply cosh_grow; lra). rewrite Rplus_0_l, cosh_0 in B. lra.
  - intros x _ _. eapply Rle_trans; [apply RN_err|]. assert (Rabs (cos x) <= 1)%R by (apply Rabs_le; apply COS_bound). nra.
  - intros x _ _. eapply Rle_trans; [apply RN_err|]. assert (Rabs (sin x) <= 1)%R by (apply Rabs_le; apply SIN_bound). nra.
  - intros x _. apply RN_nonneg. left. apply exp_pos.
Qed.

(** ** Non-vacuity: three points in the disc of radius 5/2; the first two are adjacent, the first and the third are not *)
Definition zero_rng : rng := {| G := Z; rseed := fun z => z; u01 := fun g => (/ 2, (g + 1)%Z)%R; uni0 := fun p g => (0, (g + 1)%Z)%R; geo := fun p g => (Z.to_N (g mod 4), (g + 1)%Z) |}.
Definition zero_hrng : hrng := {| hb := zero_rng; draw_u32 := fun g => (7%N, g); seed_seq := fun l => Z.of_nat (length l) |}.
Example zero_rng_ok : double_rng (hb zero_hrng).
Proof.
  split; [constructor; cbn [zero_rng zero_hrng hb u01 uni0 geo fst]|].
  - intros _. lra.
  - intros p _ H. lra.
  - intros p g _. pose proof (Z.mod_pos_bound g 4 ltac:(lia)). change (2 ^ 63)%N with 9223372036854775808%N. lia.
  - intros p g _. cbn. apply (double_Z 0). lia.
Qed.
Lemma ex_num : (exp (1 / 2) * exp (1 / 2) = exp 1 /\ 1647 / 1000 < exp (1 / 2) < 16497 / 10000)%R.
Proof.
  assert (E : (exp (1 / 2) * exp (1 / 2) = exp 1)%R) by (rewrite <- exp_plus; f_equal; field). split; [exact E|]. pose proof e_bounds as B. pose proof (exp_pos (1 / 2)). split; nra.
Qed.
Lemma cosh_eq x a b : exp x = a -> (a * b = 1)%R -> cosh x = ((a + b) / 2)%R.
Proof.
  intros E1 E2. unfold cosh. assert (exp (- x) = b). { pose proof (exp_opp_mul x) as P. rewrite E1 in P. pose proof (exp_pos x) as Q. rewrite E1 in Q. apply Rmult_eq_reg_l with a; lra. }
  rewrite E1, H. reflexivity.
Qed.
(** cosh 3, cosh 5/2, cosh 2 *)
Lemma ex_cosh : (99 / 10 < cosh 3 < 1011 / 100 /\ 606 / 100 < cosh (5 / 2) < 618 / 100 /\ cosh 2 < 378 / 100)%R.
Proof.
  destruct ex_num as [E [L U]]. set (e := exp (1 / 2)) in *. pose proof (exp_opp_mul (1 / 2)) as P. fold e in P. set (f := exp (- (1 / 2))) in *.
  assert (F : (606 / 1000 < f < 608 / 1000)%R) by (split; nra).
  assert (E2 : (271 / 100 < e * e < 27216 / 10000)%R) by (pose proof e_bounds; rewrite E; lra).
  assert (F2 : (367 / 1000 < f * f < 370 / 1000)%R) by (split; nra).
  assert (E4 : (734 / 100 < e * e * (e * e) < 741 / 100)%R) by (split; nra).
  assert (F4 : (134 / 1000 < f * f * (f * f) < 137 / 1000)%R) by (split; nra).
  assert (P2 : ((e * e) * (f * f) = 1)%R) by (replace (e * e * (f * f))%R with ((e * f) * (e * f))%R by ring; rewrite P; ring).
  assert (P4 : ((e * e * (e * e)) * (f * f * (f * f)) = 1)%R) by (replace (e * e * (e * e) * (f * f * (f * f)))%R with ((e * e * (f * f)) * (e * e * (f * f)))%R by ring; rewrite P2; ring).
  assert (X2 : exp 2 = (e * e * (e * e))%R) by (unfold e; rewrite <- !exp_plus; f_equal; field).
  assert (X3 : exp 3 = (e * e * (e * e) * (e * e))%R) by (unfold e; rewrite <- !exp_plus; f_equal; field).
  assert (X5 : exp (5 / 2) = (e * e * (e * e) * e)%R) by (unfold e; rewrite <- !exp_plus; f_equal; field).
  rewrite (cosh_eq 3 _ (f * f * (f * f) * (f * f)) X3) by (replace (e * e * (e * e) * (e * e) * (f * f * (f * f) * (f * f)))%R with ((e * e * (e * e) * (f * f * (f * f))) * (e * e * (f * f)))%R by ring; rewrite P4, P2; ring).
  rewrite (cosh_eq (5 / 2) _ (f * f * (f * f) * f) X5) by (replace (e * e * (e * e) * e * (f * f * (f * f) * f))%R with ((e * e * (e * e) * (f * f * (f * f))) * (e * f))%R by ring; rewrite P4, P; ring).
  rewrite (cosh_eq 2 _ (f * f * (f * f)) X2 P4).
  set (e4 := (e * e * (e * e))%R) in *. set (e2 := (e * e)%R) in *. set (f4 := (f * f * (f * f))%R) in *. set (f2 := (f * f)%R) in *.
  assert (734 / 100 * (271 / 100) < e4 * e2 < 741 / 100 * (27216 / 10000))%R by (split; apply Rmult_gt_0_lt_compat; lra).
  assert (0 < f4 * f2 < 137 / 1000 * (370 / 1000))%R by (split; [apply Rmult_lt_0_compat; lra|apply Rmult_gt_0_lt_compat; lra]).
  assert (734 / 100 * (1647 / 1000) < e4 * e < 741 / 100 * (16497 / 10000))%R by (split; apply Rmult_gt_0_lt_compat; lra).
  assert (134 / 1000 * (606 / 1000) < f4 * f < 137 / 1000 * (608 / 1000))%R by (split; apply Rmult_gt_0_lt_compat; lra).
  lra.
Qed.
Lemma hc_abs r1 r2 th : (hc r1 r2 th <= cosh (Rabs r1 + Rabs r2))%R.
Proof.
  rewrite cosh_plus, !cosh_Rabs. unfold hc. assert (S : forall x, sinh (Rabs x) = Rabs (sinh x)).
  { intros x. destruct (Rle_lt_dec 0 x) as [H|H]; [rewrite (Rabs_pos_eq x H), Rabs_pos_eq; [reflexivity|now apply sinh_nonneg]|].
    rewrite (Rabs_left x H), sinh_opp. rewrite Rabs_left; [reflexivity|]. assert (0 < sinh (- x))%R by (apply sinh_pos; lra). rewrite sinh_opp in *. lra. }
  rewrite !S, <- Rabs_mult. pose proof (COS_bound th) as C. set (s := (sinh r1 * sinh r2)%R). pose proof (Rle_abs s). pose proof (Rle_abs (- s)) as Q. rewrite Rabs_Ropp in Q. nra.
Qed.
Lemma ex_disc : double_disc [2; 2; 1]%R [0; 1 / 8; 3]%R (5 / 2).
Proof.
  pose proof PIF_bounds as PB. pose proof ex_cosh as (C3 & C5 & C2).
  assert (D8 : is_double (1 / 8)) by (replace (1 / 8)%R with (b2 (-3)) by (change (b2 (-3)) with (/ 8)%R; lra); apply b2_double; lia).
  assert (DR : is_double (5 / 2)). { replace (5 / 2)%R with (IZR 5 * b2 (-1))%R by (change (b2 (-1)) with (/ 2)%R; lra). apply FLT_double; lia. }
  assert (BB : (b2 (-52) <= / 1000)%R). { apply Rle_trans with (b2 (-10)); [apply bpow_le; lia|]. change (b2 (-10)) with (/ 1024)%R. lra. }
  assert (B45 : (b2 (-45) <= / 1000000)%R). { apply Rle_trans with (b2 (-20)); [apply bpow_le; lia|]. change (b2 (-20)) with (/ 1048576)%R. lra. }
  constructor; try (cbn; lia).
  - split; [exact DR|lra].
  - pose proof (bpow_gt_0 radix2 (-52)). pose proof (bpow_gt_0 radix2 (-46)). apply List.Forall_cons; [split; [apply (double_Z 2); lia|lra]|]. apply List.Forall_cons; [split; [apply (double_Z 2); lia|lra]|].
    apply List.Forall_cons; [split; [apply (double_Z 1); lia|lra]|]. apply List.Forall_nil.
  - apply List.Forall_cons; [split; [apply (double_Z 0); lia|lra]|]. apply List.Forall_cons; [split; [exact D8|lra]|]. apply List.Forall_cons; [split; [apply (double_Z 3); lia|lra]|]. apply List.Forall_nil.
  - left. lra.
  - intros i j k Hi Hj _.
    assert (I : forall x, (INR x < 5 / 2)%R -> x = 0 \/ (1 <= x <= 2)%nat).
    { intros x Hx. assert (x < 3); [|lia]. apply INR_lt. eapply Rlt_trans; [exact Hx|]. rewrite INR_IZR_INZ. cbn. lra. }
    assert (A : forall x, (INR x < 5 / 2)%R -> (Rabs (5 / 2 - INR x - 1) <= 3 / 2)%R).
    { intros x Hx. pose proof (pos_INR x). apply Rabs_le. lra. }
    assert (A1 : forall x, (INR x < 5 / 2)%R -> x <> 0 -> (Rabs (5 / 2 - INR x - 1) <= / 2)%R).
    { intros x Hx Hn. assert (H1 : (INR 1 <= INR x)%R) by (apply le_INR; lia). cbn [INR] in H1. apply Rabs_le. destruct (I x Hx) as [|H2]; [lia|]. assert (H3 : (INR x <= INR 2)%R) by (apply le_INR; lia). cbn [INR] in H3. lra. }
    set (ri := (5 / 2 - INR i - 1)%R). set (rj := (5 / 2 - INR j - 1)%R).
    assert (CC : forall x, (Rabs x <= 3 / 2)%R -> (cosh x <= cosh 2)%R). { intros x Hx. apply cosh_le_abs. rewrite (Rabs_pos_eq 2) by lra. lra. }
    pose proof (CC ri (A i Hi)) as Ci. pose proof (CC rj (A j Hj)) as Cj. pose proof (cosh_ge_1 ri). pose proof (cosh_ge_1 rj).
    assert (MG : (b2 (-45) * (cosh ri * cosh rj + 5 / 2 * cosh (5 / 2)) <= / 1000)%R).
    { assert (cosh ri * cosh rj + 5 / 2 * cosh (5 / 2) <= 40)%R by nra. pose proof (bpow_gt_0 radix2 (-45)). assert (0 < cosh ri * cosh rj + 5 / 2 * cosh (5 / 2))%R by nra. nra. }
    eapply Rle_lt_trans; [exact MG|]. fold ri rj.
    destruct (Nat.eq_dec i 0) as [Ei|Ni]; [destruct (Nat.eq_dec j 0) as [Ej|Nj]|].
    + assert (Eri : ri = (3 / 2)%R) by (unfold ri; rewrite Ei; cbn [INR]; lra). assert (Erj : rj = (3 / 2)%R) by (unfold rj; rewrite Ej; cbn [INR]; lra). rewrite Eri, Erj.
      assert (S3 : (cosh 3 = cosh (3 / 2) * cosh (3 / 2) + sinh (3 / 2) * sinh (3 / 2))%R) by (rewrite <- cosh_plus; f_equal; lra). pose proof (cosh_sqr (3 / 2)) as SQ.
      destruct (N.eq_dec k 0) as [->|Nk].
      * rewrite pow2R_0. replace (PI / 1)%R with PI by field. unfold hc. rewrite cos_PI. rewrite Rabs_pos_eq by lra. lra.
      * assert (CN : (0 <= cos (PI / pow2R k))%R).
        { pose proof (half_le 1 k ltac:(lia)) as HL. pose proof (half_range k) as HK. unfold half in HL, HK. rewrite pow2R_1 in HL. apply cos_ge_0; lra. }
        pose proof (sinh_pos (3 / 2) ltac:(lra)) as SP. assert (SS : (0 <= sinh (3 / 2) * sinh (3 / 2) * cos (PI / pow2R k))%R) by (apply Rmult_le_pos; [nra|exact CN]).
        unfold hc. rewrite Rabs_left by lra. lra.
    + pose proof (hc_abs ri rj (PI / pow2R k)) as HA. pose proof (A i Hi). pose proof (A1 j Hj Nj).
      assert (cosh (Rabs ri + Rabs rj) <= cosh 2)%R. { apply cosh_le; [pose proof (Rabs_pos ri); pose proof (Rabs_pos rj); lra|]. fold ri in H1. fold rj in H2. lra. }
      rewrite Rabs_left by lra. lra.
    + pose proof (hc_abs ri rj (PI / pow2R k)) as HA. pose proof (A1 i Hi Ni). pose proof (A j Hj).
      assert (cosh (Rabs ri + Rabs rj) <= cosh 2)%R. { apply cosh_le; [pose proof (Rabs_pos ri); pose proof (Rabs_pos rj); lra|]. fold ri in H1. fold rj in H2. lra. }
      rewrite Rabs_left by lra. lra.
Qed.
Theorem C74_example : forall seed, (exists o, hrg_outcomeF rounded_math true ex_part zero_hrng [2; 2; 1]%R [0; 1 / 8; 3]%R 0 (5 / 2) seed 1 1 o) /\
  forall o, hrg_outcomeF rounded_math true ex_part zero_hrng [2; 2; 1]%R [0; 1 / 8; 3]%R 0 (5 / 2) seed 1 1 o ->
  exists edges, o = Some edges /\ (In (0, 1) edges \/ In (1, 0) edges) /\ ~ In (0, 2) edges /\ ~ In (2, 0) edges.
Proof.
  intros seed. assert (One : (1 <= N.of_nat 1 <= 2 ^ 17)%N) by (split; apply N.leb_le; reflexivity). assert (One' : 1 <= 1 <= 1) by lia.
  destruct (C74_simple_graph rounded_math true ex_part zero_hrng _ _ 0 _ seed 1 1 rounded_ok ex_disc zero_rng_ok ex_part_ok One One') as [H1 H2].
  split; [apply H1; now left|]. intros o Ho. destruct (H2 o Ho) as (edges & -> & _). exists edges. split; [reflexivity|].
  pose proof (C74_threshold_close rounded_math true ex_part zero_hrng _ _ _ seed 1 1 rounded_ok ex_disc zero_rng_ok ex_part_ok One One' edges Ho) as C.
  pose proof ex_cosh as (C3 & C5 & C2). pose proof (cosh_sqr 2) as Q2. pose proof (cosh_ge_1 2) as G2. pose proof (cosh_ge_1 1) as G1. pose proof (cosh_le 1 2 ltac:(lra) ltac:(lra)) as C12.
  assert (B46 : (0 < b2 (-46) <= / 1000000)%R). { split; [apply bpow_gt_0|]. apply Rle_trans with (b2 (-20)); [apply bpow_le; lia|]. change (b2 (-20)) with (/ 1048576)%R. lra. }
  assert (TL : forall x y, (1 <= cosh x <= cosh 2)%R -> (1 <= cosh y <= cosh 2)%R -> (0 < tolerance x y (5 / 2) <= / 1000)%R).
  { intros x y Hx Hy. unfold tolerance. assert (0 < cosh x * cosh y + cosh (5 / 2) <= 40)%R by nra. nra. }
  split.
  - destruct (C 0 1 (hyp_distance 2 0 2 (1 / 8)) ltac:(cbn; lia) ltac:(cbn; lia) ltac:(lia) (hyp_dist_exists 2 0 2 (1 / 8))) as [C1 _]. apply C1. clear C C1.
    cbn [nth]. pose proof (TL 2%R 2%R ltac:(lra) ltac:(lra)). rewrite hyp_distance_eq, cosh_acosh by apply hc_ge_1. unfold hc.
    replace (0 - 1 / 8)%R with (- (1 / 8))%R by ring. rewrite cos_neg. pose proof (cos_lower (1 / 8) ltac:(lra)) as CL. pose proof (COS_bound (1 / 8)). nra.
  - destruct (C 0 2 (hyp_distance 2 0 1 3) ltac:(cbn; lia) ltac:(cbn; lia) ltac:(lia) (hyp_dist_exists 2 0 1 3)) as [_ C1]. apply C1. clear C C1.
    cbn [nth]. pose proof (TL 2%R 1%R ltac:(lra) ltac:(lra)). rewrite hyp_distance_eq, cosh_acosh by apply hc_ge_1. unfold hc.
    replace (0 - 3)%R with (- (3))%R by ring. rewrite cos_neg.
    assert (S3 : (cosh 3 = cosh 2 * cosh 1 + sinh 2 * sinh 1)%R) by (rewrite <- cosh_plus; f_equal; lra).
    (* cos 3 <= cos (PI - (PI - 3)) is close to -1 *)
    assert (K3 : (cos 3 <= - (98 / 100))%R).
    { pose proof PI_upper as PU. pose proof PI2_3_2 as PL. replace 3%R with (PI - (PI - 3))%R by ring. rewrite cos_minus, cos_PI, sin_PI. pose proof (cos_lower (PI - 3) ltac:(lra)) as CL. nra. }
    pose proof (sinh_pos 2 ltac:(lra)). pose proof (sinh_pos 1 ltac:(lra)). assert (0 < sinh 2 * sinh 1)%R by nra. pose proof (cosh_sinh_abs 2). pose proof (cosh_sinh_abs 1).
    nra.
Qed.

(** ** Limits of the claim *)
(** A radius below half an ulp of R: R - r rounds to R, the layer index is the number of layers and the constructor reads past the end of a vector.
    In exact arithmetic the same input is fine (Prop_Hyp.C37). *)
Theorem C74_tiny_radius_refuted : forall M nd part hg T seed omp_max team, libm_ok M ->
  disc_input [b2 (-60)] [0%R] 10 /\ is_double (b2 (-60)) /\
  hrg_outcomeF M nd part hg [b2 (-60)] [0%R] T 10 seed omp_max team None /\
  forall o, hrg_outcomeF M nd part hg [b2 (-60)] [0%R] T 10 seed omp_max team o -> o = None.
Proof.
  intros M nd part hg T seed omp_max team LM.
  assert (P : (0 < b2 (-60))%R) by apply bpow_gt_0.
  assert (PU : (b2 (-60) <= b2 (-51) / 2)%R). { replace (b2 (-51) / 2)%R with (b2 (-52)); [apply bpow_le; lia|]. replace (b2 (-51)) with (b2 1 * b2 (-52))%R by (rewrite <- bpow_plus; reflexivity). change (b2 1) with 2%R. lra. }
  assert (B1 : (b2 (-60) <= 1)%R) by (change 1%R with (b2 0); apply bpow_le; lia).
  assert (HB : forall o, htree_outcomeF M [b2 (-60)] [0%R] T 10 omp_max o <-> o = None).
  { intros o. unfold htree_outcomeF. cbn [length Nat.ltb Nat.leb combine seq].
    assert (E1 : num_layers0F M 10 = Some 10%N).
    { unfold num_layers0F. rewrite (lm_r M LM). replace (10 / 1)%R with (IZR 10) by field. rewrite (RN_Z 10) by lia. unfold double_to_u32. rewrite Zceil_IZR, Ztrunc_IZR. reflexivity. }
    assert (E2 : radius_to_layerF M 10 (b2 (-60)) = Some 10%N).
    { unfold radius_to_layerF. rewrite !(lm_r M LM).
      assert (E : RN (10 - b2 (-60)) = 10%R).
      { apply Rle_antisym.
        - rewrite <- (RN_Z 10) at 2 by lia. apply RN_le. lra.
        - apply round_N_ge_midp; try typeclasses eauto; [apply (double_Z 10); lia|].
          rewrite pred_eq_pos by lra. unfold pred_pos. rewrite Req_bool_false.
          + rewrite ulp_neq_0 by lra. unfold cexp. replace (mag_val radix2 10 (mag radix2 10)) with 4%Z; [change (fexp64 4) with (-49)%Z|].
            * assert (b2 (-60) < b2 (-49) / 2)%R; [|lra]. replace (b2 (-49) / 2)%R with (b2 (-50)); [apply bpow_lt; lia|].
              replace (b2 (-49)) with (b2 1 * b2 (-50))%R by (rewrite <- bpow_plus; reflexivity). change (b2 1) with 2%R. lra.
            * symmetry. apply mag_unique_pos. change (b2 (4 - 1)) with 8%R. change (b2 4) with 16%R. lra.
          + replace (mag_val radix2 10 (mag radix2 10)) with 4%Z; [change (b2 (4 - 1)) with 8%R; lra|]. symmetry. apply mag_unique_pos. change (b2 (4 - 1)) with 8%R. change (b2 4) with 16%R. lra. }
      rewrite E. replace (10 / 1)%R with (IZR 10) by field. rewrite (RN_Z 10) by lia. unfold double_to_u32. rewrite Ztrunc_IZR. reflexivity. }
    rewrite E1. cbn [obind]. destruct (level_of_layerF M 10 (N.to_nat 10)) as [levels|] eqn:EL; cbn [obind]; [|reflexivity].
    destruct (hfirst_cells levels) as [[firsts Mx]|]; cbn [obind]; [|reflexivity]. destruct (nth_error levels 0) as [l0|]; cbn [obind]; [|reflexivity].
    assert (LL : length levels = 10) by (apply omap_length in EL; rewrite EL, seq_length; reflexivity).
    cbn [omap hclassifyF]. rewrite E2. cbn [obind]. replace (nth_error levels (N.to_nat 10)) with (@None N) by (symmetry; apply nth_error_None; rewrite LL; reflexivity).
    cbn [obind]. reflexivity. }
  split.
  { constructor; try (cbn; lia); try lra.
    - apply List.Forall_cons; [lra|apply List.Forall_nil].
    - apply List.Forall_cons; [pose proof PI_RGT_0; lra|apply List.Forall_nil]. }
  split; [apply b2_double; lia|]. split.
  - exists None. split; [now apply HB|reflexivity].
  - intros o (ot & H & E). apply HB in H. subst ot. exact E.
Qed.

(** Two points at the same place, on the border of a disc of radius 40: their distance is 0, but the comparison says it is not below R. *)
Theorem C74_tolerance_refuted : forall p cell, mk_pointF rounded_math 0 40 0 cell = Some p ->
  is_hyp_dist 40 0 40 0 0 /\ isDistanceBelowRF rounded_math p p (hcosh rounded_math 40) = false.
Proof.
  intros p cell E. split.
  { split; [lra|]. rewrite cosh_0. replace (0 - 0)%R with 0%R by ring. rewrite cos_0. pose proof (cosh_sqr 40). lra. }
  unfold mk_pointF in E. destruct (Req_EM_T 40 0) as [K|_]; [exfalso; lra|]. injection E as <-. unfold isDistanceBelowRF. cbn [coth_r invsinh_r cos_phi sin_phi].
  cbn [rounded_math hr hcosh hsinh hcos hsin]. rewrite cos_0, sin_0, RN_0, (RN_Z 1) by lia. rewrite Rmult_1_l, Rmult_0_l, RN_0, (RN_Z 1), Rplus_0_r, (RN_Z 1) by lia.
  assert (G : (b2 56 < sinh 40 /\ cosh 40 <= b2 57)%R).
  { pose proof e_bounds as EB. assert (H : (exp 40 = exp 1 ^ 40)%R). { replace 40%R with (INR 40) by (rewrite INR_IZR_INZ; reflexivity). apply exp_INR. }
    assert (H0 : ((27 / 10) ^ 40 <= exp 40 <= (273 / 100) ^ 40)%R) by (rewrite H; split; apply pow_incr; lra).
    assert (H1 : (0 < exp (Ropp 40) < 1)%R) by (split; [apply exp_pos|rewrite <- exp_0; apply exp_increasing; lra]). unfold sinh, cosh. change (b2 56) with (IZR (2 ^ 56)). change (b2 57) with (IZR (2 ^ 57)).
    replace ((27 / 10) ^ 40)%R with (IZR (27 ^ 40) / IZR (10 ^ 40))%R in H0 by (unfold Rdiv; rewrite Rpow_mult_distr, pow_inv, !pow_IZR; reflexivity).
    replace ((273 / 100) ^ 40)%R with (IZR (273 ^ 40) / IZR (100 ^ 40))%R in H0 by (unfold Rdiv; rewrite Rpow_mult_distr, pow_inv, !pow_IZR; reflexivity).
    assert (IZR (2 ^ 57) + 1 <= IZR (27 ^ 40) / IZR (10 ^ 40))%R.
    { apply Rmult_le_reg_r with (IZR (10 ^ 40)); [apply IZR_lt; reflexivity|]. unfold Rdiv. rewrite Rmult_assoc, Rinv_l, Rmult_1_r by (apply IZR_neq; discriminate). rewrite <- plus_IZR, <- mult_IZR. apply IZR_le. apply Z.leb_le. reflexivity. }
    assert (IZR (273 ^ 40) / IZR (100 ^ 40) <= IZR (2 ^ 58) - 1)%R.
    { apply Rmult_le_reg_r with (IZR (100 ^ 40)); [apply IZR_lt; reflexivity|]. unfold Rdiv. rewrite Rmult_assoc, Rinv_l, Rmult_1_r by (apply IZR_neq; discriminate). rewrite <- minus_IZR, <- mult_IZR. apply IZR_le. apply Z.leb_le. reflexivity. }
    assert (K1 : (IZR (2 ^ 57) + 1 <= exp 40)%R) by (eapply Rle_trans; [eassumption|apply H0]). assert (K2 : (exp 40 <= IZR (2 ^ 58) - 1)%R) by (eapply Rle_trans; [apply H0|assumption]).
    clear H0 H2 H3. change (2 ^ 56)%Z with 72057594037927936%Z. change (2 ^ 57)%Z with 144115188075855872%Z in *. change (2 ^ 58)%Z with 288230376151711744%Z in *. split; lra. }
  destruct G as [GS GC]. apply Bool.not_true_iff_false. intros L. apply Rltb_true in L. revert L. apply Rle_not_lt.
  set (c := RN (cosh 40)). set (s := RN (sinh 40)).
  assert (CS : (s <= c)%R). { apply RN_le. pose proof (cosh_sinh_abs 40). pose proof (Rle_abs (sinh 40)). lra. }
  assert (SG : (b2 56 <= s)%R) by (unfold s; rewrite <- (RN_id (b2 56)) by (apply b2_double; lia); apply RN_le; lra).
  assert (CG : (c <= b2 57)%R) by (unfold c; rewrite <- (RN_id (b2 57)) by (apply b2_double; lia); apply RN_le; lra).
  pose proof (bpow_gt_0 radix2 56) as P56.
  assert (A1 : (1 <= RN (c / s))%R). { rewrite <- (RN_Z 1) at 1 by lia. apply RN_le. apply Rmult_le_reg_r with s; [lra|]. unfold Rdiv. rewrite Rmult_assoc, Rinv_l by lra. lra. }
  assert (A2 : (1 <= RN (RN (c / s) * RN (c / s)))%R). { rewrite <- (RN_Z 1) at 1 by lia. apply RN_le. nra. }
  assert (I1 : (0 <= RN (1 / s) <= b2 (-56))%R).
  { split; [apply RN_nonneg; unfold Rdiv; rewrite Rmult_1_l; left; apply Rinv_0_lt_compat; lra|]. rewrite <- (RN_id (b2 (-56))) by (apply b2_double; lia). apply RN_le.
    unfold Rdiv. rewrite Rmult_1_l. change (-56)%Z with (- (56))%Z. rewrite bpow_opp. apply Rinv_le_contravar; lra. }
  assert (E57 : (b2 57 * b2 (-56) = 2)%R) by (rewrite <- bpow_plus; reflexivity). assert (E55 : (2 * b2 (-56) = b2 (-55))%R) by (change 2%R with (b2 1); rewrite <- bpow_plus; reflexivity).
  assert (I2 : (0 <= RN (c * RN (1 / s)) <= 2)%R).
  { assert (0 <= c * RN (1 / s) <= 2)%R by (split; [apply Rmult_le_pos; lra|rewrite <- E57; apply Rmult_le_compat; lra]). split; [apply RN_nonneg; lra|]. rewrite <- (RN_Z 2) by lia. apply RN_le. lra. }
  assert (I3 : (RN (RN (c * RN (1 / s)) * RN (1 / s)) <= b2 (-55))%R).
  { rewrite <- (RN_id (b2 (-55))) by (apply b2_double; lia). apply RN_le. rewrite <- E55. apply Rmult_le_compat; lra. }
  apply round_N_ge_midp; try typeclasses eauto; [apply (double_Z 1); lia|].
  change 1%R with (bpow radix2 0) at 1 2. rewrite pred_bpow. change (fexp64 0) with (-53)%Z. change (bpow radix2 0) with 1%R.
  assert (b2 (-55) < b2 (-53) / 2)%R; [|lra]. replace (b2 (-53)) with (b2 1 * b2 (-54))%R by (rewrite <- bpow_plus; reflexivity). change (b2 1) with 2%R.
  assert (b2 (-55) < b2 (-54))%R by (apply bpow_lt; lia). lra.
Qed.

Print Assumptions C74_simple_graph.
Print Assumptions C74_every_pair_decided_once.
Print Assumptions C74_threshold_close.
Print Assumptions C74_threshold_deterministic.
Print Assumptions C74_reproducible.
Print Assumptions rounded_ok.
Print Assumptions C74_example.
Print Assumptions C74_tiny_radius_refuted.
Print Assumptions C74_tolerance_refuted.
