(** Property C83: the expected degree of every node of a hyperbolic threshold graph follows from the radii. *)
From Coq Require Import Arith NArith ZArith List Bool Reals Permutation Lia Lra Psatz.
From Flocq Require Import Core.
From Coquelicot Require Import Coquelicot.
From Verif Require Import Base Sched Bits_Proofs Coord_Model Coord_Proofs Coord_Geo Tree_Model Tree_Proofs Tree_Plan Tree_Run Girg_Model Girg_Num Prop_Girg
  Hyp_Model Hyp_Math Hyp_Angle Hyp_Levels Hyp_Build Hyp_Run Hyp_Sched Hyp_Threads Hyp_Gen Prop_Hyp HypIn_Model Prop_HypIn Mean Prop_Mean Sampling_Model Scaling_Model Cost_Touch Prop_Cost HypCost_Calls HypCost_Mean Prop_HypCost Embed_Model Embed_Proofs
  Coord_Torus Prob_Spec Prop_Prob Draws_Bound Draws_Mean Draws_Law Prob_Events Law_Any Prop_EndDegree Prop_NodeDegree.
Import ListNotations.
Local Open Scope R_scope.

(** ** Specification *)
(** the largest angle at which two points of radii r1 and r2 are still at distance R: cosh R = cosh r1 cosh r2 - sinh r1 sinh r2 cos(angle), or pi if all angles are closer *)
Definition reach (Rd r1 r2 : R) : R := acos (Rmax (-1) ((cosh r1 * cosh r2 - cosh Rd) / (sinh r1 * sinh r2))).
(** a uniform angle is within reach with this probability *)
Definition hyp_chance (Rd r1 r2 : R) : R := reach Rd r1 r2 / PI.

(** the contribution of a radius to the probability, e^(-r/2) up to a factor that tends to 1 *)
Definition falloff (r : R) : R := exp (- r / 2) / sqrt (1 - exp (-2 * r)).

(** ** Proofs *)
Definition cut (Rd r1 r2 : R) : R := (cosh r1 * cosh r2 - cosh Rd) / (sinh r1 * sinh r2).
Definition hedge (Rd r1 r2 x y : R) : R := if Rlt_dec (cut Rd r1 r2) (cos (angle_of x - angle_of y)) then 1 else 0.
Lemma cut_lt1 Rd r1 r2 : 0 < r1 <= Rd -> 0 < r2 <= Rd -> cut Rd r1 r2 < 1.
Proof.
  intros H1 H2. pose proof (sinh_pos r1 (proj1 H1)) as S1. pose proof (sinh_pos r2 (proj1 H2)) as S2. assert (S0 : 0 < sinh r1 * sinh r2) by now apply Rmult_lt_0_compat.
  unfold cut. apply (Rmult_lt_reg_r (sinh r1 * sinh r2)); [exact S0|]. unfold Rdiv. rewrite Rmult_assoc, Rinv_l, Rmult_1_l, Rmult_1_r by lra.
  assert (A : cosh (Rabs (r1 - r2)) < cosh Rd). { apply cosh_lt; [apply Rabs_pos|]. apply Rabs_def1; lra. }
  rewrite cosh_Rabs in A. assert (E : cosh (r1 - r2) = cosh r1 * cosh r2 - sinh r1 * sinh r2).
  { unfold cosh, sinh. replace (- (r1 - r2)) with (- r1 + r2) by ring. unfold Rminus. rewrite !exp_plus. field. }
  lra.
Qed.
Lemma edge_cut Rd r1 r2 x y : 0 < r1 <= Rd -> 0 < r2 <= Rd -> (exists d, is_hyp_dist r1 (angle_of x) r2 (angle_of y) d /\ d < Rd) <-> cut Rd r1 r2 < cos (angle_of x - angle_of y).
Proof.
  intros H1 H2. pose proof (sinh_pos r1 (proj1 H1)) as S1. pose proof (sinh_pos r2 (proj1 H2)) as S2. assert (S0 : 0 < sinh r1 * sinh r2) by now apply Rmult_lt_0_compat.
  assert (K : cut Rd r1 r2 < cos (angle_of x - angle_of y) <-> cosh r1 * cosh r2 - sinh r1 * sinh r2 * cos (angle_of x - angle_of y) < cosh Rd).
  { set (c := cos _). assert (E : cosh r1 * cosh r2 - cosh Rd = cut Rd r1 r2 * (sinh r1 * sinh r2)) by (unfold cut; field; lra). split; intros H.
    - apply (Rmult_lt_compat_r _ _ _ S0) in H. lra.
    - apply (Rmult_lt_reg_r (sinh r1 * sinh r2)); [exact S0|]. lra. }
  rewrite K. split.
  - intros (d & [D0 D] & L). rewrite <- D. now apply cosh_lt.
  - intros L. destruct (hyp_dist_exists r1 (angle_of x) r2 (angle_of y)) as [D0 D]. exists (hyp_distance r1 (angle_of x) r2 (angle_of y)). split; [now split|]. rewrite <- D in L.
    destruct (Rlt_le_dec (hyp_distance r1 (angle_of x) r2 (angle_of y)) Rd) as [|G]; [assumption|]. pose proof (cosh_le Rd _ ltac:(lra) G). lra.
Qed.
Lemma circ_angle x y : Hyp_Math.circ (angle_of x) (angle_of y) = 2 * PI * Coord_Torus.circ x y.
Proof.
  pose proof PI_RGT_0 as P0. unfold Hyp_Math.circ, Coord_Torus.circ, angle_of, uni. replace (x * (2 * PI - 0) + 0 - (y * (2 * PI - 0) + 0)) with (2 * PI * (x - y)) by ring. rewrite Rabs_mult, (Rabs_pos_eq (2 * PI)) by lra.
  replace (2 * PI - 2 * PI * Rabs (x - y)) with (2 * PI * (1 - Rabs (x - y))) by ring. set (z := Rabs (x - y)). destruct (Rle_lt_dec z (1 - z)) as [L|L].
  - rewrite (Rmin_left z) by lra. apply Rmin_left. apply Rmult_le_compat_l; lra.
  - rewrite (Rmin_right z) by lra. apply Rmin_right. apply Rmult_le_compat_l; lra.
Qed.
Lemma hedge_mean Rd r1 r2 x : 0 < r1 <= Rd -> 0 < r2 <= Rd -> in_cube 1 x -> is_cube_mean 1 (fun y => hedge Rd r1 r2 (nth 0 x 0) (nth 0 y 0)) (hyp_chance Rd r1 r2).
Proof.
  intros H1 H2 Hx. pose proof PI_RGT_0 as P0. pose proof (cut_lt1 Rd r1 r2 H1 H2) as C1. unfold hyp_chance, reach. fold (cut Rd r1 r2). destruct (Rlt_le_dec (cut Rd r1 r2) (-1)) as [C|C].
  - rewrite Rmax_left by lra. replace (acos (-1) / PI) with 1 by (replace (-1) with (Ropp 1) by ring; rewrite acos_opp, acos_1; field; lra). apply (cube_mean_ext 1 (fun _ => 1)); [|apply cube_mean_const].
    intros y _. unfold hedge. destruct (Rlt_dec _ _) as [|N]; [reflexivity|]. pose proof (COS_bound (angle_of (nth 0 x 0) - angle_of (nth 0 y 0))). lra.
  - rewrite Rmax_right by lra. set (c := cut Rd r1 r2) in *. set (th := acos c). assert (T : 0 < th <= PI).
    { split; [|apply acos_bound]. destruct (proj1 (acos_bound c)) as [|E]; [assumption|]. exfalso. fold th in E. pose proof (cos_acos c ltac:(lra)) as X. fold th in X. rewrite <- E, cos_0 in X. lra. }
    assert (R0 : 0 < th / (2 * PI) <= 1 / 2). { split; [apply Rdiv_lt_0_compat; lra|]. apply (Rmult_le_reg_r (2 * PI)); [lra|]. unfold Rdiv. rewrite Rmult_assoc, Rinv_l by lra. lra. }
    pose proof (mean_ball _ R0 1 x Hx) as M. replace (th / PI) with ((2 * (th / (2 * PI))) ^ 1) by (field; lra). apply (cube_mean_ext 1 _ _ _) with (2 := M). intros y Hy.
    destruct x as [|s [|? ?]]; destruct Hx as [Lx Fx]; cbn in Lx; try lia. destruct y as [|t [|? ?]]; destruct Hy as [Ly Fy]; cbn in Ly; try lia. inversion Fx as [|? ? Hs _]; subst. inversion Fy as [|? ? Ht _]; subst. cbn [nth tdist].
    pose proof (circ_range s t Hs Ht) as CR. rewrite Rmax_left by lra. unfold hedge. rewrite <- cos_circ, circ_angle. set (z := Coord_Torus.circ s t) in *.
    assert (B : 0 <= 2 * PI * z <= PI) by (split; nra).
    assert (Q : 2 * PI * z < th <-> z < th / (2 * PI)). { assert (E : th = 2 * PI * (th / (2 * PI))) by (field; lra). split; intros H; [apply (Rmult_lt_reg_l (2 * PI)); lra|rewrite E; apply Rmult_lt_compat_l; lra]. }
    assert (CE : cos th = c) by (apply cos_acos; lra). fold c. destruct (Rlt_dec z (th / (2 * PI))) as [L|L].
    + destruct (Rlt_dec c (cos (2 * PI * z))) as [|N]; [reflexivity|]. exfalso. apply N. rewrite <- CE. apply Q in L. apply cos_decreasing_1; lra.
    + destruct (Rlt_dec c (cos (2 * PI * z))) as [Y|]; [|reflexivity]. exfalso. apply L, Q. rewrite <- CE in Y. apply cos_decreasing_0 in Y; lra.
Qed.
Lemma hedge_sym Rd r1 r2 x y : hedge Rd r1 r2 x y = hedge Rd r2 r1 y x.
Proof.
  unfold hedge. replace (cut Rd r2 r1) with (cut Rd r1 r2) by (unfold cut; now rewrite (Rmult_comm (cosh r2)), (Rmult_comm (sinh r2))). replace (cos (angle_of y - angle_of x)) with (cos (angle_of x - angle_of y)); [reflexivity|]. rewrite <- cos_neg. f_equal. ring.
Qed.
Lemma chance_sym Rd r1 r2 : hyp_chance Rd r1 r2 = hyp_chance Rd r2 r1.
Proof. unfold hyp_chance, reach. now rewrite (Rmult_comm (cosh r2)), (Rmult_comm (sinh r2)). Qed.

(** ** Theorem *)
(** F xs is the degree of x in every returned graph for the angles 2 pi xs, whatever the random numbers, the schedule, the build and the seed *)
Theorem C83_hrg_node_degree : forall n Rd omp_max team radii, hcost_input n Rd omp_max team -> length radii = n -> List.Forall (fun r => 0 < r <= Rd) radii -> forall x, (x < n)%nat ->
  exists F : list R -> R,
    (forall nd part hg seed xs, is_partition task_eq part -> good_rng (hb hg) -> in_cube n xs ->
       (exists o, hrg_outcome nd part hg radii (map angle_of xs) 0 Rd seed omp_max team o) /\
       forall o, hrg_outcome nd part hg radii (map angle_of xs) 0 Rd seed omp_max team o -> node_degree n o x = F xs) /\
    is_cube_mean n F (over_others n x (fun u => hyp_chance Rd (nth u radii 0) (nth x radii 0))).
Proof.
  intros n Rd omp_max team radii CI LR FR x Hx. set (r := fun u => nth u radii 0).
  assert (RR : forall u, (u < n)%nat -> 0 < r u <= Rd). { intros u Hu. rewrite List.Forall_forall in FR. apply FR. apply nth_In. lia. }
  exists (fun xs => over_others n x (fun u => hedge Rd (r u) (r x) (nth u xs 0) (nth x xs 0))). split.
  - intros nd part hg seed xs HP GG CX. pose proof (hcost_hrg _ _ _ _ _ _ CI LR FR CX) as HI.
    destruct (C36_threshold_hrg_is_exact nd part hg _ _ _ seed _ _ HI GG HP) as [EX X]. split; [apply EX, CI|]. intros o Ho. destruct (X _ Ho) as (edges & -> & XE). destruct (C37_simple_graph nd part hg _ _ _ _ seed _ _ HI GG HP _ Ho) as (e & E & _ & _ & SL & _). injection E as <-.
    cbn [node_degree]. rewrite length_filter. unfold over_others. apply sumR_ext. intros u Hu. apply in_seq in Hu. destruct (Nat.eqb_spec u x) as [->|N].
    + destruct (joinedb edges x x) eqn:J; [|reflexivity]. apply joinedb_In in J. exfalso. destruct J as [J|J]; exact (SL x J).
    + specialize (XE u x ltac:(lia) ltac:(lia) N). assert (NA : forall w, (w < n)%nat -> nth w (map angle_of xs) 0 = angle_of (nth w xs 0)).
      { intros w Hw. destruct CX as [LX _]. rewrite (nth_indep _ 0 (angle_of 0)) by (rewrite map_length; lia). apply map_nth. }
      rewrite (NA u), (NA x) in XE by lia. fold (r u) (r x) in XE. rewrite (edge_cut Rd (r u) (r x) (nth u xs 0) (nth x xs 0) (RR u ltac:(lia)) (RR x Hx)) in XE. unfold hedge. destruct (Rlt_dec _ _) as [L|L].
      * replace (joinedb edges u x) with true; [reflexivity|]. symmetry. apply joinedb_In, XE, L.
      * destruct (joinedb edges u x) eqn:J; [|reflexivity]. apply joinedb_In, XE in J. contradiction.
  - apply points1_cube. unfold over_others.
    apply (points_mean_sum n 1 (fun u ps => if (u =? x)%nat then 0 else hedge Rd (r u) (r x) (nth u (concat ps) 0) (nth x (concat ps) 0))). intros u Hu. apply in_seq in Hu. destruct (Nat.eqb_spec u x) as [E|E]; [apply points_mean_const|].
    apply (points_mean_ext 1 n (fun ps => (fun p q => hedge Rd (r u) (r x) (nth 0 p 0) (nth 0 q 0)) (nth u ps []) (nth x ps []))).
    { intros ps Hps. cbv beta. rewrite !(nth_concat1 n ps) by (assumption || lia). reflexivity. }
    apply (points_mean_two 1 (fun p q => hedge Rd (r u) (r x) (nth 0 p 0) (nth 0 q 0))); [| |lia|lia|exact E].
    + intros p Hp. apply hedge_mean; try assumption; apply RR; lia.
    + intros p Hp. fold (r u) (r x). rewrite chance_sym. apply (cube_mean_ext 1 (fun q => hedge Rd (r x) (r u) (nth 0 p 0) (nth 0 q 0))); [intros q _; apply hedge_sym|]. apply hedge_mean; try assumption; apply RR; lia.
Qed.
(** two points whose radii sum up to at most R are always connected *)
Theorem C83_inner_points : forall Rd r1 r2, 0 < r1 -> 0 < r2 -> r1 + r2 <= Rd -> hyp_chance Rd r1 r2 = 1.
Proof.
  intros Rd r1 r2 H1 H2 HS. pose proof PI_RGT_0 as P0. pose proof (sinh_pos r1 H1) as S1. pose proof (sinh_pos r2 H2) as S2. assert (S0 : 0 < sinh r1 * sinh r2) by now apply Rmult_lt_0_compat.
  unfold hyp_chance, reach. rewrite Rmax_left; [replace (-1) with (Ropp 1) by ring; rewrite acos_opp, acos_1; field; lra|].
  apply (Rmult_le_reg_r (sinh r1 * sinh r2)); [exact S0|]. unfold Rdiv. rewrite Rmult_assoc, Rinv_l, Rmult_1_r by lra. pose proof (cosh_le (r1 + r2) Rd ltac:(lra) HS) as A.
  assert (E : cosh (r1 + r2) = cosh r1 * cosh r2 + sinh r1 * sinh r2). { unfold cosh, sinh. rewrite Ropp_plus_distr, !exp_plus. field. } lra.
Qed.
(** moving a point towards the centre raises the probability of each of its edges *)
Theorem C83_monotone : forall Rd r r' s, 0 < r -> r <= r' -> r' <= Rd -> 0 < s <= Rd -> hyp_chance Rd r' s <= hyp_chance Rd r s.
Proof.
  intros Rd r r' s H0 H1 H2 Hs. pose proof PI_RGT_0 as P0. pose proof (sinh_pos r H0) as S1. pose proof (sinh_pos r' ltac:(lra)) as S2. pose proof (sinh_pos s (proj1 Hs)) as S3.
  assert (CM : cut Rd r s <= cut Rd r' s).
  { assert (K : (cosh r * cosh s - cosh Rd) * sinh r' <= (cosh r' * cosh s - cosh Rd) * sinh r).
    { set (a := r' - r). assert (ES : sinh r' = sinh r * cosh a + cosh r * sinh a). { replace r' with (r + a) by (unfold a; ring). unfold cosh, sinh. rewrite !Ropp_plus_distr, !exp_plus. field. }
      assert (EC : cosh r' = cosh r * cosh a + sinh r * sinh a). { replace r' with (r + a) by (unfold a; ring). unfold cosh, sinh. rewrite !Ropp_plus_distr, !exp_plus. field. }
      assert (ED : cosh r * cosh r - sinh r * sinh r = 1). { unfold cosh, sinh. pose proof (exp_plus r (- r)) as X. rewrite Rplus_opp_r, exp_0 in X. nra. }
      pose proof (cosh_ge_1 a) as A1. pose proof (sinh_nonneg a ltac:(unfold a; lra)) as A2. pose proof (cosh_ge_1 r) as A3. pose proof (cosh_le s Rd ltac:(lra) ltac:(lra)) as A4. pose proof (cosh_pos s) as A5.
      assert (I1 : cosh s * sinh a <= cosh Rd * sinh a) by (apply Rmult_le_compat_r; lra).
      assert (I2 : sinh a <= sinh r' - sinh r). { rewrite ES. assert (0 <= sinh r * (cosh a - 1)) by (apply Rmult_le_pos; lra). assert (0 <= (cosh r - 1) * sinh a) by (apply Rmult_le_pos; lra). lra. }
      assert (I3 : cosh Rd * sinh a <= cosh Rd * (sinh r' - sinh r)) by (apply Rmult_le_compat_l; [pose proof (cosh_pos Rd); lra|exact I2]).
      assert (I4 : cosh r * sinh r' - cosh r' * sinh r = sinh a). { rewrite ES, EC. replace (cosh r * (sinh r * cosh a + cosh r * sinh a) - (cosh r * cosh a + sinh r * sinh a) * sinh r) with ((cosh r * cosh r - sinh r * sinh r) * sinh a) by ring. rewrite ED. ring. }
      assert (I5 : cosh s * (cosh r * sinh r' - cosh r' * sinh r) = cosh s * sinh a) by now rewrite I4. lra. }
    unfold cut. assert (P : 0 < sinh r * sinh s * sinh r') by (apply Rmult_lt_0_compat; [apply Rmult_lt_0_compat; assumption|assumption]). apply (Rmult_le_reg_r (sinh r * sinh s * sinh r')); [exact P|].
    replace ((cosh r * cosh s - cosh Rd) / (sinh r * sinh s) * (sinh r * sinh s * sinh r')) with ((cosh r * cosh s - cosh Rd) * sinh r') by (field; lra).
    replace ((cosh r' * cosh s - cosh Rd) / (sinh r' * sinh s) * (sinh r * sinh s * sinh r')) with ((cosh r' * cosh s - cosh Rd) * sinh r) by (field; lra). exact K. }
  unfold hyp_chance. apply Rmult_le_compat_r; [left; now apply Rinv_0_lt_compat|]. unfold reach. fold (cut Rd r s) (cut Rd r' s). set (x := Rmax (-1) (cut Rd r s)). set (y := Rmax (-1) (cut Rd r' s)).
  pose proof (cut_lt1 Rd r s ltac:(lra) Hs) as X1. pose proof (cut_lt1 Rd r' s ltac:(lra) Hs) as Y1.
  assert (XY : -1 <= x /\ x <= y /\ y <= 1). { unfold x, y. split; [apply Rmax_l|]. split; [|apply Rmax_lub; lra]. apply Rmax_lub; [apply Rmax_l|]. eapply Rle_trans; [exact CM|apply Rmax_r]. }
  destruct (Rle_lt_dec (acos y) (acos x)) as [|L]; [assumption|]. exfalso. pose proof (acos_bound x). pose proof (acos_bound y). pose proof (cos_decreasing_1 (acos x) (acos y) ltac:(lra) ltac:(lra) ltac:(lra) ltac:(lra) L) as C. rewrite !cos_acos in C by lra. lra.
Qed.
Lemma chance_nonneg Rd r s : 0 <= hyp_chance Rd r s.
Proof. unfold hyp_chance, reach. pose proof PI_RGT_0. apply Rmult_le_pos; [apply acos_bound|left; now apply Rinv_0_lt_compat]. Qed.
(** so of two nodes the one with the smaller radius has the larger expected degree *)
Theorem C83_degree_order : forall n Rd radii x y, (x < n)%nat -> (y < n)%nat -> length radii = n -> List.Forall (fun r => 0 < r <= Rd) radii -> nth x radii 0 <= nth y radii 0 ->
  over_others n y (fun u => hyp_chance Rd (nth u radii 0) (nth y radii 0)) <= over_others n x (fun u => hyp_chance Rd (nth u radii 0) (nth x radii 0)).
Proof.
  intros n Rd radii x y Hx Hy LR FR HL. destruct (Nat.eq_dec x y) as [->|N]; [apply Rle_refl|]. set (r := fun u => nth u radii 0).
  assert (RR : forall u, (u < n)%nat -> 0 < r u <= Rd). { intros u Hu. rewrite List.Forall_forall in FR. apply FR. apply nth_In. lia. }
  assert (SP : forall a b, (a < n)%nat -> (b < n)%nat -> a <> b -> over_others n a (fun u => hyp_chance Rd (r u) (r a)) = sumR (map (fun u => if (u =? a)%nat then 0 else if (u =? b)%nat then 0 else hyp_chance Rd (r u) (r a)) (seq 0 n)) + hyp_chance Rd (r b) (r a)).
  { intros a b Ha Hb Hab. rewrite <- (sum_ind n b Hb (hyp_chance Rd (r b) (r a))). rewrite <- (Draws_Bound.sumR_plus (fun u => if (u =? a)%nat then 0 else if (u =? b)%nat then 0 else hyp_chance Rd (r u) (r a))). unfold over_others. apply sumR_ext. intros u _.
    destruct (Nat.eqb_spec u a) as [E1|E1], (Nat.eqb_spec u b) as [E2|E2]; [congruence|ring|subst u; ring|ring]. }
  change (over_others n y (fun u => hyp_chance Rd (r u) (r y)) <= over_others n x (fun u => hyp_chance Rd (r u) (r x))). rewrite (SP y x Hy Hx ltac:(congruence)), (SP x y Hx Hy N), (chance_sym Rd (r y) (r x)). apply Rplus_le_compat_r. apply sumR_le. intros u Hu. apply in_seq in Hu.
  destruct (Nat.eqb_spec u x), (Nat.eqb_spec u y); try lra. rewrite !(chance_sym Rd (r u)). apply C83_monotone; [apply RR; lia|exact HL|apply RR; lia|apply RR; lia].
Qed.
(** the probability of an edge is e^((R-r1-r2)/2) up to constant factors: its square is at most e^(R-r1-r2) divided by, and for r1 + r2 >= R at least 4/pi^2 e^(R-r1-r2) times, factors
    that tend to 1 as the radii and their distances from the boundaries grow *)
Theorem C83_exponential : forall Rd r1 r2, 0 < r1 <= Rd -> 0 < r2 <= Rd ->
  hyp_chance Rd r1 r2 ^ 2 * ((1 - exp (-2 * r1)) * (1 - exp (-2 * r2))) <= exp (Rd - r1 - r2) /\
  (Rd <= r1 + r2 -> 4 / PI ^ 2 * exp (Rd - r1 - r2) * ((1 - exp (- (Rd + r1 - r2))) * (1 - exp (- (Rd - r1 + r2)))) <= hyp_chance Rd r1 r2 ^ 2).
Proof.
  intros Rd r1 r2 H1 H2. pose proof PI_RGT_0 as P0. pose proof (sinh_pos r1 (proj1 H1)) as S1. pose proof (sinh_pos r2 (proj1 H2)) as S2. assert (S0 : 0 < sinh r1 * sinh r2) by now apply Rmult_lt_0_compat.
  assert (EB : forall x, 0 < x -> 0 < 1 - exp (- x) < 1). { intros x Hx. pose proof (exp_pos (- x)). pose proof (exp_increasing (- x) 0 ltac:(lra)) as X. rewrite exp_0 in X. lra. }
  pose proof (EB (2 * r1) ltac:(lra)) as B1. pose proof (EB (2 * r2) ltac:(lra)) as B2. replace (- (2 * r1)) with (-2 * r1) in B1 by ring. replace (- (2 * r2)) with (-2 * r2) in B2 by ring.
  assert (A1 : 0 <= 1 - exp (- (Rd + r1 - r2)) <= 1) by (pose proof (EB (Rd + r1 - r2) ltac:(lra)); lra). assert (A2 : 0 <= 1 - exp (- (Rd - r1 + r2)) <= 1) by (pose proof (EB (Rd - r1 + r2) ltac:(lra)); lra).
  set (A := (1 - exp (- (Rd + r1 - r2))) * (1 - exp (- (Rd - r1 + r2)))). set (B := (1 - exp (-2 * r1)) * (1 - exp (-2 * r2))). set (X := exp (Rd - r1 - r2)).
  assert (HA : 0 <= A <= 1) by (unfold A; split; nra). assert (HB : 0 < B <= 1) by (unfold B; split; [apply Rmult_lt_0_compat; lra|nra]). assert (HX : 0 < X) by apply exp_pos.
  assert (EQ : (1 - cut Rd r1 r2) * B = 2 * X * A).
  { assert (EN : cosh Rd - cosh (r1 - r2) = exp Rd / 2 * A).
    { unfold A. replace (- (Rd + r1 - r2)) with (- Rd + - (r1 - r2)) by ring. replace (- (Rd - r1 + r2)) with (- Rd + (r1 - r2)) by ring. set (d := r1 - r2). unfold cosh. rewrite !exp_plus, !exp_Ropp. pose proof (exp_pos Rd). pose proof (exp_pos d). field. lra. }
    assert (ES : sinh r1 * sinh r2 = exp r1 * exp r2 / 4 * B).
    { unfold B, sinh. replace (-2 * r1) with (- r1 + - r1) by ring. replace (-2 * r2) with (- r2 + - r2) by ring. rewrite !exp_plus, !exp_Ropp. pose proof (exp_pos r1). pose proof (exp_pos r2). field. lra. }
    assert (EM : cosh (r1 - r2) = cosh r1 * cosh r2 - sinh r1 * sinh r2). { unfold cosh, sinh. replace (- (r1 - r2)) with (- r1 + r2) by ring. unfold Rminus. rewrite !exp_plus. field. }
    assert (EC : (1 - cut Rd r1 r2) * (sinh r1 * sinh r2) = cosh Rd - cosh (r1 - r2)) by (rewrite EM; unfold cut; field; lra).
    rewrite EN, ES in EC. unfold X. replace (Rd - r1 - r2) with (Rd + - (r1 + r2)) by ring. rewrite exp_plus, exp_Ropp, exp_plus. pose proof (exp_pos r1). pose proof (exp_pos r2).
    apply (Rmult_eq_reg_r (exp r1 * exp r2 / 4)); [|apply Rgt_not_eq, Rlt_gt; apply Rdiv_lt_0_compat; [now apply Rmult_lt_0_compat|lra]].
    transitivity (exp Rd / 2 * A); [rewrite <- EC; ring|field; lra]. }
  pose proof (cut_lt1 Rd r1 r2 H1 H2) as C1. unfold hyp_chance, reach. fold (cut Rd r1 r2). set (c := cut Rd r1 r2) in *.
  assert (HS : -1 <= c -> let th := acos c in 0 <= th <= PI /\ sin (th / 2) ^ 2 * B = X * A).
  { intros C th. split; [apply acos_bound|]. pose proof (cos_acos c ltac:(lra)) as E. fold th in E. replace th with (2 * (th / 2)) in E by field. rewrite cos_2a_sin in E. cbn [pow]. rewrite <- E in EQ. lra. }
  split.
  - destruct (Rle_lt_dec (-1) c) as [C|C].
    + rewrite Rmax_right by lra. destruct (HS C) as [T E]. set (th := acos c) in *.
      assert (J : th / PI <= sin (th / 2)). { pose proof (Embed_Proofs.sin_jordan (th / 2) ltac:(lra)) as Jo. replace (2 * (th / 2) / PI) with (th / PI) in Jo by (field; lra). exact Jo. }
      assert (J0 : 0 <= th / PI) by (apply Rmult_le_pos; [lra|left; now apply Rinv_0_lt_compat]).
      assert (J2 : (th / PI) ^ 2 <= sin (th / 2) ^ 2) by (apply pow_incr; lra). apply Rle_trans with (sin (th / 2) ^ 2 * B); [apply Rmult_le_compat_r; lra|]. rewrite E. rewrite <- (Rmult_1_r X) at 2. apply Rmult_le_compat_l; lra.
    + rewrite Rmax_left by lra. replace (acos (-1) / PI) with 1 by (replace (-1) with (Ropp 1) by ring; rewrite acos_opp, acos_1; field; lra). rewrite pow1, Rmult_1_l.
      assert (1 * B <= X); [|lra]. assert (X * A <= X * 1) by (apply Rmult_le_compat_l; lra). assert (2 * B <= (1 - c) * B) by (apply Rmult_le_compat_r; lra). lra.
  - intros HR. assert (C : -1 <= c).
    { unfold c, cut. apply (Rmult_le_reg_r (sinh r1 * sinh r2)); [exact S0|]. unfold Rdiv. rewrite Rmult_assoc, Rinv_l, Rmult_1_r by lra. pose proof (cosh_le Rd (r1 + r2) ltac:(lra) HR) as CL.
      assert (E : cosh (r1 + r2) = cosh r1 * cosh r2 + sinh r1 * sinh r2). { unfold cosh, sinh. rewrite Ropp_plus_distr, !exp_plus. field. } lra. }
    rewrite Rmax_right by lra. destruct (HS C) as [T E]. set (th := acos c) in *.
    assert (J : sin (th / 2) <= th / 2). { destruct (proj1 T) as [T0|T0]; [left; apply sin_lt_x; lra|]. rewrite <- T0. replace (0 / 2) with 0 by field. rewrite sin_0. lra. }
    assert (J0 : 0 <= sin (th / 2)) by (apply sin_ge_0; lra). assert (J2 : sin (th / 2) ^ 2 <= (th / 2) ^ 2) by (apply pow_incr; lra).
    assert (K : X * A <= (th / 2) ^ 2). { rewrite <- E. apply Rle_trans with (sin (th / 2) ^ 2 * 1); [apply Rmult_le_compat_l; [apply pow2_ge_0|lra]|lra]. }
    replace (4 / PI ^ 2 * X * A) with (4 / PI ^ 2 * (X * A)) by ring. replace ((th / PI) ^ 2) with (4 / PI ^ 2 * (th / 2) ^ 2) by (field; lra). apply Rmult_le_compat_l; [|exact K]. apply Rmult_le_pos; [lra|]. left. apply Rinv_0_lt_compat. apply pow_lt. exact P0.
Qed.
(** so the expected degree of x is at most e^(R/2) q(r_x) times the sum of all q(r_u) *)
Lemma chance_falloff Rd r1 r2 : 0 < r1 <= Rd -> 0 < r2 <= Rd -> hyp_chance Rd r1 r2 <= exp (Rd / 2) * falloff r1 * falloff r2.
Proof.
  intros H1 H2. destruct (C83_exponential Rd r1 r2 H1 H2) as [U _].
  assert (EB : forall x, 0 < x -> 0 < 1 - exp (-2 * x)). { intros x Hx. pose proof (exp_increasing (-2 * x) 0 ltac:(lra)) as X. rewrite exp_0 in X. lra. }
  pose proof (EB r1 (proj1 H1)) as B1. pose proof (EB r2 (proj1 H2)) as B2. unfold falloff. pose proof (sqrt_lt_R0 _ B1) as Q1. pose proof (sqrt_lt_R0 _ B2) as Q2. pose proof (sqrt_sqrt _ (Rlt_le _ _ B1)) as E1. pose proof (sqrt_sqrt _ (Rlt_le _ _ B2)) as E2.
  set (s1 := sqrt (1 - exp (-2 * r1))) in *. set (s2 := sqrt (1 - exp (-2 * r2))) in *. rewrite <- E1, <- E2 in U. pose proof (chance_nonneg Rd r1 r2) as C0. set (c := hyp_chance Rd r1 r2) in *.
  set (h := exp (Rd / 2) * exp (- r1 / 2) * exp (- r2 / 2)). assert (EX : exp (Rd - r1 - r2) = h * h). { unfold h. rewrite <- !exp_plus. f_equal. field. } rewrite EX in U.
  assert (H0 : 0 < h) by (unfold h; repeat apply Rmult_lt_0_compat; apply exp_pos).
  replace (exp (Rd / 2) * (exp (- r1 / 2) / s1) * (exp (- r2 / 2) / s2)) with (h / (s1 * s2)) by (unfold h; clearbody s1 s2; field; split; apply Rgt_not_eq; assumption).
  assert (K : c * (s1 * s2) <= h). { apply Rsqr_incr_0_var; [unfold Rsqr; cbn [pow] in U; lra|lra]. }
  assert (P : 0 < s1 * s2) by now apply Rmult_lt_0_compat. apply (Rmult_le_reg_r (s1 * s2)); [exact P|]. unfold Rdiv. rewrite Rmult_assoc, Rinv_l, Rmult_1_r by lra. exact K.
Qed.
Lemma falloff_nonneg r : 0 <= falloff r.
Proof.
  unfold falloff. destruct (Rle_lt_dec (1 - exp (-2 * r)) 0) as [L|L]; [rewrite sqrt_neg_0 by exact L; unfold Rdiv; rewrite Rinv_0, Rmult_0_r; lra|].
  left. apply Rdiv_lt_0_compat; [apply exp_pos|now apply sqrt_lt_R0].
Qed.
Theorem C83_degree_bound : forall n Rd radii x, (x < n)%nat -> length radii = n -> List.Forall (fun r => 0 < r <= Rd) radii ->
  over_others n x (fun u => hyp_chance Rd (nth u radii 0) (nth x radii 0)) <= exp (Rd / 2) * falloff (nth x radii 0) * sumR (map falloff radii).
Proof.
  intros n Rd radii x Hx LR FR. rewrite List.Forall_forall in FR. set (k := exp (Rd / 2) * falloff (nth x radii 0)).
  assert (E : map falloff radii = map (fun u => falloff (nth u radii 0)) (seq 0 n)).
  { apply (nth_ext _ _ (falloff 0) (falloff 0)); rewrite !map_length, ?seq_length; [exact LR|]. intros i Hi. rewrite map_nth. rewrite LR in Hi. rewrite (nth_indep _ (falloff 0) ((fun u => falloff (nth u radii 0)) 0%nat)) by (rewrite map_length, seq_length; lia). rewrite (map_nth (fun u => falloff (nth u radii 0))), seq_nth by lia. reflexivity. }
  rewrite E, <- (sumR_scal k (fun u => falloff (nth u radii 0))). unfold over_others. apply sumR_le. intros u Hu. apply in_seq in Hu. destruct (u =? x)%nat.
  - apply Rmult_le_pos; [|apply falloff_nonneg]. unfold k. apply Rmult_le_pos; [left; apply exp_pos|apply falloff_nonneg].
  - rewrite chance_sym. apply chance_falloff; apply FR, nth_In; lia.
Qed.
(** the average degree *)
Theorem C83_average_degree : forall n Rd omp_max team radii, hcost_input n Rd omp_max team -> length radii = n -> List.Forall (fun r => 0 < r <= Rd) radii ->
  exists F : list R -> R,
    (forall nd part hg seed xs, is_partition task_eq part -> good_rng (hb hg) -> in_cube n xs ->
       forall o, hrg_outcome nd part hg radii (map angle_of xs) 0 Rd seed omp_max team o -> average_degree n o = F xs) /\
    is_cube_mean n F (sumR (map (fun x => over_others n x (fun u => hyp_chance Rd (nth u radii 0) (nth x radii 0))) (seq 0 n)) / INR n).
Proof.
  intros n Rd omp_max team radii CI LR FR.
  assert (EX : forall m, (m <= n)%nat -> exists F : list R -> R, (forall nd part hg seed xs, is_partition task_eq part -> good_rng (hb hg) -> in_cube n xs ->
       forall o, hrg_outcome nd part hg radii (map angle_of xs) 0 Rd seed omp_max team o -> sumR (map (node_degree n o) (seq 0 m)) = F xs) /\
     is_cube_mean n F (sumR (map (fun x => over_others n x (fun u => hyp_chance Rd (nth u radii 0) (nth x radii 0))) (seq 0 m)))).
  { induction m as [|m IH]; intros Hm.
    - exists (fun _ => 0). split; [intros; reflexivity|apply cube_mean_const].
    - destruct (IH ltac:(lia)) as (F & HF & MF). destruct (C83_hrg_node_degree n Rd omp_max team radii CI LR FR m ltac:(lia)) as (G & HG & MG). exists (fun xs => F xs + G xs). split.
      + intros nd part hg seed xs HP GG CX o Ho. rewrite seq_S, map_app, sumR_app, (HF nd part hg seed xs HP GG CX o Ho). cbn [map Nat.add]. rewrite (proj2 (HG nd part hg seed xs HP GG CX) o Ho). unfold sumR. cbn [fold_right]. ring.
      + rewrite seq_S, map_app, sumR_app. cbn [map Nat.add]. replace (sumR [over_others n m (fun u => hyp_chance Rd (nth u radii 0) (nth m radii 0))]) with (over_others n m (fun u => hyp_chance Rd (nth u radii 0) (nth m radii 0))) by (unfold sumR; cbn [fold_right]; ring).
        now apply cube_mean_plus. }
  destruct (EX n (Nat.le_refl n)) as (F & HF & MF). exists (fun xs => / INR n * F xs). split.
  - intros nd part hg seed xs HP GG CX o Ho. rewrite <- (HF nd part hg seed xs HP GG CX o Ho). pose proof (hcost_hrg _ _ _ _ _ _ CI LR FR CX) as HI.
    destruct (C37_simple_graph nd part hg _ _ _ _ seed _ _ HI GG HP _ Ho) as (edges & -> & ND & IX & SL & AN). rewrite LR in IX. unfold average_degree, node_degree.
    assert (E : sumR (map (fun x => INR (length (filter (fun u => joinedb edges u x) (seq 0 n)))) (seq 0 n)) = 2 * INR (length edges)).
    { assert (RG : forall u v, In (u, v) edges -> (u < n)%nat /\ (v < n)%nat /\ u <> v) by (intros u v I; destruct (IX u v I); split; [assumption|]; split; [assumption|]; intros ->; exact (SL v I)).
      rewrite <- (graph_count n edges ND RG AN).
      unfold graph_of. rewrite length_filter. rewrite <- (ordered_sum (fun u v => if joinedb edges u v then 1 else 0) n) by (intros u v _; unfold joinedb; now rewrite orb_comm).
      apply sumR_ext. intros u _. rewrite length_filter. apply sumR_ext. intros v _. unfold joinedb at 1. rewrite orb_comm. fold (joinedb edges u v). destruct (Nat.eqb_spec u v) as [->|]; [|reflexivity].
      destruct (joinedb edges v v) eqn:J; [|reflexivity]. apply joinedb_In in J. exfalso. destruct J as [J|J]; exact (SL v J). }
    rewrite E. unfold Rdiv. ring.
  - unfold Rdiv. rewrite Rmult_comm. now apply cube_mean_scal.
Qed.
(** a graph of 100 points with the radii 1, ..., 6 in the disc of radius 6 meets the hypotheses; two points of radii 1 and 5 are always connected *)
Example C83_inputs : hcost_input 100 6 2 2 /\ length (map (fun k => INR (k mod 6) + 1) (seq 0 100)) = 100%nat /\ List.Forall (fun r => 0 < r <= 6) (map (fun k => INR (k mod 6) + 1) (seq 0 100)) /\ is_partition task_eq ex_part /\ good_rng (hb ex_hrng) /\ hyp_chance 6 1 5 = 1.
Proof. destruct C76_inputs as (A & B & C & D). split; [exact A|]. split; [now rewrite map_length, seq_length|]. split; [exact B|]. split; [exact C|]. split; [exact D|]. apply C83_inner_points; lra. Qed.

Print Assumptions C83_hrg_node_degree. Print Assumptions C83_inner_points. Print Assumptions C83_monotone. Print Assumptions C83_degree_order. Print Assumptions C83_exponential. Print Assumptions C83_degree_bound. Print Assumptions C83_average_degree.
