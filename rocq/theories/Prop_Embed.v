(** Property C62: hyperbolic random graphs between two GIRGs. *)
From Coq Require Import Arith NArith ZArith List Bool Reals Lia Lra Psatz Permutation Sorting.Sorted.
From Verif Require Import Base Sched Coord_Model Coord_Torus Prop_Coord Tree_Model Tree_Run Girg_Model Girg_Num Hyp_Model Hyp_Math Hyp_Gen Prop_Hyp Prop_Girg
  Sampling_Model Scaling_Model Prop_Scaling Extra_Model Prop_Extra Run_Proofs Prop_Run Embed_Model Embed_Proofs.
Import ListNotations.
Local Open Scope R_scope.

(** ** Specification *)
(** polar coordinates of points of the disc of radius Rd *)
Record disc_points (radii angles : list R) (Rd : R) : Prop := {
  dp_len : length radii = length angles;
  dp_r : List.Forall (fun r => 0 < r <= Rd) radii;
  dp_phi : List.Forall (fun a => 0 <= a < 2 * PI) angles }.
(** edge of the threshold hyperbolic random graph *)
Definition hyp_edge (radii angles : list R) (Rd : R) (u v : nat) : Prop :=
  exists d, is_hyp_dist (nth u radii 0) (nth u angles 0) (nth v radii 0) (nth v angles 0) d /\ d < Rd.
(** the number that decides how the GIRG with weights s * e^((R-r)/2) relates to the hyperbolic graph: s e^(R/2) / (sum of the unscaled weights) *)
Definition density (radii : list R) (Rd s : R) : R := s * exp (Rd / 2) / sumR (girg_weights radii Rd).

(** ** Proofs *)
Lemma hyp_edge_hc r1 a1 r2 a2 Rd : 0 <= Rd -> ((exists d, is_hyp_dist r1 a1 r2 a2 d /\ d < Rd) <-> hc r1 r2 (a1 - a2) < cosh Rd).
Proof.
  intros HR. split.
  - intros (d & Hd & L). pose proof (hyp_dist_unique _ _ _ _ _ Hd) as ->. rewrite hyp_distance_eq in L. apply acosh_lt_iff in L; [exact L|apply hc_ge_1|exact HR].
  - intros L. exists (hyp_distance r1 a1 r2 a2). split; [apply hyp_dist_exists|]. rewrite hyp_distance_eq. apply acosh_lt_iff; [apply hc_ge_1|exact HR|exact L].
Qed.
Lemma torus_1 x y d : is_torus_dist [x] [y] d <-> is_circle_dist x y d.
Proof.
  split.
  - intros (_ & D0 & A & B). destruct (A 0%nat ltac:(cbn; lia)) as (di & P & L). cbn in P. destruct B as [->|(i & Hi & B)].
    + destruct P as [P1 (k & P2)]. pose proof (Rabs_pos (x - y + IZR k)). assert (di = 0) by lra. subst di. split; [rewrite <- H0; exact P1|exists k; congruence].
    + cbn in Hi. assert (i = 0)%nat by lia. subst i. exact B.
  - intros P. split; [reflexivity|]. split; [destruct P as [_ (k & ->)]; apply Rabs_pos|]. split.
    + intros i Hi. cbn in Hi. assert (i = 0)%nat by lia. subst i. exists d. split; [exact P|lra].
    + right. exists 0%nat. split; [cbn; lia|exact P].
Qed.
Lemma circle_half x y d : is_circle_dist x y d -> 0 <= d <= 1 / 2.
Proof.
  intros [P1 (k & ->)]. split; [apply Rabs_pos|]. set (z := x - y + IZR k) in *. pose proof (P1 (k + 1)%Z) as A. pose proof (P1 (k - 1)%Z) as B. rewrite plus_IZR in A. rewrite minus_IZR in B.
  replace (x - y + (IZR k + 1)) with (z + 1) in A by (unfold z; ring). replace (x - y + (IZR k - 1)) with (z - 1) in B by (unfold z; ring). unfold Rabs in *. repeat destruct (Rcase_abs _); lra.
Qed.
Lemma cos_period_Z x k : cos (x + 2 * IZR k * PI) = cos x.
Proof.
  destruct (Z.le_ge_cases 0 k) as [H|H].
  - rewrite <- (cos_period x (Z.to_nat k)). f_equal. rewrite INR_IZR_INZ, Z2Nat.id by exact H. reflexivity.
  - rewrite <- (cos_period (x + 2 * IZR k * PI) (Z.to_nat (- k))). f_equal. rewrite INR_IZR_INZ, Z2Nat.id by lia. rewrite opp_IZR. ring.
Qed.
Lemma cos_circle a b d : is_circle_dist (angleToGirgPosition a) (angleToGirgPosition b) d -> cos (a - b) = cos (2 * PI * d).
Proof.
  intros [_ (k & ->)]. pose proof PI_RGT_0 as P. unfold angleToGirgPosition. set (z := _ + IZR k). assert (E : cos (2 * PI * Rabs z) = cos (2 * PI * z)).
  { unfold Rabs. destruct (Rcase_abs z); [|reflexivity]. replace (2 * PI * - z) with (- (2 * PI * z)) by ring. apply cos_neg. }
  rewrite E. replace (2 * PI * z) with (a - b + 2 * IZR k * PI) by (unfold z; field; lra). symmetry. apply cos_period_Z.
Qed.

Section pairs.
  Variables (radii angles : list R) (Rd s : R) (u v : nat).
  Hypothesis (DP : disc_points radii angles Rd) (Hu : (u < length radii)%nat) (Hv : (v < length radii)%nat) (Hs : 0 < s).
  Let ws := girg_weights radii Rd.
  Lemma w_at i : (i < length radii)%nat -> nth i ws 0 = exp ((Rd - nth i radii 0) / 2).
  Proof. intros Hi. unfold ws, girg_weights. rewrite (nth_indep _ 0 (radiusToGirgWeight 0 Rd)) by (now rewrite map_length). exact (map_nth (fun r => radiusToGirgWeight r Rd) radii 0 i). Qed.
  Lemma p_at i : (i < length radii)%nat -> nth i (girg_positions angles) [] = [angleToGirgPosition (nth i angles 0)].
  Proof. intros Hi. rewrite (dp_len _ _ _ DP) in Hi. unfold girg_positions. rewrite (nth_indep _ [] [angleToGirgPosition 0]) by (now rewrite map_length). exact (map_nth (fun a => [angleToGirgPosition a]) angles 0 i). Qed.
  Lemma r_at i : (i < length radii)%nat -> 0 < nth i radii 0 <= Rd.
  Proof. intros Hi. pose proof (dp_r _ _ _ DP) as F. rewrite List.Forall_forall in F. apply F. now apply nth_In. Qed.
  Lemma a_at i : (i < length radii)%nat -> 0 <= nth i angles 0 < 2 * PI.
  Proof. intros Hi. rewrite (dp_len _ _ _ DP) in Hi. pose proof (dp_phi _ _ _ DP) as F. rewrite List.Forall_forall in F. apply F. now apply nth_In. Qed.
  Lemma W_pos : 0 < sumR ws.
  Proof.
    apply sumR_pos; [|intros w Hw; unfold ws, girg_weights in Hw; apply in_map_iff in Hw as (r & <- & _); apply exp_pos]. intros E. assert (length ws = length radii) by (unfold ws, girg_weights; apply map_length). rewrite E in H. cbn in H. lia.
  Qed.
  (** the circle distance of the positions *)
  Lemma dist_exists : exists d, is_circle_dist (angleToGirgPosition (nth u angles 0)) (angleToGirgPosition (nth v angles 0)) d.
  Proof.
    eexists. apply circ_is. destruct (C54_angle_position (nth u angles 0) 0) as (_ & _ & A & _). destruct (C54_angle_position (nth v angles 0) 0) as (_ & _ & B & _).
    specialize (A (a_at u Hu)). specialize (B (a_at v Hv)). apply Rabs_le. lra.
  Qed.
  (** the GIRG threshold rule *)
  Lemma girg_rule d : is_circle_dist (angleToGirgPosition (nth u angles 0)) (angleToGirgPosition (nth v angles 0)) d ->
    (threshold_edge 1 (scaled s ws) (girg_positions angles) u v <-> d < density radii Rd s * pull Rd (nth u radii 0) (nth v radii 0)).
  Proof.
    intros Hd. assert (K : nth u (scaled s ws) 0 * nth v (scaled s ws) 0 / sumR (scaled s ws) = density radii Rd s * pull Rd (nth u radii 0) (nth v radii 0)).
    { assert (N : forall i, (i < length radii)%nat -> nth i (scaled s ws) 0 = exp ((Rd - nth i radii 0) / 2) * s).
      { intros i Hi. rewrite <- w_at by exact Hi. unfold scaled. rewrite (nth_indep _ 0 (0 * s)) by (unfold ws, girg_weights; now rewrite !map_length). exact (map_nth (fun w => w * s) ws 0 i). }
      rewrite !N by assumption. rewrite sumR_scaled. unfold density. fold ws. pose proof W_pos as WP. unfold pull.
      replace ((Rd - nth u radii 0) / 2) with (Rd / 2 + - (nth u radii 0 / 2)) by field. replace ((Rd - nth v radii 0) / 2) with (- (nth v radii 0 / 2) + Rd / 2) by field.
      replace ((Rd - nth u radii 0 - nth v radii 0) / 2) with (- (nth u radii 0 / 2) + - (nth v radii 0 / 2) + Rd / 2) by field. rewrite !exp_plus. field. lra. }
    unfold threshold_edge. rewrite !p_at by assumption. rewrite K. change (N.to_nat 1) with 1%nat. split.
    - intros (d' & T & L). apply torus_1 in T. rewrite (is_circle_dist_unique _ _ _ _ Hd T). rewrite pow_1 in L. exact L.
    - intros L. exists d. split; [now apply torus_1|now rewrite pow_1].
  Qed.
  Lemma hyp_rule d : is_circle_dist (angleToGirgPosition (nth u angles 0)) (angleToGirgPosition (nth v angles 0)) d ->
    (hyp_edge radii angles Rd u v <-> hc (nth u radii 0) (nth v radii 0) (2 * PI * d) < cosh Rd).
  Proof.
    intros Hd. unfold hyp_edge. pose proof (r_at u Hu). rewrite hyp_edge_hc by lra. unfold hc. rewrite (cos_circle _ _ _ Hd). reflexivity.
  Qed.
End pairs.

(** with a density of at least 1/2 the GIRG contains the hyperbolic graph *)
Theorem C62_supergraph : forall radii angles Rd s, disc_points radii angles Rd -> 0 < s -> 1 / 2 <= density radii Rd s ->
  forall u v, (u < length radii)%nat -> (v < length radii)%nat -> hyp_edge radii angles Rd u v -> threshold_edge 1 (scaled s (girg_weights radii Rd)) (girg_positions angles) u v.
Proof.
  intros radii angles Rd s DP Hs HD u v Hu Hv HE. destruct (dist_exists radii angles Rd u v DP Hu Hv) as (d & Hd). apply (girg_rule radii angles Rd s u v DP Hu Hv Hs d Hd). apply (hyp_rule radii angles Rd u v DP Hu d Hd) in HE.
  pose proof (circle_half _ _ _ Hd) as HH. pose proof PI_RGT_0 as P. pose proof (edge_angle_upper Rd _ _ (2 * PI * d) (r_at _ _ _ DP u Hu) (r_at _ _ _ DP v Hv) ltac:(split; nra) HE) as U.
  assert (Y : 0 < pull Rd (nth u radii 0) (nth v radii 0)) by apply exp_pos. set (y := pull _ _ _) in *. assert (2 * d < y) by (apply Rmult_lt_reg_l with PI; lra). nra.
Qed.
(** with a density of at most 1 / (pi sqrt(2 (1 + e^-R))) the hyperbolic graph contains the GIRG *)
Theorem C62_subgraph : forall radii angles Rd s, disc_points radii angles Rd -> 0 < s -> density radii Rd s * (PI * sqrt (2 * (1 + exp (- Rd)))) <= 1 ->
  forall u v, (u < length radii)%nat -> (v < length radii)%nat -> threshold_edge 1 (scaled s (girg_weights radii Rd)) (girg_positions angles) u v -> hyp_edge radii angles Rd u v.
Proof.
  intros radii angles Rd s DP Hs HD u v Hu Hv HE. destruct (dist_exists radii angles Rd u v DP Hu Hv) as (d & Hd). apply (girg_rule radii angles Rd s u v DP Hu Hv Hs d Hd) in HE. apply (hyp_rule radii angles Rd u v DP Hu d Hd).
  pose proof (circle_half _ _ _ Hd) as HH. pose proof PI_RGT_0 as P. apply edge_angle_lower; [apply (r_at _ _ _ DP u Hu)|apply (r_at _ _ _ DP v Hv)|split; nra|].
  assert (Y : 0 < pull Rd (nth u radii 0) (nth v radii 0)) by apply exp_pos. set (y := pull _ _ _) in *. pose proof (exp_pos (- Rd)) as E. assert (Q : 0 < sqrt (2 * (1 + exp (- Rd)))) by (apply sqrt_lt_R0; lra). set (q := sqrt _) in *.
  assert (PQ : 0 < PI * q) by now apply Rmult_lt_0_compat. assert (A : d * (PI * q) < density radii Rd s * y * (PI * q)) by now apply Rmult_lt_compat_r. nra.
Qed.
(** the constant 1/2 is best possible *)
Theorem C62_supergraph_constant_tight : forall c Rd, 0 < c < 1 / 2 -> 0 < Rd -> exists angles s, disc_points [Rd / 2; Rd / 2] angles Rd /\ 0 < s /\ density [Rd / 2; Rd / 2] Rd s = c /\ hyp_edge [Rd / 2; Rd / 2] angles Rd 0%nat 1%nat /\ ~ threshold_edge 1 (scaled s (girg_weights [Rd / 2; Rd / 2] Rd)) (girg_positions angles) 0%nat 1%nat.
Proof.
  intros c Rd Hc HR. pose proof PI_RGT_0 as P. set (radii := [Rd / 2; Rd / 2]). set (angles := [0; 2 * PI * c]). set (s := c * sumR (girg_weights radii Rd) / exp (Rd / 2)).
  assert (DP : disc_points radii angles Rd). { constructor; [reflexivity|repeat constructor; lra|]. repeat constructor; try lra; nra. }
  assert (WP : 0 < sumR (girg_weights radii Rd)) by (apply (W_pos radii Rd 0%nat 0%nat); cbn; lia). pose proof (exp_pos (Rd / 2)) as E. assert (S0 : 0 < s) by (unfold s; apply Rdiv_lt_0_compat; [apply Rmult_lt_0_compat; lra|exact E]).
  assert (DS : density radii Rd s = c) by (unfold density, s; field; lra).
  assert (Hd : is_circle_dist (angleToGirgPosition (nth 0 angles 0)) (angleToGirgPosition (nth 1 angles 0)) c).
  { cbn [nth angles]. destruct (circ_is (angleToGirgPosition 0) (angleToGirgPosition (2 * PI * c))) as [_ _]. { unfold angleToGirgPosition. replace (0 / 2 / PI - 2 * PI * c / 2 / PI) with (- c) by (field; lra). rewrite Rabs_Ropp, Rabs_pos_eq; lra. }
    unfold angleToGirgPosition. replace (0 / 2 / PI) with 0 by (field; lra). replace (2 * PI * c / 2 / PI) with c by (field; lra). split.
    - intros k. destruct (Z.lt_trichotomy k 0) as [K|[->|K]].
      + assert (IZR k <= -1) by (apply (IZR_le k (-1)); lia). rewrite Rabs_left by lra. lra.
      + rewrite Rplus_0_r, Rabs_left by lra. lra.
      + assert (1 <= IZR k) by (apply (IZR_le 1 k); lia). rewrite Rabs_pos_eq by lra. lra.
    - exists 0%Z. rewrite Rplus_0_r, Rabs_left by lra. lra. }
  exists angles, s. split; [exact DP|]. split; [exact S0|]. split; [exact DS|]. split.
  - apply (hyp_rule radii angles Rd 0 1 DP ltac:(cbn; lia) c Hd). cbn [nth radii]. apply edge_half. replace ((Rd + (Rd / 2 - Rd / 2)) / 2) with (Rd / 2) by field. replace ((Rd - (Rd / 2 - Rd / 2)) / 2) with (Rd / 2) by field.
    pose proof (sinh_pos (Rd / 2) ltac:(lra)) as SP. replace (2 * PI * c / 2) with (PI * c) by field. assert (PC : 0 < PI * c < PI / 2) by (split; [apply Rmult_lt_0_compat; lra|nra]). assert (0 < sin (PI * c)) by (apply sin_gt_0; lra).
    assert (L : sin (PI * c) < 1). { rewrite <- sin_PI2. apply sin_increasing_1; lra. } assert (SQ : 0 < sinh (Rd / 2) * sinh (Rd / 2)) by now apply Rmult_lt_0_compat. set (q := sin (PI * c)) in *. assert (q * q < 1) by nra. rewrite <- (Rmult_1_r (sinh (Rd / 2) * sinh (Rd / 2))) at 2. now apply Rmult_lt_compat_l.
  - intros T. apply (girg_rule radii angles Rd s 0 1 DP ltac:(cbn; lia) ltac:(cbn; lia) S0 c Hd) in T. rewrite DS in T. cbn [nth radii] in T. unfold pull in T. replace ((Rd - Rd / 2 - Rd / 2) / 2) with 0 in T by field. rewrite exp_0 in T. lra.
Qed.

(** ** the generated graphs *)
Theorem C62_generated : forall nd part hg cfg rg radii angles Rd s seed omp_max team eh seed' omp_max' team' eg,
  hrg_input radii angles Rd omp_max team -> good_rng (hb hg) -> is_partition task_eq part -> hrg_outcome nd part hg radii angles 0 Rd seed omp_max team (Some eh) ->
  girg_input 1 (scaled s (girg_weights radii Rd)) (girg_positions angles) seed' omp_max' team' -> good_rng rg ->
  girg_outcome ideal_env cfg rg (scaled s (girg_weights radii Rd)) (girg_positions angles) AInf seed' omp_max' team' (Some eg) -> 0 < s ->
  (1 / 2 <= density radii Rd s -> forall u v, In (u, v) eh -> In (u, v) eg \/ In (v, u) eg) /\
  (density radii Rd s * (PI * sqrt (2 * (1 + exp (- Rd)))) <= 1 -> forall u v, In (u, v) eg -> In (u, v) eh \/ In (v, u) eh).
Proof.
  intros nd part hg cfg rg radii angles Rd s seed omp_max team eh seed' omp_max' team' eg HI GH HP HO GI GR GO Hs.
  assert (DP : disc_points radii angles Rd) by (destruct HI; constructor; assumption). assert (L : length (scaled s (girg_weights radii Rd)) = length radii) by (unfold scaled, girg_weights; now rewrite !map_length).
  destruct (C36_threshold_hrg_is_exact nd part hg radii angles Rd seed omp_max team HI GH HP) as [_ X]. destruct (X _ HO) as (e & E & XE). injection E as <-.
  destruct (C37_simple_graph nd part hg radii angles 0 Rd seed omp_max team HI GH HP _ HO) as (e & E & _ & IX & NX & _). injection E as <-.
  destruct (C01_threshold_graph_is_exact cfg rg 1 _ _ seed' omp_max' team' GI GR) as [_ Y]. destruct (Y _ GO) as (e & E & YE). injection E as <-. rewrite L in YE.
  destruct (C02_simple_graph cfg rg 1 _ _ AInf seed' omp_max' team' GI GR _ GO) as (e & E & _ & NY & _). injection E as <-.
  destruct (C03_endpoints_are_node_indices cfg rg 1 _ _ AInf seed' omp_max' team' GI GR _ GO) as (e & E & IY). injection E as <-. rewrite L in IY.
  split; intros HD u v I.
  - destruct (IX u v I) as [Hu Hv]. assert (Huv : u <> v) by (intros ->; exact (NX v I)). apply (YE u v Hu Hv Huv). apply (C62_supergraph radii angles Rd s DP Hs HD u v Hu Hv). apply (XE u v Hu Hv Huv). now left.
  - destruct (IY u v I) as [Hu Hv]. assert (Huv : u <> v) by (intros ->; exact (NY v I)). apply (XE u v Hu Hv Huv). apply (C62_subgraph radii angles Rd s DP Hs HD u v Hu Hv). apply (YE u v Hu Hv Huv). now left.
Qed.

(** ** the tool *)
Definition simple (es : list (nat * nat)) : Prop := NoDup es /\ (forall u, ~ In (u, u) es) /\ forall u v, In (u, v) es -> ~ In (v, u) es.
Lemma unify_nodup es : simple es -> NoDup (unifyEdges (int_edges es)).
Proof.
  intros (ND & NL & NR). unfold unifyEdges, int_edges. rewrite map_map. cbn [fst snd]. induction es as [|[a b] es IH]; [constructor|]. apply NoDup_cons_iff in ND as [N1 ND]. cbn [map fst snd]. constructor.
  - intros I. apply in_map_iff in I as ([c d] & E & I). cbn [fst snd] in E. assert (AB : a <> b) by (intros ->; apply (NL b); now left).
    destruct (Z.ltb_spec (Z.of_nat d) (Z.of_nat c)), (Z.ltb_spec (Z.of_nat b) (Z.of_nat a)); injection E as E1 E2; apply Nat2Z.inj in E1, E2; subst; try (now apply N1).
    + apply (NR a b); [now left|now right].
    + apply (NR a b); [now left|now right].
  - apply IH; [exact ND|intros u I; apply (NL u); now right|intros u v I J; apply (NR u v); now right].
Qed.
Lemma sorted_is_set g g' : NoDup g -> sort_outcome g g' -> sorted_set g'.
Proof.
  intros ND [P S]. apply (Permutation_NoDup P) in ND. clear P. unfold sorted_set. induction g' as [|a g' IH]; [constructor|]. apply NoDup_cons_iff in ND as [N1 ND]. constructor.
  - apply IH; [exact ND|]. intros i j x y Hij Hx Hy. apply (S (Datatypes.S i) (Datatypes.S j) x y); [lia|exact Hx|exact Hy].
  - apply List.Forall_forall. intros b I. apply In_nth_error in I as (j & Hj). pose proof (S 0%nat (Datatypes.S j) a b ltac:(lia) eq_refl Hj) as L.
    apply lex_total; [intros ->; apply N1; eapply nth_error_In; exact Hj|]. intros C. apply pair_lt_iff in C. congruence.
Qed.
Lemma joined_int es u v : joined (int_edges es) u v <-> exists a b, u = Z.of_nat a /\ v = Z.of_nat b /\ (In (a, b) es \/ In (b, a) es).
Proof.
  unfold joined, int_edges. rewrite !in_map_iff. split.
  - intros [([a b] & E & I)|([a b] & E & I)]; cbn [fst snd] in E; injection E as <- <-; [exists a, b|exists b, a]; auto.
  - intros (a & b & -> & -> & [I|I]); [left; exists (a, b)|right; exists (b, a)]; auto.
Qed.
(** one comparison of the tool: the counters are zero iff one graph contains the other, which is certain outside a range of densities *)
Theorem C62_diff : forall nd part hg cfg rg radii angles Rd seed omp_max team team' eh hrg deg o,
  hrg_input radii angles Rd omp_max team -> good_rng (hb hg) -> is_partition task_eq part -> good_rng rg ->
  hrg_outcome nd part hg radii angles 0 Rd seed omp_max team (Some eh) -> sort_outcome (unifyEdges (int_edges eh)) hrg ->
  (forall s ws', scale_weights (girg_weights radii Rd) deg 1 (DInf true) (Returned s) ws' -> 0 < s /\ girg_input 1 ws' (girg_positions angles) 0 omp_max team') ->
  diff_outcome cfg rg radii angles Rd hrg omp_max team' deg o ->
  exists s hrg_only girg_only, o = Some (hrg_only, girg_only) /\ scale_weights (girg_weights radii Rd) deg 1 (DInf true) (Returned s) (scaled s (girg_weights radii Rd)) /\
    let n := length radii in
    (hrg_only = 0%Z <-> forall u v, (u < n)%nat -> (v < n)%nat -> u <> v -> hyp_edge radii angles Rd u v -> threshold_edge 1 (scaled s (girg_weights radii Rd)) (girg_positions angles) u v) /\
    (girg_only = 0%Z <-> forall u v, (u < n)%nat -> (v < n)%nat -> u <> v -> threshold_edge 1 (scaled s (girg_weights radii Rd)) (girg_positions angles) u v -> hyp_edge radii angles Rd u v) /\
    (1 / 2 <= density radii Rd s -> hrg_only = 0%Z) /\ (density radii Rd s * (PI * sqrt (2 * (1 + exp (- Rd)))) <= 1 -> girg_only = 0%Z).
Proof.
  intros nd part hg cfg rg radii angles Rd seed omp_max team team' eh hrg deg o HI GH HP GR HO SH HG (s & ws' & SW & oe & GO & H). destruct (HG s ws' SW) as [Hs GI].
  assert (EW : ws' = scaled s (girg_weights radii Rd)) by (inversion SW; reflexivity). subst ws'.
  assert (DP : disc_points radii angles Rd) by (destruct HI; constructor; assumption). assert (L : length (scaled s (girg_weights radii Rd)) = length radii) by (unfold scaled, girg_weights; now rewrite !map_length).
  destruct (C01_threshold_graph_is_exact cfg rg 1 _ _ 0 omp_max team' GI GR) as [_ Y]. destruct (Y _ GO) as (eg & -> & YE). rewrite L in YE.
  destruct (C36_threshold_hrg_is_exact nd part hg radii angles Rd seed omp_max team HI GH HP) as [_ X]. destruct (X _ HO) as (e & E & XE). injection E as <-.
  destruct (C37_simple_graph nd part hg radii angles 0 Rd seed omp_max team HI GH HP _ HO) as (e & E & ND1 & IX & NX & RX). injection E as <-.
  destruct (C02_simple_graph cfg rg 1 _ _ AInf 0 omp_max team' GI GR _ GO) as (e & E & ND2 & NY & RY). injection E as <-.
  destruct (C03_endpoints_are_node_indices cfg rg 1 _ _ AInf 0 omp_max team' GI GR _ GO) as (e & E & IY). injection E as <-. rewrite L in IY.
  destruct H as (g & SG & ->). pose proof (sorted_is_set _ _ (unify_nodup _ (conj ND1 (conj NX RX))) SH) as S1. pose proof (sorted_is_set _ _ (unify_nodup _ (conj ND2 (conj NY RY))) SG) as S2.
  destruct (C55_subgraph_test (int_edges eh) (int_edges eg) hrg g (Permutation_sym (proj1 SH)) (Permutation_sym (proj1 SG)) S1 S2) as [T1 T2].
  destruct (edge_diff hrg g 0 0) as [ho go]. cbn [fst snd] in T1, T2. exists s, ho, go. split; [reflexivity|]. split; [exact SW|]. cbv zeta.
  assert (Q1 : ho = 0%Z <-> forall u v, (u < length radii)%nat -> (v < length radii)%nat -> u <> v -> hyp_edge radii angles Rd u v -> threshold_edge 1 (scaled s (girg_weights radii Rd)) (girg_positions angles) u v).
  { rewrite T1. split.
    - intros K u v Hu Hv Huv HE. apply (YE u v Hu Hv Huv). apply (XE u v Hu Hv Huv) in HE. destruct (proj1 (joined_int eg (Z.of_nat u) (Z.of_nat v))) as (a & b & Ea & Eb & I); [|apply Nat2Z.inj in Ea, Eb; subst a b; exact I]. apply K. apply joined_int. exists u, v. auto.
    - intros K u v J. apply joined_int in J as (a & b & -> & -> & I). apply joined_int. exists a, b. split; [reflexivity|]. split; [reflexivity|].
      assert (B : (a < length radii)%nat /\ (b < length radii)%nat /\ a <> b). { destruct I as [I|I]; destruct (IX _ _ I); (split; [|split]; [assumption..|intros ->; exact (NX _ I)]). } destruct B as (Ha & Hb & Hab). apply (YE a b Ha Hb Hab). apply K; auto. apply (XE a b Ha Hb Hab). exact I. }
  assert (Q2 : go = 0%Z <-> forall u v, (u < length radii)%nat -> (v < length radii)%nat -> u <> v -> threshold_edge 1 (scaled s (girg_weights radii Rd)) (girg_positions angles) u v -> hyp_edge radii angles Rd u v).
  { rewrite T2. split.
    - intros K u v Hu Hv Huv HE. apply (XE u v Hu Hv Huv). apply (YE u v Hu Hv Huv) in HE. destruct (proj1 (joined_int eh (Z.of_nat u) (Z.of_nat v))) as (a & b & Ea & Eb & I); [|apply Nat2Z.inj in Ea, Eb; subst a b; exact I]. apply K. apply joined_int. exists u, v. auto.
    - intros K u v J. apply joined_int in J as (a & b & -> & -> & I). apply joined_int. exists a, b. split; [reflexivity|]. split; [reflexivity|].
      assert (B : (a < length radii)%nat /\ (b < length radii)%nat /\ a <> b). { destruct I as [I|I]; destruct (IY _ _ I); (split; [|split]; [assumption..|intros ->; exact (NY _ I)]). } destruct B as (Ha & Hb & Hab). apply (XE a b Ha Hb Hab). apply K; auto. apply (YE a b Ha Hb Hab). exact I. }
  split; [exact Q1|]. split; [exact Q2|]. split; intros HD.
  - apply Q1. intros u v Hu Hv _. now apply C62_supergraph.
  - apply Q2. intros u v Hu Hv _. now apply C62_subgraph.
Qed.
(** the two binary searches *)
Theorem C62_search : forall diff d res, 0 <= d -> bounds_outcome diff d res ->
  exists l1 h1 l2 h2, res = ((l2 + h2) / 2, (l1 + h1) / 2) /\ h1 - l1 <= 1 / 2 /\ h2 - l2 <= 1 / 2 /\ d <= l1 <= h1 /\ h1 <= 2 * d /\ 1 / 2 * d <= l2 <= h2 /\ h2 <= 12 / 10 * d /\
    (* h1: a degree for which the GIRG was found to contain the hyperbolic graph, or the initial value; and so on *)
    (h1 = 2 * d \/ exists sub, diff h1 sub /\ fst sub = 0%Z) /\ (l1 = d \/ exists sub, diff l1 sub /\ fst sub <> 0%Z) /\
    (l2 = 1 / 2 * d \/ exists sub, diff l2 sub /\ snd sub = 0%Z) /\ (h2 = 12 / 10 * d \/ exists sub, diff h2 sub /\ snd sub <> 0%Z).
Proof.
  intros diff d res Hd (l1 & h1 & l2 & h2 & U & D & ->).
  assert (UP : forall low high l h, search_up diff low high l h -> low <= high -> h - l <= 1 / 2 /\ low <= l <= h /\ h <= high /\ (h = high \/ exists sub, diff h sub /\ fst sub = 0%Z) /\ (l = low \/ exists sub, diff l sub /\ fst sub <> 0%Z)).
  { induction 1 as [low high E|low high sub l h E F G IH]; intros LE; [repeat split; try lra; now left|]. destruct (Z.eqb_spec (fst sub) 0) as [Z0|Z0].
    - destruct (IH ltac:(lra)) as (A1 & A2 & A3 & [->|A4] & A5); (split; [exact A1|split; [exact A2|split; [lra|split; [|exact A5]]]]); [right; eauto|now right].
    - destruct (IH ltac:(lra)) as (A1 & A2 & A3 & A4 & [->|A5]); (split; [exact A1|split; [lra|split; [lra|split; [exact A4|]]]]); [right; eauto|now right]. }
  assert (DN : forall low high l h, search_down diff low high l h -> low <= high -> h - l <= 1 / 2 /\ low <= l <= h /\ h <= high /\ (l = low \/ exists sub, diff l sub /\ snd sub = 0%Z) /\ (h = high \/ exists sub, diff h sub /\ snd sub <> 0%Z)).
  { induction 1 as [low high E|low high sub l h E F G IH]; intros LE; [repeat split; try lra; now left|]. destruct (Z.eqb_spec (snd sub) 0) as [Z0|Z0].
    - destruct (IH ltac:(lra)) as (A1 & A2 & A3 & [->|A4] & A5); (split; [exact A1|split; [lra|split; [lra|split; [|exact A5]]]]); [right; eauto|now right].
    - destruct (IH ltac:(lra)) as (A1 & A2 & A3 & A4 & [->|A5]); (split; [exact A1|split; [exact A2|split; [lra|split; [exact A4|]]]]); [right; eauto|now right]. }
  destruct (UP _ _ _ _ U ltac:(lra)) as (A1 & A2 & A3 & A4 & A5). destruct (DN _ _ _ _ D ltac:(lra)) as (B1 & B2 & B3 & B4 & B5). rewrite (Rmult_comm d (12 / 10)) in *.
  exists l1, h1, l2, h2. repeat split; try lra; try assumption.
Qed.
(** they end whenever every comparison does *)
Theorem C62_search_ends : forall diff d, 0 <= d -> (forall x, 1 / 2 * d <= x <= 2 * d -> exists sub, diff x sub) -> exists res, bounds_outcome diff d res.
Proof.
  intros diff d Hd HT.
  assert (POW : forall k low high, low <= high -> high - low <= 1 / 2 * 2 ^ k -> (forall x, low <= x <= high -> exists sub, diff x sub) -> exists l h, search_up diff low high l h).
  { induction k as [|k IH]; intros low high LE W HX; [exists low, high; constructor; cbn in W; lra|]. destruct (Rle_lt_dec (high - low) (1 / 2)) as [S|S]; [exists low, high; now constructor|].
    destruct (HX ((low + high) / 2) ltac:(lra)) as (sub & Hsub). cbn [pow] in W. assert (K : exists l h, search_up diff (if (fst sub =? 0)%Z then low else (low + high) / 2) (if (fst sub =? 0)%Z then (low + high) / 2 else high) l h).
    { destruct (fst sub =? 0)%Z; (apply IH; [lra|lra|intros x Hx; apply HX; lra]). } destruct K as (l & h & K). exists l, h. eapply up_step; eauto. }
  assert (POW' : forall k low high, low <= high -> high - low <= 1 / 2 * 2 ^ k -> (forall x, low <= x <= high -> exists sub, diff x sub) -> exists l h, search_down diff low high l h).
  { induction k as [|k IH]; intros low high LE W HX; [exists low, high; constructor; cbn in W; lra|]. destruct (Rle_lt_dec (high - low) (1 / 2)) as [S|S]; [exists low, high; now constructor|].
    destruct (HX ((low + high) / 2) ltac:(lra)) as (sub & Hsub). cbn [pow] in W. assert (K : exists l h, search_down diff (if (snd sub =? 0)%Z then (low + high) / 2 else low) (if (snd sub =? 0)%Z then high else (low + high) / 2) l h).
    { destruct (snd sub =? 0)%Z; (apply IH; [lra|lra|intros x Hx; apply HX; lra]). } destruct K as (l & h & K). exists l, h. eapply down_step; eauto. }
  destruct (Pow_x_infinity 2 ltac:(rewrite Rabs_pos_eq; lra) (2 * d)) as (k & HK). specialize (HK k ltac:(lia)). assert (PK : 0 < 2 ^ k) by (apply pow_lt; lra). rewrite Rabs_pos_eq in HK by lra.
  destruct (POW k d (2 * d)) as (l1 & h1 & U); [lra|lra|intros x Hx; apply HT; lra|]. destruct (POW' k (1 / 2 * d) (d * (12 / 10))) as (l2 & h2 & D); [lra|lra|intros x Hx; apply HT; lra|].
  eexists. exists l1, h1, l2, h2. split; [exact U|]. split; [exact D|reflexivity].
Qed.
(** dense hyperbolic graphs: the first degree the tool tries is impossible and scaleWeights never returns *)
Theorem C62_dense_graphs_refuted : forall cfg rg radii angles Rd hrg omp_max team d, double_weights (girg_weights radii Rd) -> radii <> [] -> (N.of_nat (length radii) < 2 ^ 31)%N ->
  1 / 2 < d -> 2 / 3 * (INR (length radii) - 1) < d ->
  forall res, ~ bounds_outcome (fun x sub => diff_outcome cfg rg radii angles Rd hrg omp_max team x (Some sub)) d res.
Proof.
  intros cfg rg radii angles Rd hrg omp_max team d V Hne HN H1 H2 res (l1 & h1 & l2 & h2 & U & _). assert (L : length (girg_weights radii Rd) = length radii) by apply map_length.
  inversion U as [low high E|low high sub l h E F G]; subst; [lra|]. destruct F as (s & ws' & SW & _). destruct (C32_termination (girg_weights radii Rd) ((d + 2 * d) / 2) 1 V) as [_ X]; [destruct radii; [congruence|discriminate]|now rewrite L|lia|].
  rewrite L in X. destruct (X ltac:(lra)) as (_ & _ & N). exact (N _ _ _ SW).
Qed.

(** sorting has an outcome *)
Lemma sort_exists g : exists g', sort_outcome g g'.
Proof.
  assert (K : exists g', Permutation g g' /\ StronglySorted (fun a b => pair_lt b a = false) g').
  { induction g as [|a g (h & P & S)]; [exists []; split; [constructor|constructor]|].
    assert (Q : exists h', Permutation (a :: h) h' /\ StronglySorted (fun a b => pair_lt b a = false) h').
    { clear P. induction h as [|b h IH]; [exists [a]; split; [reflexivity|repeat constructor]|]. apply StronglySorted_inv in S as [S F]. destruct (pair_lt b a) eqn:E.
      - destruct (IH S) as (h' & P' & S'). exists (b :: h'). split; [rewrite perm_swap; now constructor|]. constructor; [exact S'|]. apply List.Forall_forall. intros c I. apply (Permutation_in _ (Permutation_sym P')) in I as [<-|I].
        + unfold pair_lt in *. destruct a, b. cbn in *. lia.
        + exact (proj1 (List.Forall_forall _ _) F c I).
      - exists (a :: b :: h). split; [reflexivity|]. constructor; [now constructor|]. constructor; [exact E|]. apply List.Forall_forall. intros c I. pose proof (proj1 (List.Forall_forall _ _) F c I) as C. cbn beta in C.
        unfold pair_lt in *. destruct a, b, c. cbn in *. lia. }
    destruct Q as (h' & P' & S'). exists h'. split; [rewrite P; exact P'|exact S']. }
  destruct K as (g' & P & S). exists g'. split; [exact P|]. clear P. unfold sorted_by. induction S as [|a l S IH F]; intros i j x y Hij Hx Hy; [destruct i; discriminate|].
  destruct j as [|j]; [lia|]. destruct i as [|i].
  - cbn in Hx, Hy. injection Hx as <-. apply nth_error_In in Hy. exact (proj1 (List.Forall_forall _ _) F y Hy).
  - apply (IH i j x y); [lia|exact Hx|exact Hy].
Qed.
(** the tool ends for every hyperbolic graph whose degree is at most half of the largest possible one *)
Theorem C62_tool_ends : forall cfg rg radii angles Rd hrg omp_max team d, good_rng rg -> double_weights (girg_weights radii Rd) -> radii <> [] -> (N.of_nat (length radii) < 2 ^ 31)%N ->
  0 < d -> 2 * d <= INR (length radii) - 1 ->
  (forall x s ws', 1 / 2 * d <= x <= 2 * d -> scale_weights (girg_weights radii Rd) x 1 (DInf true) (Returned s) ws' -> girg_input 1 ws' (girg_positions angles) 0 omp_max team) ->
  exists res, bounds_outcome (fun x sub => diff_outcome cfg rg radii angles Rd hrg omp_max team x (Some sub)) d res.
Proof.
  intros cfg rg radii angles Rd hrg omp_max team d GR V Hne HN H1 H2 HG. apply C62_search_ends; [lra|]. intros x Hx. assert (L : length (girg_weights radii Rd) = length radii) by apply map_length.
  destruct (C32_termination (girg_weights radii Rd) x 1 V) as [X _]; [destruct radii; [congruence|discriminate]|now rewrite L|lia|]. rewrite L in X. destruct (X ltac:(lra)) as (_ & _ & Y). destruct (Y (DInf true)) as (s & SW); [cbn; congruence|].
  pose proof (HG x s _ Hx SW) as GI. destruct (C01_threshold_graph_is_exact cfg rg 1 _ _ 0 omp_max team GI GR) as [(o & GO) Z]. destruct (Z _ GO) as (es & -> & _).
  destruct (sort_exists (unifyEdges (int_edges es))) as (g & SG). exists (edge_diff hrg g 0 0). exists s, (scaled s (girg_weights radii Rd)). split; [exact SW|]. exists (Some es). split; [exact GO|]. exists g. split; [exact SG|reflexivity].
Qed.

(** ** Examples *)
Definition ex_radii := [6; 6; 6; 6; 6]. Definition ex_angles := [0; 1; 2; 3; 4].
Lemma ex_weights : girg_weights ex_radii 6 = [1; 1; 1; 1; 1].
Proof. unfold girg_weights, ex_radii. cbn [map]. unfold radiusToGirgWeight. replace ((6 - 6) / 2) with 0 by field. now rewrite exp_0. Qed.
Lemma ex_disc : disc_points ex_radii ex_angles 6.
Proof. assert (P : 3 < PI) by (pose proof PI2_3_2; lra). constructor; [reflexivity| |]; repeat constructor; lra. Qed.
Lemma ex_range w : In w [1; 1; 1; 1; 1] -> 1 <= w <= INR 5 / 2.
Proof. intros [<-|[<-|[<-|[<-|[<-|[]]]]]]; cbn [INR]; lra. Qed.
Lemma ex_input x s ws' : 1 <= x <= 4 -> scale_weights (girg_weights ex_radii 6) x 1 (DInf true) (Returned s) ws' -> 0 < s /\ girg_input 1 ws' (girg_positions ex_angles) 0 2 2.
Proof.
  rewrite ex_weights. intros Hx SW.
  destruct (moderate_ok [1; 1; 1; 1; 1] 5 x 1 (DInf true) s ws' ltac:(discriminate) eq_refl ltac:(lia) ltac:(lia) ex_range ltac:(lia) ltac:(cbn [INR]; lra) I) as [E WO]; [|exact SW|].
  { cbn [degree_factor sumR fold_right pow INR]. change (b2 31) with 2147483648. lra. }
  destruct (generated_double [1; 1; 1; 1; 1] 5 ltac:(lia) ltac:(lia) ex_range) as [V _]. destruct (C32_degree_reached _ _ _ _ _ _ V ltac:(discriminate) ltac:(cbn; lia) (le_n 1) SW) as [S0 _]. split; [exact S0|].
  assert (LW : length ws' = 5%nat) by (rewrite E; reflexivity). constructor; auto; try lia.
  - pose proof PI2_3_2 as P. apply List.Forall_forall. intros p I. unfold girg_positions, ex_angles in I. apply in_map_iff in I as (a & <- & I). split; [reflexivity|]. apply List.Forall_forall. intros y [<-|[]]. unfold angleToGirgPosition.
    assert (0 <= a <= 4) by (destruct I as [<-|[<-|[<-|[<-|[<-|[]]]]]]; lra). split; [apply Rmult_le_pos; [lra|left; apply Rinv_0_lt_compat; lra]|]. apply Rmult_lt_reg_r with PI; [lra|]. unfold Rdiv at 1. rewrite Rmult_assoc, Rinv_l; lra.
Qed.
(** the hypotheses can be met: the tool runs on a graph of five nodes *)
Example ex_C62 : exists eh hrg res s, disc_points ex_radii ex_angles 6 /\ hrg_input ex_radii ex_angles 6 2 2 /\ hrg_outcome true ex_part ex_hrng ex_radii ex_angles 0 6 5 2 2 (Some eh) /\ sort_outcome (unifyEdges (int_edges eh)) hrg /\
  bounds_outcome (fun x sub => diff_outcome {| use_bmi2 := false; gnuc := true; ndebug := true |} ex_rng ex_radii ex_angles 6 hrg 2 2 x (Some sub)) 2 res /\
  0 < s /\ girg_input 1 (scaled s (girg_weights ex_radii 6)) (girg_positions ex_angles) 0 2 2.
Proof.
  pose proof PI2_3_2 as P. assert (HI : hrg_input ex_radii ex_angles 6 2 2).
  { destruct ex_disc. constructor; try assumption; try (cbn; lia); try lra. }
  destruct (C36_threshold_hrg_is_exact true ex_part ex_hrng ex_radii ex_angles 6 5 2 2 HI ex_rng_good ex_part_ok) as [X Y]. destruct (X ex_hrg_returns) as (o & HO). destruct (Y o HO) as (eh & -> & _).
  destruct (sort_exists (unifyEdges (int_edges eh))) as (hrg & SH). assert (V : double_weights (girg_weights ex_radii 6)) by (rewrite ex_weights; exact (proj1 (generated_double [1; 1; 1; 1; 1] 5 ltac:(lia) ltac:(lia) ex_range))).
  destruct (C62_tool_ends {| use_bmi2 := false; gnuc := true; ndebug := true |} ex_rng ex_radii ex_angles 6 hrg 2 2 2 ex_rng_good V ltac:(discriminate) ltac:(cbn; lia) ltac:(lra)) as (res & HB).
  { cbn [ex_radii length INR]. lra. } { intros x s ws' Hx SW. apply (ex_input x s ws'); [lra|exact SW]. }
  destruct (C32_termination (girg_weights ex_radii 6) 2 1 V) as [Z _]; [discriminate|cbn; lia|lia|]. destruct Z as (_ & _ & Z); [rewrite ex_weights; cbn [length INR]; lra|]. destruct (Z (DInf true)) as (s & SW); [cbn; congruence|]. destruct (ex_input 2 s _ ltac:(lra) SW) as [S0 GI].
  exists eh, hrg, res, s. exact (conj ex_disc (conj HI (conj HO (conj SH (conj HB (conj S0 GI)))))).
Qed.

Print Assumptions C62_supergraph. Print Assumptions C62_subgraph. Print Assumptions C62_supergraph_constant_tight. Print Assumptions C62_generated. Print Assumptions C62_diff.
Print Assumptions C62_search. Print Assumptions C62_search_ends. Print Assumptions C62_tool_ends. Print Assumptions C62_dense_graphs_refuted.
