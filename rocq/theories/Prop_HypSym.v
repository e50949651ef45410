(** Property C69: threshold hyperbolic random graphs under rotations, mirroring, relabelling, restriction to some of the points, larger discs and
    points moved towards the centre.  Everything is stated about generated graphs. *)
From Coq Require Import Arith NArith ZArith List Bool Reals Permutation Lia Lra.
From Verif Require Import Base Sched Bits_Model Bits_Proofs Coord_Model Coord_Proofs Coord_Geo IntSort_Model IntSort_Proofs Prop_IntSort Prefix_Model
  Tree_Model Cover Tree_Proofs Tree_Build Tree_Plan Tree_Run Girg_Model Girg_Proofs Girg_Num Prop_Girg Hyp_Model Hyp_Math Hyp_Angle Hyp_Levels Hyp_Build Hyp_Run
  Hyp_Sched Hyp_Threads Hyp_Gen Prop_Hyp.
Import ListNotations.
Local Open Scope nat_scope.

(** [es] joins u and v *)
Definition joined (es : list (nat * nat)) (u v : nat) : Prop := In (u, v) es \/ In (v, u) es.
(** a generated threshold graph on the points (radii, angles) in the disc of radius Rd; any engine, build, seed, number of threads and schedule *)
Definition generated (radii angles : list R) (Rd : R) (es : list (nat * nat)) : Prop :=
  exists nd part hg seed omp_max team, hrg_input radii angles Rd omp_max team /\ good_rng (hb hg) /\ is_partition task_eq part /\
    hrg_outcome nd part hg radii angles 0 Rd seed omp_max team (Some es).

Definition near (r1 phi1 r2 phi2 Rd : R) : Prop := exists d, is_hyp_dist r1 phi1 r2 phi2 d /\ (d < Rd)%R.
Lemma generated_edges radii angles Rd es : generated radii angles Rd es -> forall u v, u < length radii -> v < length radii -> u <> v ->
  (joined es u v <-> near (nth u radii 0%R) (nth u angles 0%R) (nth v radii 0%R) (nth v angles 0%R) Rd).
Proof.
  intros (nd & part & hg & seed & omp_max & team & HI & GG & HP & Ho) u v Hu Hv Hne.
  destruct (C36_threshold_hrg_is_exact nd part hg radii angles Rd seed omp_max team HI GG HP) as [_ M]. destruct (M _ Ho) as (es' & E & H). injection E as <-. now apply H.
Qed.
Lemma cosh_lt_iff d Rd : (0 <= d -> 0 <= Rd -> (d < Rd <-> cosh d < cosh Rd))%R.
Proof.
  intros Hd HR. assert (M : forall x y, (0 <= x < y -> cosh x < cosh y)%R).
  { intros x y H. unfold cosh. assert (E : (exp x < exp y)%R) by (apply exp_increasing; lra). assert (P : (1 <= exp x)%R) by (rewrite <- exp_0; destruct (Req_dec x 0) as [->|]; [lra|left; apply exp_increasing; lra]).
    rewrite !exp_Ropp. set (a := exp x) in *. set (b := exp y) in *.
    assert (Q : (/ a - / b <= b - a)%R). { replace (/ a - / b)%R with ((b - a) * / (a * b))%R by (field; lra). rewrite <- (Rmult_1_r (b - a)) at 2. apply Rmult_le_compat_l; [lra|]. rewrite <- Rinv_1. apply Rinv_le_contravar; nra. }
    assert (Q' : (/ a - / b < b - a)%R). { destruct Q as [Q|Q]; [exact Q|]. exfalso. replace (/ a - / b)%R with ((b - a) * / (a * b))%R in Q by (field; lra). assert (U : (/ (a * b) < 1)%R) by (rewrite <- Rinv_1; apply Rinv_lt_contravar; nra). nra. }
    lra. }
  split; [intros; apply M; lra|]. intros H. apply Rnot_le_lt. intros C. destruct C as [C|C]; [pose proof (M Rd d); lra|subst; lra].
Qed.
Lemma near_iff r1 p1 r2 p2 Rd : (0 <= Rd)%R -> near r1 p1 r2 p2 Rd <-> (cosh r1 * cosh r2 - sinh r1 * sinh r2 * cos (p1 - p2) < cosh Rd)%R.
Proof.
  intros HR. split.
  - intros (d & [H0 H1] & H). rewrite <- H1. apply (proj1 (cosh_lt_iff d Rd H0 HR)). exact H.
  - intros H. destruct (hyp_dist_exists r1 p1 r2 p2) as [H0 H1]. exists (hyp_distance r1 p1 r2 p2). split; [split; assumption|]. apply (proj2 (cosh_lt_iff _ Rd H0 HR)). rewrite H1. exact H.
Qed.
Lemma gen_R radii angles Rd es : generated radii angles Rd es -> (2 / 3 <= Rd)%R /\ (forall u, u < length radii -> (0 < nth u radii 0 <= Rd)%R).
Proof.
  intros (nd & part & hg & seed & omp_max & team & HI & _). split; [apply (hi_R _ _ _ _ _ HI)|]. intros u Hu. pose proof (hi_r _ _ _ _ _ HI) as F. rewrite Forall_forall in F. apply F. now apply nth_In.
Qed.

(** the points of the first input are rotated (by t) or mirrored (s = -1) copies of the points p 0, p 1, ... of the second input *)
Definition copies (p : nat -> nat) (s t : R) (radii angles radii' angles' : list R) : Prop :=
  (s = 1 \/ s = -1)%R /\
  (forall u v, u < length radii -> v < length radii -> p u = p v -> u = v) /\
  forall u, u < length radii -> p u < length radii' /\ nth (p u) radii' 0%R = nth u radii 0%R /\ exists k : Z, (nth (p u) angles' 0 = s * nth u angles 0 + t + 2 * PI * IZR k)%R.
Lemma cos_period_Z x (k : Z) : (cos (x + 2 * PI * IZR k) = cos x)%R.
Proof.
  destruct k as [|k|k].
  - f_equal. lra.
  - replace (IZR (Z.pos k)) with (INR (Pos.to_nat k)) by (rewrite INR_IZR_INZ, positive_nat_Z; reflexivity). replace (2 * PI * INR (Pos.to_nat k))%R with (2 * INR (Pos.to_nat k) * PI)%R by ring. apply cos_period.
  - replace (IZR (Z.neg k)) with (- INR (Pos.to_nat k))%R by (rewrite INR_IZR_INZ, positive_nat_Z; change (Z.neg k) with (- Z.pos k)%Z; now rewrite opp_IZR).
    set (y := (x + 2 * PI * - INR (Pos.to_nat k))%R). replace x with (y + 2 * INR (Pos.to_nat k) * PI)%R by (unfold y; ring). symmetry. apply cos_period.
Qed.
(** the graph on the copies is the subgraph induced by the originals: with p a bijection, the graphs are isomorphic; with s = 1, t = 0 the graph on some of the
    points is the induced subgraph *)
Theorem C69_copies : forall radii angles radii' angles' Rd p s t es es', copies p s t radii angles radii' angles' ->
  generated radii angles Rd es -> generated radii' angles' Rd es' ->
  forall u v, u < length radii -> v < length radii -> u <> v -> (joined es u v <-> joined es' (p u) (p v)).
Proof.
  intros radii angles radii' angles' Rd p s t es es' (S & Inj & C) G G' u v Hu Hv Hne. destruct (gen_R _ _ _ _ G) as [HR _].
  destruct (C u Hu) as (Pu & Ru & k & Au). destruct (C v Hv) as (Pv & Rv & l & Av).
  rewrite (generated_edges _ _ _ _ G u v Hu Hv Hne), (generated_edges _ _ _ _ G' (p u) (p v) Pu Pv); [|intros E; apply Hne; now apply Inj].
  rewrite !near_iff by lra. rewrite Ru, Rv, Au, Av.
  replace (s * nth u angles 0 + t + 2 * PI * IZR k - (s * nth v angles 0 + t + 2 * PI * IZR l))%R with (s * (nth u angles 0 - nth v angles 0) + 2 * PI * IZR (k - l))%R by (rewrite minus_IZR; ring).
  rewrite cos_period_Z. destruct S as [->| ->]; [now rewrite Rmult_1_l|]. replace (-1 * (nth u angles 0 - nth v angles 0))%R with (- (nth u angles 0 - nth v angles 0))%R by ring. now rewrite cos_neg.
Qed.

(** a larger disc adds edges only *)
Theorem C69_larger_disc : forall radii angles Rd Rd' es es', (Rd <= Rd')%R -> generated radii angles Rd es -> generated radii angles Rd' es' ->
  forall u v, u < length radii -> v < length radii -> u <> v -> joined es u v -> joined es' u v.
Proof.
  intros radii angles Rd Rd' es es' HR G G' u v Hu Hv Hne. rewrite (generated_edges _ _ _ _ G u v Hu Hv Hne), (generated_edges _ _ _ _ G' u v Hu Hv Hne).
  intros (d & Hd & L). exists d. split; [exact Hd|lra].
Qed.

(** moving points towards the centre adds edges only *)
Lemma exp_convex r r' : (0 < r' <= r -> exp r' <= (1 - r' / r) + r' / r * exp r /\ exp (- r') <= (1 - r' / r) + r' / r * exp (- r))%R.
Proof.
  intros H. assert (L : (0 < r' / r <= 1)%R) by (split; [apply Rdiv_lt_0_compat; lra|]; apply Rmult_le_reg_r with r; [lra|]; unfold Rdiv; rewrite Rmult_assoc, Rinv_l; lra).
  assert (T : forall x y, (exp y * (1 + (x - y)) <= exp x)%R).
  { intros x y. replace (exp x) with (exp y * exp (x - y))%R by (rewrite <- exp_plus; f_equal; ring). apply Rmult_le_compat_l; [left; apply exp_pos|apply exp_ineq1_le]. }
  assert (E : (r' / r * r = r')%R) by (field; lra). set (l := (r' / r)%R) in *. split.
  - pose proof (T 0%R r') as T0. pose proof (T r r') as T1. rewrite exp_0 in T0. pose proof (exp_pos r') as P.
    assert ((1 - l) * (exp r' * (1 + (0 - r'))) + l * (exp r' * (1 + (r - r'))) = exp r' * (1 - r' + l * r))%R by ring. rewrite E in H0. nra.
  - pose proof (T 0%R (- r')%R) as T0. pose proof (T (- r)%R (- r')%R) as T1. rewrite exp_0 in T0. pose proof (exp_pos (- r')) as P.
    assert ((1 - l) * (exp (- r') * (1 + (0 - - r'))) + l * (exp (- r') * (1 + (- r - - r'))) = exp (- r') * (1 + r' - l * r))%R by ring. rewrite E in H0. nra.
Qed.
Lemma closer_near r r' phi r2 phi2 Rd : (0 < r' <= r -> 0 < r2 <= Rd -> near r phi r2 phi2 Rd -> near r' phi r2 phi2 Rd)%R.
Proof.
  intros H H2. rewrite !near_iff by lra. set (c := cos (phi - phi2)). assert (Hc : (-1 <= c <= 1)%R) by apply COS_bound. intros Hn.
  assert (B : forall x, (cosh x * cosh r2 - sinh x * sinh r2 * c = exp x * ((cosh r2 - sinh r2 * c) / 2) + exp (- x) * ((cosh r2 + sinh r2 * c) / 2))%R).
  { intros x. unfold cosh at 1, sinh at 1. field. }
  rewrite B in *. assert (S2 : (0 <= sinh r2 < cosh r2)%R).
  { unfold sinh, cosh. pose proof (exp_pos (- r2)). assert (exp (- r2) <= exp r2)%R by (left; apply exp_increasing; lra). lra. }
  set (a := ((cosh r2 - sinh r2 * c) / 2)%R) in *. set (b := ((cosh r2 + sinh r2 * c) / 2)%R) in *. assert (Ha : (0 <= a)%R) by (unfold a; nra). assert (Hb : (0 <= b)%R) by (unfold b; nra).
  assert (C2 : (a + b <= cosh Rd)%R). { replace (a + b)%R with (cosh r2) by (unfold a, b; field). destruct (Req_dec r2 Rd) as [->|N]; [lra|]. left. apply (proj1 (cosh_lt_iff r2 Rd ltac:(lra) ltac:(lra))). lra. }
  destruct (exp_convex r r' H) as [X1 X2]. assert (L : (0 < r' / r <= 1)%R) by (split; [apply Rdiv_lt_0_compat; lra|]; apply Rmult_le_reg_r with r; [lra|]; unfold Rdiv; rewrite Rmult_assoc, Rinv_l; lra).
  set (l := (r' / r)%R) in *.
  apply Rle_lt_trans with ((1 - l) * (a + b) + l * (exp r * a + exp (- r) * b))%R.
  - assert (exp r' * a <= (1 - l + l * exp r) * a)%R by (apply Rmult_le_compat_r; assumption). assert (exp (- r') * b <= (1 - l + l * exp (- r)) * b)%R by (apply Rmult_le_compat_r; assumption). lra.
  - assert ((1 - l) * (a + b) <= (1 - l) * cosh Rd)%R by (apply Rmult_le_compat_l; lra). assert (l * (exp r * a + exp (- r) * b) < l * cosh Rd)%R by (apply Rmult_lt_compat_l; lra). lra.
Qed.
Lemma near_sym r1 p1 r2 p2 Rd : near r1 p1 r2 p2 Rd -> near r2 p2 r1 p1 Rd.
Proof.
  intros (d & [H0 H1] & H). exists d. split; [|exact H]. split; [exact H0|]. rewrite H1. replace (p2 - p1)%R with (- (p1 - p2))%R by ring. rewrite cos_neg. ring.
Qed.
Theorem C69_towards_the_centre : forall radii radii' angles Rd es es', length radii' = length radii -> (forall u, u < length radii -> (nth u radii' 0 <= nth u radii 0)%R) ->
  generated radii angles Rd es -> generated radii' angles Rd es' ->
  forall u v, u < length radii -> v < length radii -> u <> v -> joined es u v -> joined es' u v.
Proof.
  intros radii radii' angles Rd es es' HL HD G G' u v Hu Hv Hne. destruct (gen_R _ _ _ _ G) as [_ B]. destruct (gen_R _ _ _ _ G') as [_ B'].
  rewrite (generated_edges _ _ _ _ G u v Hu Hv Hne), (generated_edges _ _ _ _ G' u v ltac:(lia) ltac:(lia) Hne). intros H.
  pose proof (B u Hu). pose proof (B v Hv). pose proof (B' u ltac:(lia)). pose proof (B' v ltac:(lia)). pose proof (HD u Hu). pose proof (HD v Hv).
  apply near_sym. apply (closer_near (nth v radii 0%R)); [lra|lra|]. apply near_sym. apply (closer_near (nth u radii 0%R)); [lra|lra|]. exact H.
Qed.
(** so of two points with the same angle, the one closer to the centre has every neighbour of the other one *)
Theorem C69_nested_neighbourhoods : forall radii angles Rd es u u', generated radii angles Rd es -> u < length radii -> u' < length radii ->
  nth u' angles 0%R = nth u angles 0%R -> (nth u' radii 0 <= nth u radii 0)%R ->
  forall v, v < length radii -> v <> u -> v <> u' -> joined es u v -> joined es u' v.
Proof.
  intros radii angles Rd es u u' G Hu Hu' HA HR v Hv N1 N2. destruct (gen_R _ _ _ _ G) as [_ B].
  rewrite (generated_edges _ _ _ _ G u v Hu Hv ltac:(congruence)), (generated_edges _ _ _ _ G u' v Hu' Hv ltac:(congruence)). rewrite HA.
  pose proof (B u Hu). pose proof (B u' Hu'). pose proof (B v Hv). apply closer_near; lra.
Qed.

(** ** Non-vacuity: graphs are generated for the points (1/2,0), (3,1), (6,3) in the disc of radius 6, and for a rotated and relabelled copy of the first two *)
Example ex_C69 : exists es es', generated [1/2; 3; 6]%R [0; 1; 3]%R 6 es /\ generated [3; 1/2]%R [2; 1]%R 6 es' /\
  copies (fun u => 1 - u) 1 (-1) [3; 1/2]%R [2; 1]%R [1/2; 3; 6]%R [0; 1; 3]%R /\ joined es' 0 1.
Proof.
  assert (One : (1 <= N.of_nat 1 <= 2 ^ 17)%N) by (split; apply N.leb_le; reflexivity).
  assert (HI : hrg_input [1/2; 3; 6]%R [0; 1; 3]%R 6 1 1) by (apply ex_hrg_input; [exact One|lia]).
  assert (HI' : hrg_input [3; 1/2]%R [2; 1]%R 6 1 1).
  { pose proof PI_RGT_0. pose proof PI2_3_2. constructor; try exact One; try lia; try reflexivity; try (cbn [length]; lia); try lra.
    - repeat constructor; lra.
    - unfold PI2 in *. repeat constructor; lra. }
  assert (C : copies (fun u => 1 - u) 1 (-1) [3; 1/2]%R [2; 1]%R [1/2; 3; 6]%R [0; 1; 3]%R).
  { split; [now left|]. split; [cbn [length]; intros; lia|]. cbn [length]. intros [|[|u]] Hu; [| |lia]; cbn [nth]; (split; [lia|]); (split; [reflexivity|]); exists 0%Z; cbn; lra. }
  destruct (C36_threshold_hrg_is_exact true ex_part ex_hrng _ _ _ 5 1 1 HI ex_rng_good ex_part_ok) as [E M]. destruct (E (or_introl eq_refl)) as [o Ho]. destruct (M o Ho) as (es & -> & _).
  destruct (C36_threshold_hrg_is_exact true ex_part ex_hrng _ _ _ 5 1 1 HI' ex_rng_good ex_part_ok) as [E' M']. destruct (E' (or_introl eq_refl)) as [o' Ho']. destruct (M' o' Ho') as (es' & -> & _).
  assert (G : generated [1/2; 3; 6]%R [0; 1; 3]%R 6 es) by (exists true, ex_part, ex_hrng, 5%Z, 1, 1; split; [exact HI|]; split; [exact ex_rng_good|]; split; [exact ex_part_ok|exact Ho]).
  assert (G' : generated [3; 1/2]%R [2; 1]%R 6 es') by (exists true, ex_part, ex_hrng, 5%Z, 1, 1; split; [exact HI'|]; split; [exact ex_rng_good|]; split; [exact ex_part_ok|exact Ho']).
  exists es, es'. split; [exact G|]. split; [exact G'|]. split; [exact C|].
  rewrite (generated_edges _ _ _ _ G' 0 1) by (cbn [length]; lia). cbn [nth]. rewrite near_iff by lra. (* r1 + r2 < R *)
  assert (Hc : (-1 <= cos (2 - 1))%R) by apply COS_bound. assert (Hs : (0 <= sinh 3 * sinh (1 / 2))%R). { assert (P : forall x, (0 < x -> 0 <= sinh x)%R) by (intros x Hx; unfold sinh; assert (exp (- x) < exp x)%R by (apply exp_increasing; lra); lra). apply Rmult_le_pos; apply P; lra. }
  apply Rle_lt_trans with (cosh 3 * cosh (1 / 2) + sinh 3 * sinh (1 / 2))%R; [nra|].
  replace (cosh 3 * cosh (1 / 2) + sinh 3 * sinh (1 / 2))%R with (cosh (3 + 1 / 2)) by (unfold cosh, sinh; rewrite Ropp_plus_distr, !exp_plus; field). apply (proj1 (cosh_lt_iff (3 + 1/2) 6 ltac:(lra) ltac:(lra))). lra.
Qed.

Print Assumptions C69_copies. Print Assumptions C69_larger_disc. Print Assumptions C69_towards_the_centre. Print Assumptions C69_nested_neighbourhoods.
