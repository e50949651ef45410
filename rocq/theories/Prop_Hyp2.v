(** Properties C40, C41, C42, C46, C49: geometry of the hyperbolic generator, in exact real arithmetic. *)
From Coq Require Import Arith NArith ZArith List Bool Reals Permutation Lia Lra.
From Flocq Require Import Core.
From Verif Require Import Base Sched Bits_Model Bits_Proofs Coord_Model Coord_Proofs Coord_Geo IntSort_Model IntSort_Proofs Prop_IntSort Prefix_Model Prop_Prefix
  Tree_Model Cover Tree_Proofs Tree_Build Tree_Plan Tree_Run Girg_Model Girg_Proofs Girg_Num Prop_Girg Hyp_Model Hyp_Math Hyp_Angle Hyp_Levels Hyp_Build Hyp_Run
  Hyp_Filter Hyp_Sched Hyp_Threads Hyp_Gen Prop_Hyp.
Import ListNotations.
Local Open Scope R_scope.

(** ** C49: the fast distance formulas *)
Theorem C49_distance_formulas : forall i j r1 a1 c1 r2 a2 c2 p q d Rd,
  0 < r1 -> 0 < r2 -> mk_point i r1 a1 c1 = Some p -> mk_point j r2 a2 c2 = Some q -> is_hyp_dist r1 a1 r2 a2 d -> 0 <= Rd ->
  (isDistanceBelowR p q (cosh Rd) = true <-> d < Rd) /\ distanceCosh p q = cosh d /\ hyp_distance r1 a1 r2 a2 = d.
Proof.
  intros i j r1 a1 c1 r2 a2 c2 p q d Rd H1 H2 E1 E2 Hd HR. pose proof (hyp_dist_unique _ _ _ _ _ Hd) as Ed. destruct Hd as [D0 D1].
  split; [|split].
  - rewrite (isDistanceBelowR_iff p q i j r1 a1 c1 r2 a2 c2 (cosh Rd) H1 H2 E1 E2). unfold hc. rewrite <- D1. split; intros H.
    + destruct (Rlt_le_dec d Rd) as [L|L]; [exact L|]. pose proof (cosh_le Rd d HR L). lra.
    + now apply cosh_lt.
  - rewrite (distanceCosh_eq p q i j r1 a1 c1 r2 a2 c2 H1 H2 E1 E2). now rewrite D1.
  - now symmetry.
Qed.
Theorem C49_distance_exists : forall r1 a1 r2 a2, exists! d, is_hyp_dist r1 a1 r2 a2 d.
Proof. intros. exists (hyp_distance r1 a1 r2 a2). split; [apply hyp_dist_exists|]. intros d Hd. symmetry. now apply hyp_dist_unique. Qed.
Theorem C49_distance_is_metric_like : forall r1 a1 r2 a2 d, 0 <= r1 -> 0 <= r2 -> is_hyp_dist r1 a1 r2 a2 d ->
  is_hyp_dist r2 a2 r1 a1 d /\ (r1 = r2 -> a1 = a2 -> d = 0) /\ Rabs (r1 - r2) <= d <= r1 + r2.
Proof.
  intros r1 a1 r2 a2 d H1 H2 [D0 D1]. split; [|split].
  - split; [exact D0|]. rewrite D1. replace (a2 - a1) with (- (a1 - a2)) by ring. rewrite cos_neg. ring.
  - intros -> ->. replace (a2 - a2) with 0 in D1 by ring. rewrite cos_0 in D1. pose proof (cosh_sqr r2). assert (cosh d = cosh 0) by (rewrite cosh_0; lra).
    destruct (Rle_lt_or_eq_dec 0 d D0) as [L|L]; [|now symmetry]. pose proof (cosh_lt 0 d ltac:(lra) L). lra.
  - pose proof (hc_lower r1 r2 (a1 - a2) H1 H2) as L. pose proof (hc_upper r1 r2 (a1 - a2) H1 H2) as U. unfold hc in L, U. rewrite <- D1 in L, U. split.
    + destruct (Rle_lt_dec (Rabs (r1 - r2)) d) as [G|G]; [exact G|]. pose proof (cosh_lt d _ D0 G) as C. rewrite cosh_Rabs in C. lra.
    + destruct (Rle_lt_dec d (r1 + r2)) as [G|G]; [exact G|]. pose proof (cosh_lt (r1 + r2) d ltac:(lra) G) as C. lra.
Qed.
Example ex_C49 : exists p q, mk_point 0 (1 / 2) 0 0 = Some p /\ mk_point 1 3 2 5 = Some q /\ distanceCosh p q = cosh (1 / 2) * cosh 3 - sinh (1 / 2) * sinh 3 * cos (0 - 2).
Proof.
  unfold mk_point. destruct (Req_EM_T (1 / 2) 0); [lra|]. destruct (Req_EM_T 3 0); [lra|]. eexists. eexists. split; [reflexivity|]. split; [reflexivity|].
  eapply (distanceCosh_eq _ _ 0 1 (1 / 2) 0 0 3 2 5); try lra; unfold mk_point; [destruct (Req_EM_T (1 / 2) 0); [lra|]|destruct (Req_EM_T 3 0); [lra|]]; reflexivity.
Qed.

(** ** C46: angular cells *)
(** the cells of a level are numbered 2^l - 1 .. 2^(l+1) - 2 *)
Definition cell_of_level (l A : N) : Prop := (2 ^ l - 1 <= A < 2 ^ (l + 1) - 1)%N.
(** distance of two angles on the circle *)
Definition angular_dist (a b : R) : R := Rmin (Rabs (a - b)) (2 * PI - Rabs (a - b)).

Lemma hbounds_eq l A : (l < 31)%N -> in_lv l A ->
  hbounds A l = Some (IZR (Z.of_N (A - hfc l)) * wid l, (IZR (Z.of_N (A - hfc l)) + 1) * wid l).
Proof.
  intros Hl HA. unfold hbounds. rewrite shl_i32 by exact Hl. cbn [obind]. rewrite firstCell_Some by lia. cbn [obind].
  destruct (N.ltb_spec A (hfc l)); [destruct HA; lia|]. reflexivity.
Qed.
Lemma wid_total l : IZR (Z.of_N (2 ^ l)) * wid l = 2 * PI.
Proof. unfold wid, pow2R. pose proof (pow2R_pos l) as P. unfold pow2R in P. field. lra. Qed.
Lemma wid_succ l : wid (l + 1) = wid l / 2.
Proof. unfold wid. rewrite pow2R_add, pow2R_1. pose proof (pow2R_pos l). field. lra. Qed.
(** a point lies in the bounds of its cell, and in no other cell of the level *)
Theorem C46_point_in_cell : forall l phi, (l < 31)%N -> 0 <= phi < 2 * PI ->
  exists k first, hcellForPoint phi l = Some k /\ (k < 2 ^ l)%N /\ firstCell l = Some first /\
    forall A, cell_of_level l A -> exists lo hi, hbounds A l = Some (lo, hi) /\ 0 <= lo < hi /\ hi <= 2 * PI /\ (lo <= phi < hi <-> A = (first + k)%N).
Proof.
  intros l phi Hl Hp. exists (hidx l phi), (hfc l). split; [apply hcellForPoint_eq; [exact Hp|lia]|]. split; [now apply hidx_lt|].
  split; [apply firstCell_Some; lia|]. intros A HA. do 2 eexists. split; [apply hbounds_eq; [exact Hl|exact HA]|].
  pose proof (wid_pos l) as W. pose proof (wid_total l) as WT. destruct HA as [A1 A2].
  assert (K : (0 <= IZR (Z.of_N (A - hfc l)) /\ IZR (Z.of_N (A - hfc l)) + 1 <= IZR (Z.of_N (2 ^ l)))%R).
  { split; [apply IZR_le; lia|]. rewrite <- plus_IZR. apply IZR_le. rewrite N.pow_add_r in A2. change (2 ^ 1)%N with 2%N in A2. unfold hfc. pose proof (pow2_pos l). lia. }
  split; [split; [apply Rmult_le_pos; lra|apply Rmult_lt_compat_r; lra]|]. split; [rewrite <- WT; apply Rmult_le_compat_r; lra|]. split.
  - intros H. rewrite (hidx_unique l phi (A - hfc l) Hp H). unfold hfc. lia.
  - intros ->. replace (hfc l + hidx l phi - hfc l)%N with (hidx l phi) by lia. now apply hidx_bounds.
Qed.
(** cells nest: the children split the cell, and parent undoes it *)
Theorem C46_cells_nest : forall l A, (l < 30)%N -> cell_of_level l A ->
  exists lo hi, hbounds A l = Some (lo, hi) /\
    cell_of_level (l + 1) (hfirstChild A) /\ cell_of_level (l + 1) (hsecondChild A) /\
    hbounds (hfirstChild A) (l + 1) = Some (lo, (lo + hi) / 2) /\ hbounds (hsecondChild A) (l + 1) = Some ((lo + hi) / 2, hi) /\
    hparent (hfirstChild A) = A /\ hparent (hsecondChild A) = A.
Proof.
  intros l A Hl HA. destruct (hfirstChild_eq l A ltac:(lia) HA) as (E1 & _ & E2). rewrite E1, E2.
  pose proof (in_lv_lt l A ltac:(lia) HA) as HB. change (2 ^ 31)%N with 2147483648%N in HB.
  assert (L1 : in_lv (l + 1) (2 * A + 1)) by (apply (hkids_in_lv l A); [exact HA|left; reflexivity]).
  assert (L2 : in_lv (l + 1) (2 * A + 2)) by (apply (hkids_in_lv l A); [exact HA|right; left; reflexivity]).
  do 2 eexists. split; [apply hbounds_eq; [lia|exact HA]|]. split; [exact L1|]. split; [exact L2|].
  rewrite !hbounds_eq by (try assumption; lia). rewrite wid_succ.
  assert (F : hfc (l + 1) = (2 * hfc l + 1)%N) by (unfold hfc; rewrite N.pow_add_r; change (2 ^ 1)%N with 2%N; pose proof (pow2_pos l); lia).
  destruct HA as [A1 A2]. fold (hfc l) in A1. rewrite F.
  replace (2 * A + 1 - (2 * hfc l + 1))%N with (2 * (A - hfc l))%N by lia. replace (2 * A + 2 - (2 * hfc l + 1))%N with (2 * (A - hfc l) + 1)%N by lia.
  set (k := (A - hfc l)%N). rewrite N2Z.inj_add, !N2Z.inj_mul, plus_IZR, !mult_IZR. change (IZR (Z.of_N 2)) with 2. change (IZR (Z.of_N 1)) with 1.
  split; [f_equal; f_equal; field|]. split; [f_equal; f_equal; field|].
  assert (PP : forall c, (1 <= c < 2 ^ 32)%N -> hparent c = ((c - 1) / 2)%N).
  { intros c Hc. unfold hparent. f_equal. unfold w32. rewrite N.land_ones. replace (c + (2 ^ 32 - 1))%N with (c - 1 + 1 * 2 ^ 32)%N by (change (2 ^ 32)%N with 4294967296%N in *; lia).
    rewrite N.mod_add by (intros H; discriminate). apply N.mod_small. lia. }
  rewrite !PP by (change (2 ^ 32)%N with 4294967296%N; lia). split.
  - replace (2 * A + 1 - 1)%N with (A * 2)%N by lia. apply N.div_mul. lia.
  - replace (2 * A + 2 - 1)%N with (1 + A * 2)%N by lia. rewrite N.div_add by lia. reflexivity.
Qed.
(** touching: the closed cells meet on the circle *)
Lemma touch_arith (p i j : Z) (x y w P : R) (k : Z) : (0 <= i < p)%Z -> (0 <= j < p)%Z -> 0 < w -> IZR p * w = 2 * P ->
  IZR i * w <= x <= (IZR i + 1) * w -> IZR j * w <= y <= (IZR j + 1) * w -> x - y = 2 * P * IZR k ->
  (Z.abs (i - j) <= 1 \/ p - Z.abs (i - j) <= 1)%Z.
Proof.
  intros Hi Hj Hw HP Hx Hy H. rewrite <- HP in H.
  assert (B1 : (i - j - 1 <= p * k)%Z).
  { apply le_IZR. rewrite !minus_IZR, mult_IZR. apply Rmult_le_reg_r with w; [exact Hw|]. nra. }
  assert (B2 : (p * k <= i - j + 1)%Z).
  { apply le_IZR. rewrite !plus_IZR, minus_IZR, mult_IZR. apply Rmult_le_reg_r with w; [exact Hw|]. nra. }
  assert (k = 0 \/ k = 1 \/ k = -1 \/ 2 <= k \/ k <= -2)%Z as [->|[->|[->|[K|K]]]] by lia; try lia; nia.
Qed.
Theorem C46_touching : forall l A B, (l < 31)%N -> cell_of_level l A -> cell_of_level l B ->
  exists loA hiA loB hiB b, hbounds A l = Some (loA, hiA) /\ hbounds B l = Some (loB, hiB) /\ htouching A B l = Some b /\ htouching B A l = Some b /\
    (b = true <-> exists x y k, loA <= x <= hiA /\ loB <= y <= hiB /\ x - y = 2 * PI * IZR k).
Proof.
  intros l A B Hl HA HB. do 5 eexists. split; [apply hbounds_eq; [exact Hl|exact HA]|]. split; [apply hbounds_eq; [exact Hl|exact HB]|].
  split; [apply htouching_eq; [lia|exact HA|exact HB]|]. split; [rewrite ring_sym; apply htouching_eq; [lia|exact HB|exact HA]|].
  pose proof (wid_pos l) as W. pose proof (wid_total l) as WT. set (i := (A - hfc l)%N). set (j := (B - hfc l)%N).
  destruct HA as [A1 A2], HB as [B1 B2]. fold (hfc l) in A1, B1. fold (hfc (l + 1)) in A2, B2. rewrite hfc_succ in A2, B2.
  rewrite N.leb_le. unfold ring, cell_diff. split.
  - intros H. assert (C : (i = j \/ i = j + 1 \/ j = i + 1 \/ (i + 1 = 2 ^ l /\ j = 0) \/ (j + 1 = 2 ^ l /\ i = 0))%N) by lia.
    destruct C as [C|[C|[C|[[C1 C2]|[C1 C2]]]]].
    + exists (IZR (Z.of_N i) * wid l), (IZR (Z.of_N j) * wid l), 0%Z. rewrite C. lra.
    + exists (IZR (Z.of_N i) * wid l), ((IZR (Z.of_N j) + 1) * wid l), 0%Z. rewrite C, N2Z.inj_add, plus_IZR. change (IZR (Z.of_N 1)) with 1. lra.
    + exists ((IZR (Z.of_N i) + 1) * wid l), (IZR (Z.of_N j) * wid l), 0%Z. rewrite C, N2Z.inj_add, plus_IZR. change (IZR (Z.of_N 1)) with 1. lra.
    + exists ((IZR (Z.of_N i) + 1) * wid l), (IZR (Z.of_N j) * wid l), 1%Z. rewrite <- WT, <- C1, C2, N2Z.inj_add, plus_IZR. change (IZR (Z.of_N 1)) with 1. change (IZR (Z.of_N 0)) with 0. lra.
    + exists (IZR (Z.of_N i) * wid l), ((IZR (Z.of_N j) + 1) * wid l), (-1)%Z. rewrite <- WT, <- C1, C2, N2Z.inj_add, plus_IZR. change (IZR (Z.of_N 1)) with 1. change (IZR (Z.of_N 0)) with 0. lra.
  - intros (x & y & k & Hx & Hy & H). destruct (touch_arith (Z.of_N (2 ^ l)) (Z.of_N i) (Z.of_N j) x y (wid l) PI k) as [C|C]; auto; lia.
Qed.
(** dist is the distance of the cells on the circle: a lower bound for their points, attained on the closed cells *)
Theorem C46_dist : forall l A B, (l < 31)%N -> cell_of_level l A -> cell_of_level l B ->
  exists loA hiA loB hiB d, hbounds A l = Some (loA, hiA) /\ hbounds B l = Some (loB, hiB) /\ hdist A B l = Some d /\
    (forall x y, loA <= x < hiA -> loB <= y < hiB -> d <= angular_dist x y) /\
    (exists x y, loA <= x <= hiA /\ loB <= y <= hiB /\ angular_dist x y = d).
Proof.
  intros l A B Hl HA HB. do 5 eexists. split; [apply hbounds_eq; [exact Hl|exact HA]|]. split; [apply hbounds_eq; [exact Hl|exact HB]|].
  split; [apply hdist_eq; [exact Hl|exact HA|exact HB]|]. pose proof (wid_pos l) as W. pose proof (wid_total l) as WT.
  pose proof HA as [A1 A2]. pose proof HB as [B1 B2]. fold (hfc l) in A1, B1. fold (hfc (l + 1)) in A2, B2. rewrite hfc_succ in A2, B2. split.
  - intros x y Hx Hy.
    assert (K : forall C z, (hfc l <= C < hfc l + 2 ^ l)%N -> IZR (Z.of_N (C - hfc l)) * wid l <= z < (IZR (Z.of_N (C - hfc l)) + 1) * wid l -> ang z /\ hcel l z = C).
    { intros C z HC Hz. assert (0 <= IZR (Z.of_N (C - hfc l))) by (apply IZR_le; lia).
      assert (IZR (Z.of_N (C - hfc l)) + 1 <= IZR (Z.of_N (2 ^ l))) by (rewrite <- plus_IZR; apply IZR_le; lia).
      assert (HZ : ang z).
      { split; [apply Rle_trans with (2 := proj1 Hz); apply Rmult_le_pos; lra|]. apply Rlt_le_trans with (1 := proj2 Hz). rewrite <- WT. apply Rmult_le_compat_r; lra. }
      split; [exact HZ|]. unfold hcel. rewrite (hidx_unique l z (C - hfc l) HZ Hz). lia. }
    destruct (K A x (conj A1 A2) Hx) as [X1 X2]. destruct (K B y (conj B1 B2) Hy) as [Y1 Y2].
    pose proof (circ_lower l x y X1 Y1) as L. rewrite X2, Y2 in L. change (angular_dist x y) with (circ x y).
    destruct (N.eq_dec (ring l A B) 0) as [Z0|Z0].
    + rewrite Z0. change (IZR (Z.of_N (0 - 1))) with 0. rewrite Rmult_0_l. apply (circ_bounds x y X1 Y1).
    + replace (Z.of_N (ring l A B - 1)) with (Z.of_N (ring l A B) - 1)%Z by lia. exact L.
  - set (i := (A - hfc l)%N). set (j := (B - hfc l)%N). pose proof PI_RGT_0 as P0.
    assert (Si : cell_diff A B = (N.max i j - N.min i j)%N) by (unfold cell_diff, i, j; lia).
    unfold ring. rewrite Si. assert (Li : (i < 2 ^ l)%N) by (unfold i; lia). assert (Lj : (j < 2 ^ l)%N) by (unfold j; lia). clearbody i j. clear - W WT Li Lj P0.
    assert (AD : forall x y, angular_dist x y = angular_dist y x) by (intros; unfold angular_dist; now rewrite Rabs_minus_sym).
    assert (MAIN : forall i j, (i < 2 ^ l)%N -> (j < 2 ^ l)%N -> (i <= j)%N -> exists x y,
       IZR (Z.of_N i) * wid l <= x <= (IZR (Z.of_N i) + 1) * wid l /\ IZR (Z.of_N j) * wid l <= y <= (IZR (Z.of_N j) + 1) * wid l /\
       angular_dist x y = IZR (Z.of_N (N.min (j - i) (2 ^ l - (j - i)) - 1)) * wid l).
    { clear i j Li Lj. intros i j Li Lj H. set (p := (2 ^ l)%N) in *. set (D := (j - i)%N). unfold angular_dist. rewrite <- WT.
      destruct (N.eq_dec D 0) as [D0|D0].
      { exists (IZR (Z.of_N i) * wid l), (IZR (Z.of_N j) * wid l). replace j with i by lia.
        split; [lra|]. split; [lra|]. replace (IZR (Z.of_N i) * wid l - IZR (Z.of_N i) * wid l) with 0 by ring. rewrite Rabs_R0. rewrite D0. replace (N.min 0 (p - 0) - 1)%N with 0%N by lia. change (IZR (Z.of_N 0)) with 0.
        assert (0 <= IZR (Z.of_N p) * wid l) by (apply Rmult_le_pos; [apply IZR_le; lia|lra]). rewrite Rmin_left by lra. lra. }
      assert (Ej : IZR (Z.of_N j) = IZR (Z.of_N i) + IZR (Z.of_N D)) by (rewrite <- plus_IZR; f_equal; lia).
      assert (D1 : 1 <= IZR (Z.of_N D)) by (apply IZR_le; lia). assert (D2 : IZR (Z.of_N D) + 1 <= IZR (Z.of_N p)) by (rewrite <- plus_IZR; apply IZR_le; lia).
      destruct (N.le_gt_cases D (p - D)) as [C|C].
      - exists ((IZR (Z.of_N i) + 1) * wid l), (IZR (Z.of_N j) * wid l). split; [lra|]. split; [lra|].
        replace (N.min D (p - D) - 1)%N with (D - 1)%N by lia. rewrite N2Z.inj_sub, minus_IZR by lia. change (IZR (Z.of_N 1)) with 1.
        rewrite Rabs_minus_sym, Ej. assert (C' : IZR (Z.of_N D) + IZR (Z.of_N D) <= IZR (Z.of_N p)) by (rewrite <- plus_IZR; apply IZR_le; lia).
        rewrite Rabs_pos_eq by nra. rewrite Rmin_left by nra. ring.
      - exists (IZR (Z.of_N i) * wid l), ((IZR (Z.of_N j) + 1) * wid l). split; [lra|]. split; [lra|].
        replace (N.min D (p - D) - 1)%N with (p - D - 1)%N by lia. rewrite !N2Z.inj_sub, !minus_IZR by lia. change (IZR (Z.of_N 1)) with 1.
        rewrite Rabs_minus_sym, Ej. assert (C' : IZR (Z.of_N p) <= IZR (Z.of_N D) + IZR (Z.of_N D)) by (rewrite <- plus_IZR; apply IZR_le; lia).
        rewrite Rabs_pos_eq by nra. rewrite Rmin_right by nra. ring. }
    destruct (N.le_gt_cases i j) as [C|C].
    + replace (N.max i j - N.min i j)%N with (j - i)%N by lia. exact (MAIN i j Li Lj C).
    + replace (N.max i j - N.min i j)%N with (i - j)%N by lia. destruct (MAIN j i Lj Li ltac:(lia)) as (x & y & H1 & H2 & H3). exists y, x. rewrite AD. auto.
Qed.
Example ex_C46 : cell_of_level 3 9 /\ cell_of_level 3 14 /\ htouching 9 14 3 = Some false /\ htouching 7 14 3 = Some true /\ cellsBetween 9 14 3 = Some 2%N.
Proof. unfold cell_of_level. cbn. repeat split; try reflexivity; lia. Qed.

(** ** C40: the envelope *)
Lemma layer_of u radii Rd i : Rd - INR i - 1 < nth u radii 0 <= Rd - INR i -> hlay radii Rd u = i.
Proof.
  intros H. unfold hlay, rad. rewrite (Zfloor_imp (Z.of_nat i)); [lia|]. rewrite plus_IZR, <- INR_IZR_INZ. lra.
Qed.
Lemma cell_of_bounds l A lo hi x : (l < 31)%N -> cell_of_level l A -> hbounds A l = Some (lo, hi) -> lo <= x < hi -> 0 <= x < 2 * PI -> hcel l x = A.
Proof.
  intros Hl HA HB Hx Ha. rewrite (hbounds_eq l A Hl HA) in HB. injection HB as <- <-. unfold hcel. rewrite (hidx_unique l x (A - hfc l) Ha Hx).
  destruct HA as [A1 _]. fold (hfc l) in A1. lia.
Qed.
Section Envelope.
  Variables (radii angles : list R) (T Rd : R) (omp_max team : nat).
  Hypothesis HI : hrg_input radii angles Rd omp_max team.
  Lemma tree_spec t : htree_outcome radii angles T Rd omp_max (Some t) -> exists ord, htree_spec radii angles T Rd t ord.
  Proof.
    intros H. destruct (omp_nat _ (hi_omp _ _ _ _ _ HI)) as [O1 O2].
    destruct (hbuild_ok radii angles T Rd (use_di HI) omp_max ltac:(lia)) as (t' & ord & TS & _ & U). exists ord.
    specialize (U _ H). injection U as ->. exact TS.
  Qed.
  (** Points u, v of radius layers i, j in non-touching cells A, B of a level not deeper than the comparison level of the layers: the connection
      probability of the pair is at most the precomputed maximum used for skipping *)
  Theorem C40_envelope : forall t i j l A B loA hiA loB hiB u v, 0 < T ->
    htree_outcome radii angles T Rd omp_max (Some t) -> (i < h_layers t)%nat -> (j < h_layers t)%nat -> (l <= h_base t i j)%N ->
    cell_of_level l A -> cell_of_level l B -> htouching A B l = Some false ->
    hbounds A l = Some (loA, hiA) -> hbounds B l = Some (loB, hiB) ->
    (u < length radii)%nat -> (v < length radii)%nat ->
    Rd - INR i - 1 < nth u radii 0 <= Rd - INR i -> loA <= nth u angles 0 < hiA ->
    Rd - INR j - 1 < nth v radii 0 <= Rd - INR j -> loB <= nth v angles 0 < hiB ->
    exists f1 f2 k d, lookup_filters t i j l = Some (f1, f2) /\ cellsBetween A B l = Some k /\ (1 <= k)%N /\
      is_hyp_dist (nth u radii 0) (nth u angles 0) (nth v radii 0) (nth v angles 0) d /\
      1 / (1 + exp ((d - Rd) / (2 * T))) <= f_max (if (k =? 1)%N then f1 else f2).
  Proof.
    intros t i j l A B loA hiA loB hiB u v HT Ht Hi Hj Hl HA HB Htc EA EB Hu Hv Ru Pu Rv Pv.
    destruct (tree_spec t Ht) as (ord & TS). pose proof (use_di HI) as DI.
    destruct (hbase_ok radii angles T Rd DI t ord TS i j Hi Hj) as (B1 & _ & B3 & B4). rewrite B4 in Hl.
    pose proof (hlevel_bound radii angles T Rd DI t ord TS l ltac:(lia)) as L30.
    assert (OK : hcall_ok Rd t (CallII A B l i j)) by (repeat split; assumption || apply HA || apply HB).
    destruct (nontouch_ring radii angles T Rd DI t ord TS A B l i j OK) as (Hr & Hl2 & _).
    exists {| f_max := 1 / connectionProbRec T Rd (hyp_distance (rmin Rd i) 0 (rmin Rd j) (IZR (Z.of_N (ring l (hfc l) (hfc l + 2) - 1)) * wid l)); f_R := Rd; f_T := T |},
          {| f_max := 1 / connectionProbRec T Rd (hyp_distance (rmin Rd i) 0 (rmin Rd j) (IZR (Z.of_N (ring l (hfc l) (hfc l + 3) - 1)) * wid l)); f_R := Rd; f_T := T |},
          (ring l A B - 1)%N, (hyp_distance (nth u radii 0) (nth u angles 0) (nth v radii 0) (nth v angles 0)).
    assert (LK : lookup_filters t i j l = typeII_filters T Rd i j l).
    { unfold lookup_filters. rewrite B4, (proj2 (N.leb_le 2 l) (proj1 Hl2)), (proj2 (N.leb_le l _) Hl), (hs_T _ _ _ _ _ _ TS), (hs_R _ _ _ _ _ _ TS). reflexivity. }
    rewrite (typeII_filters_eq T Rd i j l Hl2) in LK.
    assert (CB : cellsBetween A B l = Some (ring l A B - 1)%N) by (apply cellsBetween_eq; [lia|exact HA|exact HB]).
    split; [exact LK|]. split; [exact CB|]. split; [lia|]. split; [apply hyp_dist_exists|]. rewrite <- rec_eq by lra.
    apply (envelope_bound radii angles T Rd DI t ord TS A B l i j u v _ _ _ HT OK); [| |exact LK|exact CB]; apply (hV_In radii angles T Rd t ord TS).
    - split; [exact Hu|]. split; [now apply layer_of|]. apply (cell_of_bounds l A loA hiA); [lia|exact HA|exact EA|exact Pu|]. now apply (phi_ok radii angles Rd DI).
    - split; [exact Hv|]. split; [now apply layer_of|]. apply (cell_of_bounds l B loB hiB); [lia|exact HB|exact EB|exact Pv|]. now apply (phi_ok radii angles Rd DI).
  Qed.
End Envelope.

(** ** C41: the distance filter *)
(** all-pairs sampling (sampleTypeI): a draw in [0,1) is decided as by the exact probability when R >= 2 T ln 99 *)
Theorem C41_type_one : forall t i j r1 a1 c1 r2 a2 c2 p q d x, 0 < h_T t -> 2 * h_T t * ln 99 <= h_R t ->
  0 < r1 -> 0 < r2 -> mk_point i r1 a1 c1 = Some p -> mk_point j r2 a2 c2 = Some q -> is_hyp_dist r1 a1 r2 a2 d -> 0 <= x < 1 ->
  exists b, filter_decide (typeI_filter t) (h_T t) (h_R t) p q x = Some b /\ (b = true <-> x * (1 + exp ((d - h_R t) / (2 * h_T t))) < 1).
Proof.
  intros t i j r1 a1 c1 r2 a2 c2 p q d x HT HR H1 H2 E1 E2 Hd Hx. eexists. split.
  - apply filter_exact; try reflexivity; cbn [f_max typeI_filter]; try lra; [apply distanceCosh_ge_1|now apply last_stage_typeI].
  - rewrite Rltb_true. rewrite (distanceCosh_eq p q i j r1 a1 c1 r2 a2 c2 H1 H2 E1 E2). destruct Hd as [D0 D1].
    unfold hc. rewrite <- D1, acosh_cosh by exact D0. reflexivity.
Qed.
(** skipping (sampleTypeII): the draw is uniform below the envelope, which is at most 1/5 there; exact for every R *)
Theorem C41_type_two : forall F T Rd i j r1 a1 c1 r2 a2 c2 p q d x, 0 < T -> 0 < Rd -> f_R F = Rd -> f_T F = T -> 0 < f_max F <= 1 / 5 ->
  0 < r1 -> 0 < r2 -> mk_point i r1 a1 c1 = Some p -> mk_point j r2 a2 c2 = Some q -> is_hyp_dist r1 a1 r2 a2 d -> 0 <= x < f_max F ->
  exists b, filter_decide F T Rd p q x = Some b /\ (b = true <-> x * (1 + exp ((d - Rd) / (2 * T))) < 1).
Proof.
  intros F T Rd i j r1 a1 c1 r2 a2 c2 p q d x HT HR EF1 EF2 HM H1 H2 E1 E2 Hd Hx. eexists. split.
  - apply filter_exact; try assumption; try lra; [apply distanceCosh_ge_1|now apply last_stage_typeII].
  - rewrite Rltb_true. rewrite (distanceCosh_eq p q i j r1 a1 c1 r2 a2 c2 H1 H2 E1 E2). destruct Hd as [D0 D1].
    unfold hc. rewrite <- D1, acosh_cosh by exact D0. reflexivity.
Qed.
(** below that radius the filter is wrong: with R = 4 and T = 9/10 two points at distance 1 are connected for the draw 0.98 although their
    connection probability is smaller *)
Theorem C41_small_radius_refuted : exists p q, mk_point 0 (1 / 2) 0 0 = Some p /\ mk_point 1 (1 / 2) PI 0 = Some q /\
  is_hyp_dist (1 / 2) 0 (1 / 2) PI 1 /\ 1 / (1 + exp ((1 - 4) / (2 * (9 / 10)))) < 98 / 100 /\
  filter_decide {| f_max := 1; f_R := 4; f_T := 9 / 10 |} (9 / 10) 4 p q (98 / 100) = Some true.
Proof.
  assert (Np : exists p, mk_point 0 (1 / 2) 0 0 = Some p) by (unfold mk_point; destruct (Req_EM_T (1 / 2) 0); [lra|eauto]).
  assert (Nq : exists q, mk_point 1 (1 / 2) PI 0 = Some q) by (unfold mk_point; destruct (Req_EM_T (1 / 2) 0); [lra|eauto]).
  destruct Np as (p & Ep). destruct Nq as (q & Eq). exists p, q. split; [exact Ep|]. split; [exact Eq|].
  assert (C1 : hc (1 / 2) (1 / 2) (0 - PI) = cosh 1).
  { unfold hc. replace (0 - PI) with (- PI) by ring. rewrite cos_neg, cos_PI. pose proof (cosh_plus (1 / 2) (1 / 2)) as E. replace (1 / 2 + 1 / 2) with 1 in E by field. rewrite E. ring. }
  assert (Hd : is_hyp_dist (1 / 2) 0 (1 / 2) PI 1) by (split; [lra|]; rewrite <- C1; unfold hc; ring). split; [exact Hd|].
  pose proof e_bounds as [EL EU].
  assert (X : 1 / 16 < exp ((1 - 4) / (2 * (9 / 10)))).
  { apply Rlt_trans with (exp (Ropp 2)); [|apply exp_increasing; lra]. rewrite exp_Ropp. replace 2 with (1 + 1) by ring. rewrite exp_plus.
    unfold Rdiv. rewrite Rmult_1_l. apply Rinv_lt_contravar; nra. }
  split.
  { apply Rmult_lt_reg_r with (1 + exp ((1 - 4) / (2 * (9 / 10)))); [lra|]. unfold Rdiv at 1. rewrite Rmult_1_l, Rinv_l by lra. lra. }
  unfold filter_decide. rewrite (distanceCosh_eq p q 0 1 (1 / 2) 0 0 (1 / 2) PI 0 ltac:(lra) ltac:(lra) Ep Eq), C1.
  assert (I1 : Zfloor 98 = 98%Z) by (apply (Zfloor_IZR 98)). assert (I2 : Zceil 98 = 98%Z) by (apply (Zceil_IZR 98)).
  assert (S98 : filter_stage {| f_max := 1; f_R := 4; f_T := 9 / 10 |} 98 = Some (XFin (cosh (4 + 2 * (9 / 10) * ln (1 / (1 / 100 * 98) - 1))))) by reflexivity.
  assert (G : cosh 1 < cosh (4 + 2 * (9 / 10) * ln (1 / (1 / 100 * 98) - 1))).
  { replace (1 / (1 / 100 * 98) - 1) with (/ 49) by field. rewrite ln_Rinv by lra.
    assert (L : 3 < ln 49).
    { rewrite <- (ln_exp 3). apply ln_increasing; [apply exp_pos|]. replace 3 with (1 + (1 + 1)) by ring. rewrite !exp_plus.
      assert (exp 1 * exp 1 < 75 / 10) by nra. nra. }
    rewrite <- (cosh_opp (4 + _)). apply cosh_lt; lra. }
  unfold filter_upper, filter_lower. cbn [f_max]. replace (100 / 1 * (98 / 100)) with 98 by field. rewrite I2.
  rewrite double_to_int_small by lra. rewrite I1. cbn [obind]. rewrite S98. cbn [obind].
  destruct (Rltb _ (cosh 1)) eqn:E; [apply Rltb_true in E; lra|]. cbn [xlt]. rewrite (proj2 (Rltb_true _ _) G). reflexivity.
Qed.

(** ** C42: radial layers and levels *)
Theorem C42_layers : forall radii angles Rd omp_max team, hrg_input radii angles Rd omp_max team ->
  exists m levels firsts M, num_layers0 Rd = Some (N.of_nat m) /\ level_of_layer Rd m = Some levels /\ hfirst_cells levels = Some (firsts, M) /\
    length levels = m /\ length firsts = m /\ (M < 2 ^ 31)%N /\
    (* every radius has a layer containing it *)
    (forall r, 0 < r <= Rd -> exists i, radius_to_layer Rd r = Some (N.of_nat i) /\ (i < m)%nat /\ Rd - INR i - 1 < r <= Rd - INR i) /\
    (* layer i owns the cells [first i, first i + 2^level i), inner layers first, without gaps up to M *)
    (forall i li fi, nth_error levels i = Some li -> nth_error firsts i = Some fi ->
       (fi + 2 ^ li)%N = match i with O => M | S k => nth k firsts 0%N end) /\
    (* the levels at which layers are compared *)
    forall T t, htree_outcome radii angles T Rd omp_max (Some t) ->
      (h_layers t <= m)%nat /\
      (forall u i, (u < length radii)%nat -> radius_to_layer Rd (nth u radii 0) = Some (N.of_nat i) -> (i < h_layers t)%nat) /\
      forall i j, (i < h_layers t)%nat -> (j < h_layers t)%nat ->
        exists b li lj, pbl (Rd - INR i - 1) (Rd - INR j - 1) Rd = Some b /\ nth_error levels i = Some li /\ nth_error levels j = Some lj /\
          (b <= li)%N /\ (b <= lj)%N /\ (b < h_levels t)%N.
Proof.
  intros radii angles Rd omp_max team HI. pose proof (use_di HI) as DI. pose proof (di_R _ _ _ DI) as HR.
  destruct (hm_ceil radii angles Rd DI) as (Em & M1 & M2).
  exists (hm Rd), (map (lev Rd) (seq 0 (hm Rd))), (map (hfirst Rd) (seq 0 (hm Rd))), (HM Rd).
  assert (NT : forall {X} (f : nat -> X) i, (i < hm Rd)%nat -> nth_error (map f (seq 0 (hm Rd))) i = Some (f i)).
  { intros X f i Hi. apply (map_nth_error f i (seq 0 (hm Rd)) (nth_error_seq 0 (hm Rd) i Hi)). }
  assert (EN : num_layers0 Rd = Some (N.of_nat (hm Rd))).
  { unfold num_layers0, double_to_u32. rewrite rdiv1, Ztrunc_IZR, <- Em. destruct (_ && _)%Z eqn:E; [f_equal; lia|].
    exfalso. apply andb_false_iff in E as [E|E]; [apply Z.leb_gt in E; lia|apply Z.ltb_ge in E; lia]. }
  split; [exact EN|]. split; [apply (levels_eq radii angles Rd DI)|]. split; [apply (firsts_eq radii angles Rd DI)|].
  rewrite !map_length, !seq_length. split; [reflexivity|]. split; [reflexivity|].
  split; [pose proof (fsum_lt radii angles Rd DI (hm Rd) (le_n _)) as L; unfold HM; change (2 ^ 31)%N with 2147483648%N in *; lia|]. split; [|split].
  - intros r Hr. exists (Z.to_nat (Zfloor (Rd - r))).
    assert (F0 : (0 <= Zfloor (Rd - r))%Z) by (apply Zfloor_lub; lra).
    assert (F1 : (Zfloor (Rd - r) < Zceil Rd)%Z) by (apply lt_IZR; pose proof (Zfloor_lb (Rd - r)); pose proof (Zceil_ub Rd); lra).
    split; [|split; [lia|]].
    + unfold radius_to_layer, double_to_u32. rewrite rdiv1, Ztrunc_floor by lra.
      destruct (_ && _)%Z eqn:E; [f_equal; lia|]. exfalso. apply andb_false_iff in E as [E|E]; [apply Z.leb_gt in E; lia|apply Z.ltb_ge in E; lia].
    + rewrite INR_IZR_INZ, Z2Nat.id by exact F0. pose proof (Zfloor_lb (Rd - r)). pose proof (Zfloor_ub (Rd - r)). lra.
  - intros i li fi Hl Hf. assert (Hi : (i < hm Rd)%nat).
    { rewrite <- (seq_length (hm Rd) 0), <- (map_length (lev Rd)). apply nth_error_Some. congruence. }
    rewrite NT in Hl, Hf by exact Hi. injection Hl as <-. injection Hf as <-. rewrite <- (hfirst_next Rd i Hi). destruct i as [|k].
    + unfold HM. f_equal. lia.
    + symmetry. apply nth_error_nth. rewrite NT by lia. reflexivity.
  - intros T t Ht. destruct (tree_spec radii angles T Rd omp_max team HI t Ht) as (ord & TS). pose proof (hs_layers _ _ _ _ _ _ TS) as HL. split; [exact HL|]. split.
    + intros u i Hu E. destruct (hlay_spec radii angles Rd DI u Hu) as (E' & _). unfold rad in E'. rewrite E in E'. injection E' as E'. apply Nat2N.inj in E'. subst i.
      now apply (hs_lay _ _ _ _ _ _ TS).
    + intros i j Hi Hj. exists (base Rd i j), (lev Rd i), (lev Rd j).
      destruct (hbase_ok radii angles T Rd DI t ord TS i j Hi Hj) as (B1 & B2 & B3 & _).
      split; [|rewrite !NT by lia; repeat split; assumption].
      destruct (base_ok radii angles Rd DI t i j (hs_R _ _ _ _ _ _ TS) (hs_disc _ _ _ _ _ _ TS) HL Hi Hj) as (BP & _). rewrite (hs_R _ _ _ _ _ _ TS) in BP.
      replace (Rd - INR i - 1) with (rmin Rd i) by apply rmin_eq. replace (Rd - INR j - 1) with (rmin Rd j) by apply rmin_eq. exact BP.
Qed.
(** The restriction on thin discs is needed: with R = 1.01 and one point of radius 0.005 the second layer is compared with itself at level 1 of a
    tree with one level, an out-of-range access *)
Theorem C42_thin_disc_refuted : forall T omp_max, (1 <= N.of_nat omp_max <= 2 ^ 17)%N ->
  forall o, htree_outcome [1 / 200] [0] T (101 / 100) omp_max o <-> o = None.
Proof.
  intros T omp_max HO. destruct (omp_nat _ HO) as [O1 O2]. set (Rd := 101 / 100).
  assert (Z101 : Zceil (Rd / 1) = 2%Z) by (apply Zceil_imp; unfold Rd; cbn; lra).
  assert (EN : num_layers0 Rd = Some 2%N) by (unfold num_layers0, double_to_u32; rewrite Z101, Ztrunc_IZR; reflexivity).
  assert (EL : level_of_layer Rd 2 = Some [0; 0]%N).
  { unfold level_of_layer. cbn [seq omap]. unfold layer_rad_min. cbn [INR].
    rewrite pbl_0; [|unfold Rd; lra|apply Rabs_le; unfold Rd; lra]. cbn [obind].
    rewrite pbl_0; [|unfold Rd; lra|apply Rabs_le; unfold Rd; lra]. reflexivity. }
  assert (F1 : Zfloor ((Rd - 1 / 200) / 1) = 1%Z) by (apply Zfloor_imp; unfold Rd; cbn; lra).
  assert (RL : radius_to_layer Rd (1 / 200) = Some 1%N).
  { unfold radius_to_layer, double_to_u32. rewrite Ztrunc_floor by (unfold Rd; lra). rewrite F1. reflexivity. }
  set (p := {| pid := 0; pcell := 0; invsinh_r := 1 / sinh (1 / 200); coth_r := cosh (1 / 200) / sinh (1 / 200); cos_phi := cos 0; sin_phi := sin 0 |}).
  assert (A0 : ang 0) by (pose proof PI_RGT_0; split; lra).
  assert (HP : hclassify Rd [0; 0]%N [1; 0]%N (0%nat, (1 / 200, 0)) = Some p).
  { unfold hclassify. rewrite RL. cbn [obind]. change (N.to_nat 1) with 1%nat. cbn [nth_error obind]. rewrite hcellForPoint_eq by (try exact A0; lia). cbn [obind].
    pose proof (hidx_lt 0 0 A0) as L. change (2 ^ 0)%N with 1%N in L. replace (hidx 0 0) with 0%N by lia. unfold mk_point. destruct (Req_EM_T (1 / 200) 0); [lra|]. reflexivity. }
  assert (PD : forall sorted arr, pairs_defined {| h_R := Rd; h_T := T; h_layers := 2; h_level := [0; 0]%N; h_first := [1; 0]%N; h_points := sorted; h_index := arr |} = false).
  { intros sorted arr. unfold pairs_defined. cbn [h_layers h_R h_levels h_level]. apply not_true_is_false. intros H. rewrite forallb_forall in H.
    specialize (H (1%nat, 1%nat)). cbn [fst snd] in H. specialize (H ltac:(right; right; right; left; reflexivity)).
    destruct (pbl _ _ Rd) as [l|] eqn:E; [|discriminate]. apply N.ltb_lt in H. change (0 + 1)%N with 1%N in H. assert (l = 0%N) by lia. subst l.
    apply pbl_0_iff in E; [|unfold Rd; lra]. unfold layer_rad_min in E. cbn [INR] in E. rewrite Rabs_left in E; unfold Rd in *; lra. }
  intros o. unfold htree_outcome. cbn [length Nat.ltb Nat.leb]. rewrite EN. cbn [obind]. change (N.to_nat 2) with 2%nat. rewrite EL. cbn [obind].
  change (hfirst_cells [0; 0]%N) with (Some ([1; 0]%N, 2%N)). cbn [obind nth_error seq combine omap]. rewrite HP. cbn [obind].
  assert (SO : forall buf, length buf = length [p] -> (exists o, intsort_outcome 8 pcell (w32 (2 + 1)) omp_max [p] buf o) /\
     forall o, intsort_outcome 8 pcell (w32 (2 + 1)) omp_max [p] buf o -> o = Some [p]).
  { intros buf Hb. change (w32 (2 + 1)) with 3%N. assert (KX : forall x, In x [p] -> (pcell x < 3)%N) by (intros x [<-|[]]; reflexivity).
    destruct (C15_radix_sort_sorts pcell 8 3 omp_max [p] buf ltac:(lia) eq_refl O1 KX Hb) as [S1 S2].
    split; [exact S1|]. intros o' Ho'. destruct (S2 o' Ho') as (out & -> & (P & _)). f_equal. apply Permutation_length_1_inv in P. exact P. }
  assert (PR : (do p0 <- Some p; prune [1; 0]%N (pcell p0)) = Some 2%nat) by reflexivity.
  assert (IO : exists io, index_outcome (map (fun v => N.to_nat (pcell v)) [p]) (N.to_nat 2) 1 1 io).
  { cbn [map p pcell]. change (N.to_nat 0) with 0%nat. change (N.to_nat 2) with 2%nat.
    assert (K1 : Sorted.StronglySorted le [0%nat]) by (repeat constructor). assert (K2 : forall x, In x [0%nat] -> (x < 2)%nat) by (intros x [<-|[]]; lia).
    exact (proj1 (C18_cell_index [0%nat] 2 1 1 K1 K2 (le_n 1) eq_refl (le_n 1) (le_n 1))). }
  split.
  - intros (buf & so & Hb & Hso & H). rewrite (proj2 (SO buf Hb) so Hso) in H. cbv iota beta in H. rewrite PR in H. destruct H as (t1 & t2 & io & _ & _ & _ & ->).
    destruct io as [arr|]; [|reflexivity]. cbn [obind]. cbv zeta. now rewrite PD.
  - intros ->. destruct (SO [p] eq_refl) as [[so Hso] S2]. pose proof (S2 so Hso) as ->. exists [p], (Some [p]). split; [reflexivity|]. split; [exact Hso|]. cbv iota beta. rewrite PR.
    destruct IO as (io & Hio). exists 1%nat, 1%nat, io. split; [lia|]. split; [lia|]. split; [exact Hio|]. destruct io as [arr|]; [|reflexivity].
    cbn [obind]. cbv zeta. now rewrite PD.
Qed.

(** *** instances *)
(** the tree of the three points of [ex_hrg_input] *)
Example ex_C42 : exists t, htree_outcome [1/2; 3; 6] [0; 1; 3] (1 / 2) 6 2 (Some t) /\ (0 < h_layers t)%nat /\ radius_to_layer 6 3 = Some 3%N.
Proof.
  assert (HI : hrg_input [1/2; 3; 6] [0; 1; 3] 6 2 2) by (apply ex_hrg_input; [split; apply N.leb_le; reflexivity|lia]).
  destruct (hbuild_ok _ _ (1 / 2) _ (use_di HI) 2 (proj1 (omp_nat 2 ltac:(split; apply N.leb_le; reflexivity)))) as (t & ord & TS & H & _). exists t. split; [exact H|].
  pose proof (hs_lay _ _ _ _ _ _ TS 0%nat ltac:(cbn; lia)). split; [lia|].
  unfold radius_to_layer, double_to_u32. rewrite rdiv1. replace (6 - 3) with 3 by ring. rewrite (Ztrunc_IZR 3). reflexivity.
Qed.
(** for R = 6 the outermost layer is compared with itself at level 2 or deeper; the cells 3 and 5 of level 2 do not touch *)
Lemma ex_level : cosh 6 < hc 5 5 (PI / 4).
Proof.
  unfold hc. rewrite cos_PI4. pose proof (cosh_sqr 5) as CS.
  assert (S2 : 0 < sqrt 2) by (apply sqrt_lt_R0; lra). pose proof (sqrt_sqrt 2 ltac:(lra)) as S3.
  assert (C : 1 / sqrt 2 <= 71 / 100).
  { apply Rmult_le_reg_r with (sqrt 2); [exact S2|]. unfold Rdiv at 1. rewrite Rmult_1_l, Rinv_l by lra. nra. }
  assert (E5 : exp 5 / 2 < cosh 5) by (unfold cosh; pose proof (exp_pos (Ropp 5)); lra).
  assert (E5' : 0 < sinh 5 <= exp 5 / 2) by (split; [apply sinh_pos; lra|unfold sinh; pose proof (exp_pos (Ropp 5)); lra]).
  assert (E6 : cosh 6 <= exp 6 / 2 + 1 / 2).
  { unfold cosh. assert (exp (Ropp 6) <= 1) by (rewrite <- exp_0; left; apply exp_increasing; lra). lra. }
  pose proof e_bounds as [EL EU]. assert (X6 : exp 6 = exp 5 * exp 1) by (rewrite <- exp_plus; f_equal; ring).
  assert (X5 : 100 < exp 5).
  { replace 5 with (INR 5) by (cbn; ring). rewrite exp_INR. apply Rlt_trans with ((27 / 10) ^ 5); [lra|]. apply pow_lt_compat; [lra|lra|lia]. }
  assert (sinh 5 * sinh 5 * (1 / sqrt 2) <= sinh 5 * sinh 5 * (71 / 100)) by (apply Rmult_le_compat_l; [apply Rmult_le_pos; lra|exact C]).
  assert (exp 5 / 2 * (exp 5 / 2) < cosh 5 * cosh 5) by (apply Rmult_le_0_lt_compat; lra). nra.
Qed.
(** C40 applies to the two points with radius 6 and angles 0 and pi *)
Example ex_C40 : exists t f1 f2 k d, htree_outcome [6; 6] [0; PI] (1 / 2) 6 2 (Some t) /\ lookup_filters t 0 0 2 = Some (f1, f2) /\ cellsBetween 3 5 2 = Some k /\
  is_hyp_dist 6 0 6 PI d /\ 1 / (1 + exp ((d - 6) / (2 * (1 / 2)))) <= f_max (if (k =? 1)%N then f1 else f2).
Proof.
  pose proof PI_RGT_0 as PP.
  assert (HI : hrg_input [6; 6] [0; PI] 6 2 2).
  { constructor; try (cbn; lia); try lra; try (split; [apply N.leb_le|apply N.leb_le]; reflexivity); repeat (apply Forall_cons; [lra|]); apply Forall_nil. }
  assert (O1 : (1 <= 2 <= 2 ^ 17 + 1)%nat) by (destruct (omp_nat 2 ltac:(split; apply N.leb_le; reflexivity)) as [O1 _]; exact O1).
  destruct (hbuild_ok _ _ (1 / 2) _ (use_di HI) 2 O1) as (t & ord & TS & H & _). exists t.
  pose proof (hs_lay _ _ _ _ _ _ TS 0%nat ltac:(cbn; lia)) as HL. assert (HL0 : (0 < h_layers t)%nat) by lia.
  assert (E2 : (2 <= h_base t 0 0)%N).
  { destruct (hbase_ok _ _ _ _ (use_di HI) t ord TS 0 0 HL0 HL0) as (_ & _ & _ & ->). 
    destruct (base_ok _ _ _ (use_di HI) t 0 0 (hs_R _ _ _ _ _ _ TS) (hs_disc _ _ _ _ _ _ TS) (hs_layers _ _ _ _ _ _ TS) HL0 HL0) as (BP & _).
    rewrite (hs_R _ _ _ _ _ _ TS) in BP. change (layer_rad_min 6 0) with (rmin 6 0) in BP. rewrite !rmin_eq in BP. change (INR 0) with 0 in BP.
    replace (6 - 0 - 1) with 5 in BP by ring. apply pbl_spec in BP as [B0 _]; [|lra].
    destruct (N.le_gt_cases 2 (base 6 0 0)) as [L|L]; [exact L|exfalso]. apply B0. unfold far_at. eapply Rlt_le_trans; [exact ex_level|].
    assert (HH : PI / 2 <= half (base 6 0 0)).
    { apply Rle_trans with (half 1); [|apply half_le; lia]. unfold half. rewrite pow2R_1. lra. }
    pose proof (half_range (base 6 0 0)) as HR2. unfold hc. apply Rplus_le_compat_l, Ropp_le_contravar, Rmult_le_compat_l.
    - apply Rmult_le_pos; left; apply sinh_pos; lra.
    - apply cos_decr_1; lra. }
  assert (W : forall k, wid 2 * k = PI / 2 * k) by (intros k; unfold wid, pow2R; change (2 ^ 2)%N with 4%N; change (IZR (Z.of_N 4)) with 4; field).
  assert (CA : cell_of_level 2 3) by (unfold cell_of_level; cbn; lia). assert (CB : cell_of_level 2 5) by (unfold cell_of_level; cbn; lia).
  destruct (C40_envelope _ _ (1 / 2) _ _ _ HI t 0 0 2 3 5 _ _ _ _ 0 1 ltac:(lra) H HL0 HL0 E2 CA CB eq_refl
    (hbounds_eq 2 3 ltac:(lia) CA) (hbounds_eq 2 5 ltac:(lia) CB)) as (f1 & f2 & k & d & A1 & A2 & _ & A3 & A4).
  - cbn; lia.
  - cbn; lia.
  - cbn. lra.
  - cbn [nth]. rewrite !(Rmult_comm _ (wid 2)), !W. change (IZR (Z.of_N (3 - hfc 2))) with 0. lra.
  - cbn. lra.
  - cbn [nth]. rewrite !(Rmult_comm _ (wid 2)), !W. change (IZR (Z.of_N (5 - hfc 2))) with 2. lra.
  - exists f1, f2, k, d. repeat (split; [assumption|]). assumption.
Qed.
Print Assumptions C49_distance_formulas.
Print Assumptions C49_distance_is_metric_like.
Print Assumptions C46_point_in_cell.
Print Assumptions C46_cells_nest.
Print Assumptions C46_touching.
Print Assumptions C46_dist.
Print Assumptions C40_envelope.
Print Assumptions C41_type_one.
Print Assumptions C41_type_two.
Print Assumptions C41_small_radius_refuted.
Print Assumptions C42_layers.
Print Assumptions C42_thin_disc_refuted.
