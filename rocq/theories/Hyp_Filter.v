(** The distance filter (C41) and the rejection envelope (C40) of the hyperbolic generator. *)
From Coq Require Import Arith NArith ZArith List Bool Reals Permutation Lia Lra.
From Flocq Require Import Core.
From Verif Require Import Base Sched Bits_Model Bits_Proofs Coord_Model Coord_Proofs Coord_Geo IntSort_Model IntSort_Proofs Prefix_Model
  Tree_Model Cover Tree_Proofs Tree_Build Tree_Plan Tree_Run Hyp_Model Hyp_Math Hyp_Angle Hyp_Levels Hyp_Build Hyp_Run.
Import ListNotations.
Local Open Scope R_scope.

(** ** the connection probability as a function of the distance *)
Lemma rec_eq T Rd d : T <> 0 -> connectionProbRec T Rd d = 1 + exp ((d - Rd) / (2 * T)).
Proof. intros H. unfold connectionProbRec. f_equal. f_equal. field. exact H. Qed.
Lemma rec_mono T Rd d e : 0 < T -> d <= e -> connectionProbRec T Rd d <= connectionProbRec T Rd e.
Proof.
  intros HT H. rewrite !rec_eq by lra. apply Rplus_le_compat_l, exp_le. apply Rmult_le_compat_r; [left; apply Rinv_0_lt_compat; lra|lra].
Qed.
Lemma rec_smono T Rd d e : 0 < T -> d < e -> connectionProbRec T Rd d < connectionProbRec T Rd e.
Proof.
  intros HT H. rewrite !rec_eq by lra. apply Rplus_lt_compat_l, exp_increasing. apply Rmult_lt_compat_r; [apply Rinv_0_lt_compat; lra|lra].
Qed.
(** the distance of stage i has probability i/100 * max *)
Lemma rec_inv T Rd p : 0 < T -> 0 < p < 1 -> connectionProbRec T Rd (Rd + 2 * T * ln (1 / p - 1)) = 1 / p.
Proof.
  intros HT Hp. rewrite rec_eq by lra. replace ((Rd + 2 * T * ln (1 / p - 1) - Rd) / (2 * T)) with (ln (1 / p - 1)) by (field; lra).
  rewrite exp_ln; [lra|].
  assert (1 < 1 / p); [|lra]. apply Rmult_lt_reg_r with p; [lra|]. replace (1 / p * p) with 1 by (field; lra). lra.
Qed.
Lemma ln_le x y : 0 < x -> x <= y -> ln x <= ln y.
Proof. intros H [L|<-]; [left; now apply ln_increasing|right; reflexivity]. Qed.
Lemma cosh_lt_abs a b : 0 <= a -> cosh b < cosh a -> b < a.
Proof.
  intros Ha H. destruct (Rlt_le_dec b a) as [|L]; [assumption|]. pose proof (cosh_le a b Ha L). lra.
Qed.
Lemma stage_prob M i : 0 < M <= 1 -> (1 <= i <= 99)%Z -> 0 < M / 100 * IZR i < 1.
Proof.
  intros HM [H1 H2]. apply IZR_le in H1, H2. split; [apply Rmult_lt_0_compat; lra|].
  apply Rle_lt_trans with (1 / 100 * 99); [|lra]. apply Rmult_le_compat; lra.
Qed.

(** The filter decides like the exact comparison when the distance of the last finite stage is not negative *)
Theorem filter_exact F T Rd p q x : 0 < T -> f_R F = Rd -> f_T F = T -> 0 < f_max F <= 1 -> 0 <= x < f_max F -> 1 <= distanceCosh p q ->
  0 <= Rd + 2 * T * ln (1 / (f_max F / 100 * 99) - 1) ->
  filter_decide F T Rd p q x = Some (Rltb (x * (1 + exp ((acosh (distanceCosh p q) - Rd) / (2 * T)))) 1).
Proof.
  intros HT ER ET HM Hx Hc Hlast. rewrite <- rec_eq by lra.
  destruct (filter_bounds_some F x HM Hx) as (E1 & E2 & I1 & I2). destruct (filter_index F x HM Hx) as [J1 J2].
  unfold filter_decide. rewrite E1, E2. set (y := 100 / f_max F * x) in *. set (c := distanceCosh p q) in *. set (d := acosh c).
  assert (Ex : x = f_max F / 100 * y) by (unfold y; field; lra).
  pose proof (Zfloor_lb y) as Fl. pose proof (Zceil_ub y) as Cl.
  assert (Hd : 0 <= d) by (unfold d; apply acosh_nonneg; lra). assert (Hcd : cosh d = c) by (unfold d; apply cosh_acosh; lra).
  set (D i := Rd + 2 * T * ln (1 / (f_max F / 100 * IZR i) - 1)).
  assert (ST : forall i, (1 <= i <= 99)%Z -> filter_stage F i = Some (XFin (cosh (D i)))).
  { intros i Hi. unfold filter_stage. destruct (Z.eqb_spec i 0); [lia|]. destruct (Z.eqb_spec i 100); [lia|].
    assert (Eb : ((0 <? i) && (i <? 100))%Z = true) by (apply andb_true_intro; split; apply Z.ltb_lt; lia). rewrite Eb, ER, ET. reflexivity. }
  assert (RD : forall i, (1 <= i <= 99)%Z -> connectionProbRec T Rd (D i) = 1 / (f_max F / 100 * IZR i)).
  { intros i Hi. unfold D. apply rec_inv; [exact HT|]. now apply stage_prob. }
  (* rejecting *)
  assert (UP : exists up, filter_stage F (Zfloor y) = Some up /\
                 (match up with XInf => false | XFin z => Rltb z c end = true -> Rltb (x * connectionProbRec T Rd d) 1 = false)).
  { destruct (Z.eq_dec (Zfloor y) 0) as [Z0|Z0].
    - rewrite Z0. exists XInf. split; [reflexivity|discriminate].
    - exists (XFin (cosh (D (Zfloor y)))). split; [apply ST; lia|]. intros H. apply Rltb_true in H.
      assert (HD : D (Zfloor y) < d). { apply cosh_lt_abs; [exact Hd|]. now rewrite Hcd. }
      apply (rec_smono T Rd) in HD; [|exact HT]. rewrite RD in HD by lia.
      pose proof (stage_prob (f_max F) (Zfloor y) HM ltac:(lia)) as SP. set (pi := f_max F / 100 * IZR (Zfloor y)) in *.
      assert (pi <= x) by (rewrite Ex; apply Rmult_le_compat_l; lra).
      apply Rltb_false. assert (1 = pi * (1 / pi)) as -> by (field; lra).
      apply Rmult_le_compat; try lra. left. apply Rdiv_lt_0_compat; lra. }
  destruct UP as (up & Eup & Hup). rewrite Eup. cbn [obind]. destruct (match up with XInf => false | XFin z => Rltb z c end); [now rewrite (Hup eq_refl)|].
  (* accepting *)
  assert (LO : exists lo, filter_stage F (Zceil y) = Some lo /\ (xlt c lo = true -> Rltb (x * connectionProbRec T Rd d) 1 = true)).
  { destruct (Z.eq_dec (Zceil y) 0) as [Z0|Z0]; [|destruct (Z.eq_dec (Zceil y) 100) as [Z1|Z1]].
    - rewrite Z0. exists XInf. split; [reflexivity|]. intros _. apply Rltb_true. rewrite Z0 in Cl. assert (y = 0) by lra. rewrite Ex, H. lra.
    - rewrite Z1. exists (XFin 1). split; [reflexivity|]. intros H. apply Rltb_true in H. lra.
    - exists (XFin (cosh (D (Zceil y)))). split; [apply ST; lia|]. intros H. apply Rltb_true in H.
      assert (HD0 : 0 <= D (Zceil y)).
      { unfold D. apply Rle_trans with (1 := Hlast). apply Rplus_le_compat_l, Rmult_le_compat_l; [lra|].
        pose proof (stage_prob (f_max F) 99 HM ltac:(lia)) as S1. pose proof (stage_prob (f_max F) (Zceil y) HM ltac:(lia)) as S2.
        assert (I : 1 < 1 / (f_max F / 100 * IZR 99)).
        { unfold Rdiv at 1. rewrite Rmult_1_l, <- Rinv_1 at 1. apply Rinv_lt_contravar; lra. }
        apply ln_le; [lra|]. apply Rplus_le_compat_r. unfold Rdiv at 1 3. rewrite !Rmult_1_l. apply Rinv_le_contravar; [lra|].
        apply Rmult_le_compat_l; [lra|]. apply IZR_le. lia. }
      assert (HD : d < D (Zceil y)) by (apply cosh_lt_abs; [exact HD0|now rewrite Hcd]).
      apply (rec_smono T Rd) in HD; [|exact HT]. rewrite RD in HD by lia.
      pose proof (stage_prob (f_max F) (Zceil y) HM ltac:(lia)) as SP. set (pi := f_max F / 100 * IZR (Zceil y)) in *.
      assert (Hpi : x <= pi) by (rewrite Ex; apply Rmult_le_compat_l; lra).
      apply Rltb_true. destruct (Rle_lt_or_eq_dec 0 x (proj1 Hx)) as [X|X]; [|rewrite <- X; lra].
      apply Rlt_le_trans with (x * (1 / pi)); [apply Rmult_lt_compat_l; lra|].
      apply Rmult_le_reg_r with pi; [lra|]. replace (x * (1 / pi) * pi) with x by (field; lra). lra. }
  destruct LO as (lo & Elo & Hlo). rewrite Elo. cbn [obind]. destruct (xlt c lo); [now rewrite (Hlo eq_refl)|]. reflexivity.
Qed.
(** the two uses *)
Lemma last_stage_typeI T Rd : 0 < T -> 2 * T * ln 99 <= Rd -> 0 <= Rd + 2 * T * ln (1 / (1 / 100 * 99) - 1).
Proof.
  intros HT H. replace (1 / (1 / 100 * 99) - 1) with (/ 99) by field. rewrite ln_Rinv by lra. lra.
Qed.
Lemma last_stage_typeII M T Rd : 0 < T -> 0 < Rd -> 0 < M <= 1 / 5 -> 0 <= Rd + 2 * T * ln (1 / (M / 100 * 99) - 1).
Proof.
  intros HT HR HM. assert (H : 1 <= 1 / (M / 100 * 99) - 1).
  { assert (E : 5 <= 1 / (M / 100 * 99)).
    { unfold Rdiv at 1. rewrite Rmult_1_l. replace 5 with (/ (1 / 5)) by field. apply Rinv_le_contravar; [apply Rmult_lt_0_compat; lra|]. lra. }
    lra. }
  assert (0 <= ln (1 / (M / 100 * 99) - 1)) by (rewrite <- ln_1; apply ln_le; lra). apply Rplus_le_le_0_compat; [lra|]. apply Rmult_le_pos; lra.
Qed.
Lemma distanceCosh_ge_1 p q : 1 <= distanceCosh p q.
Proof. apply Rmax_l. Qed.

(** ** the cosh of the distance computed from the precomputed members *)
Lemma distanceCosh_eq p q i j r1 a1 c1 r2 a2 c2 : 0 < r1 -> 0 < r2 -> mk_point i r1 a1 c1 = Some p -> mk_point j r2 a2 c2 = Some q ->
  distanceCosh p q = hc r1 r2 (a1 - a2).
Proof.
  intros H1 H2. unfold mk_point. destruct (Req_EM_T r1 0); [lra|]. destruct (Req_EM_T r2 0); [lra|]. intros [= <-] [= <-].
  unfold distanceCosh. cbn [coth_r invsinh_r cos_phi sin_phi]. pose proof (sinh_pos _ H1) as S1. pose proof (sinh_pos _ H2) as S2.
  assert (E : (cosh r1 / sinh r1 * (cosh r2 / sinh r2) - cos a1 * cos a2 - sin a1 * sin a2) / (1 / sinh r1 * (1 / sinh r2)) = hc r1 r2 (a1 - a2)).
  { unfold hc. rewrite cos_minus. field. lra. }
  rewrite E. apply Rmax_right, hc_ge_1.
Qed.
Lemma isDistanceBelowR_iff p q i j r1 a1 c1 r2 a2 c2 C : 0 < r1 -> 0 < r2 -> mk_point i r1 a1 c1 = Some p -> mk_point j r2 a2 c2 = Some q ->
  (isDistanceBelowR p q C = true <-> hc r1 r2 (a1 - a2) < C).
Proof.
  intros H1 H2. unfold mk_point. destruct (Req_EM_T r1 0); [lra|]. destruct (Req_EM_T r2 0); [lra|]. intros [= <-] [= <-].
  unfold isDistanceBelowR. rewrite Rltb_true. cbn [coth_r invsinh_r cos_phi sin_phi].
  rewrite below_iff by (apply sinh_pos; assumption). reflexivity.
Qed.

(** ** the envelope *)
Section Envelope.
  Variables (radii angles : list R) (T Rd : R).
  Hypotheses (DI : disc_input radii angles Rd).
  Variables (t : htree) (ord : list nat) (TS : htree_spec radii angles T Rd t ord).
  Notation rad := (rad radii).
  Notation phi := (phi angles).

  Lemma envelope_bound A B l i j u v f1 f2 cb : 0 < T -> hcall_ok Rd t (CallII A B l i j) ->
    In u (hV radii angles Rd ord i A l) -> In v (hV radii angles Rd ord j B l) ->
    lookup_filters t i j l = Some (f1, f2) -> cellsBetween A B l = Some cb ->
    1 / connectionProbRec T Rd (hyp_distance (rad u) (phi u) (rad v) (phi v)) <= f_max (if (cb =? 1)%N then f1 else f2).
  Proof.
    intros HT Hok Hu Hv Hlk Hcb. pose proof Hok as (HA & HB & Hi & Hj & Hl & Ht).
    destruct (nontouch_ring radii angles T Rd DI t ord TS A B l i j Hok) as (Hr & Hl2 & HAB).
    destruct (hbase_ok radii angles T Rd DI t ord TS i j Hi Hj) as (_ & _ & _ & B4).
    unfold lookup_filters in Hlk. rewrite B4 in Hlk. rewrite (proj2 (N.leb_le 2 l) (proj1 Hl2)), (proj2 (N.leb_le l _) Hl) in Hlk. cbn [andb] in Hlk.
    rewrite (hs_T _ _ _ _ _ _ TS), (hs_R _ _ _ _ _ _ TS), (typeII_filters_eq T Rd i j l Hl2) in Hlk.
    rewrite (cellsBetween_eq l A B ltac:(lia) HA HB) in Hcb. injection Hcb as <-. injection Hlk as <- <-.
    pose proof (cell_diff_lt l A B HA HB) as Hd. pose proof (wid_pos l) as W.
    assert (P4 : (4 <= 2 ^ l)%N) by (apply (pow2_lt 2 l); lia).
    assert (Wq : wid l <= PI / 2).
    { unfold wid, pow2R. apply N2Z.inj_le in P4. apply IZR_le in P4. change (IZR (Z.of_N 4)) with 4 in P4. pose proof PI_RGT_0.
      apply Rmult_le_reg_r with (IZR (Z.of_N (2 ^ l))); [lra|]. replace (2 * PI / IZR (Z.of_N (2 ^ l)) * IZR (Z.of_N (2 ^ l))) with (2 * PI) by (field; lra).
      apply Rle_trans with (PI / 2 * 4); [lra|]. apply Rmult_le_compat_l; lra. }
    assert (Eh : half (l - 1) = wid l).
    { unfold half, wid. replace l with (l - 1 + 1)%N at 2 by lia. unfold pow2R at 2. rewrite N.pow_add_r, N2Z.inj_mul, mult_IZR. fold (pow2R (l - 1)).
      pose proof (pow2R_pos (l - 1)). change (IZR (Z.of_N (2 ^ 1))) with 2. field. lra. }
    assert (KEY : forall th, wid l <= th <= IZR (Z.of_N (ring l A B) - 1) * wid l -> th <= PI ->
      1 / connectionProbRec T Rd (hyp_distance (rad u) (phi u) (rad v) (phi v)) <= 1 / connectionProbRec T Rd (hyp_distance (rmin Rd i) 0 (rmin Rd j) th)).
    { intros th Hth HthPI. destruct (far_facts radii angles T Rd DI t ord TS A B l i j u v th Hok Hu Hv) as [_ F2]; [rewrite Eh; exact Hth|exact HthPI|].
      rewrite hyp_distance_eq, hyp_distance_0. unfold Rdiv. rewrite !Rmult_1_l. apply Rinv_le_contravar.
      - pose proof (rec_gt_1 T Rd (acosh (hc (rmin Rd i) (rmin Rd j) th))). lra.
      - apply rec_mono; [exact HT|]. apply acosh_le; [apply hc_ge_1|exact F2]. }
    assert (Rl : (2 * ring l A B <= 2 ^ l)%N) by (unfold ring; lia).
    destruct (N.eqb_spec (ring l A B - 1) 1) as [E|E]; cbn [f_max].
    - assert (R2 : (ring l (hfc l) (hfc l + 2) - 1 = 1)%N) by (unfold ring, cell_diff; lia). rewrite R2. change (IZR (Z.of_N 1)) with 1. rewrite Rmult_1_l.
      apply KEY; [|lra]. split; [lra|]. replace (Z.of_N (ring l A B) - 1)%Z with 1%Z by lia. lra.
    - assert (P6 : (6 <= 2 ^ l)%N) by lia.
      assert (P8 : (8 <= 2 ^ l)%N).
      { destruct (N.eq_dec l 2) as [->|]; [change (2 ^ 2)%N with 4%N in P6; lia|]. apply (pow2_lt 3 l). lia. }
      assert (R3 : (ring l (hfc l) (hfc l + 3) - 1 = 2)%N) by (unfold ring, cell_diff; lia). rewrite R3. change (IZR (Z.of_N 2)) with 2.
      apply KEY; [|lra]. split; [lra|]. apply Rmult_le_compat_r; [lra|]. change 2 with (IZR 2). apply IZR_le. lia.
  Qed.
End Envelope.
