(** Property C47, complement: blocks of improbable pairs are really dropped by the hyperbolic generator, so the documented probability is not met exactly. *)
From Coq Require Import Arith NArith ZArith List Bool Reals Permutation Lia Lra Psatz.
From Flocq Require Import Core.
From Coquelicot Require Import Coquelicot.
From Verif Require Import Base Sched Bits_Proofs Coord_Model Coord_Proofs Coord_Geo Tree_Model Tree_Proofs Tree_Build Tree_Plan Tree_Run Girg_Model Girg_Num Prop_Girg
  Mean Prop_Mean Cost_Touch Prob_Spec Prob Prob_Events Prob_Girg Prob_Law Prop_Prob Draws_Bound
  Hyp_Model Hyp_Math Hyp_Angle Hyp_Levels Hyp_Build Hyp_Run Prop_Hyp Prob_Hrg Prob_HrgLaw Prop_ProbHrg HypDraws_Bound.
Import ListNotations.
Local Open Scope R_scope.

(** two nodes at opposite ends of a disc of radius 40: their distance is 80 *)
Definition far_radii : list R := [40; 40].
Definition far_angles : list R := [0; PI].
Example far_input : hrg_input far_radii far_angles 40 1 1.
Proof.
  assert (P : 3 < PI) by (pose proof PI2_3_2; lra).
  constructor; try (cbn; lia); try lra; try (split; [apply N.leb_le|apply N.leb_le]; reflexivity); repeat (apply List.Forall_cons; [lra|]); apply List.Forall_nil.
Qed.
Example far_probability : hyp_probability far_radii far_angles (1 / 2) 40 0 1 (1 / (1 + exp 40)).
Proof.
  exists 80. split.
  - split; [lra|]. cbn [nth far_radii far_angles]. replace (0 - PI) with (- PI) by ring. rewrite cos_neg, cos_PI. replace 80 with (40 + 40) by ring. apply cosh_double.
  - replace ((80 - 40) / (2 * (1 / 2))) with 40 by field. reflexivity.
Qed.
Lemma exp_big : 5000000 < exp 16.
Proof.
  destruct e_bounds as [E1 _]. replace 16 with (4 + 4 + (4 + 4)) by ring. rewrite !exp_plus. assert (E4 : 50 < exp 4). { replace 4 with (1 + 1 + (1 + 1)) by ring. rewrite !exp_plus. set (e := exp 1) in *. assert (e * e > 729 / 100) by nra. nra. }
  set (f := exp 4) in *. assert (f * f > 2500) by nra. nra.
Qed.
(** a quarter turn apart and at radius 39 the distance exceeds 56 *)
Lemma cosh_39 : cosh 56 < cosh 39 * cosh 39.
Proof.
  assert (U : forall x, 0 < x -> cosh x < exp x) by (intros x Hx; unfold cosh; assert (exp (- x) < exp x) by (apply exp_increasing; lra); lra).
  assert (L : forall x, exp x / 2 < cosh x) by (intros x; unfold cosh; pose proof (exp_pos (- x)); lra).
  specialize (U 56 ltac:(lra)). specialize (L 39). pose proof (exp_pos 39). pose proof (exp_pos 56). pose proof exp_big as B.
  assert (E : exp 39 * exp 39 = exp 56 * (exp 16 * exp 6)) by (rewrite <- !exp_plus; f_equal; ring). assert (1 < exp 6) by (rewrite <- exp_0; apply exp_increasing; lra).
  assert (5000000 < exp 16 * exp 6) by nra. assert (exp 56 * 5000000 < exp 39 * exp 39) by (rewrite E; apply Rmult_lt_compat_l; lra).
  assert (exp 39 / 2 * (exp 39 / 2) <= cosh 39 * cosh 39) by (apply Rmult_le_compat; lra). lra.
Qed.
Lemma far_near1 l : (2 <= l)%N -> near1 l 0 (1 / 2) = false.
Proof.
  intros Hl. unfold near1. apply Z.leb_gt. assert (E : (2 ^ l = 2 ^ (l - 2) * 4)%N) by (replace l with (l - 2 + 2)%N at 1 by lia; rewrite N.pow_add_r; reflexivity).
  assert (P : (1 <= 2 ^ (l - 2))%N) by (pose proof (N.pow_nonzero 2 (l - 2)); lia).
  assert (C0 : coordR l 0 = 0%N) by (unfold coordR; rewrite Rmult_0_l; change 0 with (IZR 0); now rewrite Zfloor_IZR).
  assert (C1 : coordR l (1 / 2) = (2 ^ (l - 2) * 2)%N).
  { unfold coordR, pow2R. rewrite E. rewrite N2Z.inj_mul, mult_IZR. change (IZR (Z.of_N 4)) with 4. replace (1 / 2 * (IZR (Z.of_N (2 ^ (l - 2))) * 4)) with (IZR (Z.of_N (2 ^ (l - 2)) * 2)) by (rewrite mult_IZR; field). rewrite Zfloor_IZR. lia. }
  rewrite C0, C1. unfold axdist, axis_dist. rewrite E. lia.
Qed.

Theorem C47_exact_probability_refuted : forall nd k out, (15 <= k)%nat -> possible_hrgs nd ex_part far_radii far_angles (1 / 2) 40 7 1 1 k out ->
  (* the documented probability of the edge {0,1} is 1/(1+e^40) > 0, but it is never generated *)
  hyp_probability far_radii far_angles (1 / 2) 40 0 1 (1 / (1 + exp 40)) /\ 0 < 1 / (1 + exp 40) /\ probability_n k (fun tapes => has_edge 0 1 (out tapes)) 0.
Proof.
  intros nd k out Hk Hout. assert (P3 : 3 < PI) by (pose proof PI2_3_2; lra). pose proof far_input as HI. pose proof ln99_le as L99.
  assert (H52 : 1 / IZR (2 ^ 52) < 1 / 2). { unfold Rdiv. rewrite !Rmult_1_l. apply Rinv_lt_contravar; [apply Rmult_lt_0_compat; apply IZR_lt; reflexivity|apply IZR_lt; reflexivity]. }
  split; [exact far_probability|]. split; [apply Rdiv_lt_0_compat; pose proof (exp_pos 40); lra|].
  destruct (hrg_law nd ex_part far_radii far_angles (1 / 2) 40 7 1 1 HI ex_part_ok H52 ltac:(lra) ltac:(now left)) as (t & ord & q & TS & HO & -> & Hq & LAW).
  assert (Q0 : @hqpair far_radii far_angles (1 / 2) 40 t ord 0 1 = 0).
  2:{ specialize (LAW k ltac:(lia) out Hout (fun x y b => if (x =? 0)%nat && (y =? 1)%nat then (if b then 1 else 0) else 1)). unfold probability_n.
      eapply expects_n_ext in LAW; [replace (prodR _ _) with 0 in LAW; [exact LAW|]|].
      - unfold prodR, all_pairs. cbn [length far_radii seq flat_map map app fold_right fst snd]. unfold bern. cbn [Nat.eqb andb]. rewrite Q0. ring.
      - intros tapes _. cbn beta. unfold has_edge. destruct (out tapes); [|reflexivity]. unfold prodR, all_pairs. cbn [length far_radii seq flat_map map app fold_right fst snd Nat.eqb andb]. ring. }
  assert (PM := hcalls_perm HI t ord TS). assert (I01 : In (0, 1)%nat (all_pairs (length far_radii))) by (apply all_pairs_In; cbn; lia).
  apply (Permutation_in _ (Permutation_sym PM)) in I01. apply in_map_iff in I01 as ([u v] & EN & I). apply in_flat_map in I as (x & Hx & I).
  assert (UV : (u = 0 /\ v = 1)%nat \/ (u = 1 /\ v = 0)%nat). { unfold norm in EN. cbn [fst snd] in EN. destruct (u <? v)%nat; injection EN as -> ->; auto. }
  assert (NR : forall l, (2 <= l)%N -> near1 l (phi far_angles u / 2 / PI) (phi far_angles v / 2 / PI) = false).
  { intros l Hl. assert (E0 : phi far_angles 0 / 2 / PI = 0) by (unfold phi; cbn [nth far_angles]; field; lra). assert (E1 : phi far_angles 1 / 2 / PI = 1 / 2) by (unfold phi; cbn [nth far_angles]; field; lra).
    destruct UV as [[-> ->]|[-> ->]]; rewrite E0, E1; [|rewrite near1_sym]; now apply far_near1. }
  assert (LY : hlay far_radii 40 u = 0%nat /\ hlay far_radii 40 v = 0%nat).
  { assert (L : forall w, (w = 0 \/ w = 1)%nat -> hlay far_radii 40 w = 0%nat). { intros w Hw. unfold hlay, rad. replace (40 - nth w far_radii 0) with (IZR 0); [now rewrite Zfloor_IZR|]. destruct Hw as [-> | ->]; cbn [nth far_radii]; lra. } split; apply L; lia. }
  pose proof (hplan0_ok far_radii far_angles (1 / 2) 40 (use_di HI) t ord TS x Hx) as Hok.
  assert (C39 := cosh_39). assert (Hc : hc 39 39 (PI / 2) = cosh 39 * cosh 39) by (unfold hc; rewrite cos_PI2; ring).
  rewrite <- (hqpair_sym). replace (@hqpair far_radii far_angles (1 / 2) 40 t ord 1 0) with (@hqpair far_radii far_angles (1 / 2) 40 t ord u v) by (destruct UV as [[-> ->]|[-> ->]]; [apply hqpair_sym|reflexivity]).
  rewrite <- (hqpair_call HI t ord TS x u v Hx I). unfold hcall_q. replace (hdropped t ord x) with true; [reflexivity|]. symmetry.
  destruct x as [A B l i j|A B l i j].
  - exfalso. pose proof (compared_near1 HI t ord TS A B l i j u v Hx I) as N1. rewrite (proj1 LY), (proj2 LY), NR in N1; [discriminate|].
    destruct Hok as (_ & _ & Hi & Hj & _). destruct (base_spec 40 1 0 0 ltac:(lra) ltac:(left; lra) ltac:(cbn; lra) ltac:(lia) ltac:(lia)) as (B1 & _).
    destruct (pbl_spec (rmin 40 0) (rmin 40 0) 40 (base 40 0 0) ltac:(lra) B1) as [NF _]. unfold far_at in NF. destruct (N.le_gt_cases 2 (base 40 0 0)) as [|L]; [assumption|]. exfalso. apply NF.
    assert (C40 : cosh 40 < cosh 56) by (apply cosh_lt; lra). rewrite !rmin_eq. cbn [INR]. replace (40 - 0 - 1) with 39 by ring.
    eapply Rlt_le_trans; [|apply (hc_angle_le 39 39 (PI / 2)); [lra|lra|]]; [lra|]. rewrite cos_PI2.
    assert (E : base 40 0 0 = 0%N \/ base 40 0 0 = 1%N) by lia. destruct E as [-> | ->]; unfold half; [rewrite pow2R_0; replace (PI / 1) with PI by field; rewrite cos_PI; lra|rewrite pow2R_1, cos_PI2; lra].
  - cbn [hcall_pairs] in I. apply in_prod_iff in I as [I1 I2]. destruct (hparents_near HI t ord TS A B l i j u v Hx I1 I2) as [_ N1].
    destruct (nontouch_ring far_radii far_angles (1 / 2) 40 (use_di HI) t ord TS A B l i j Hok) as (_ & [L2 _] & _).
    assert (l = 2%N). { destruct (N.le_gt_cases l 2) as [|L]; [lia|]. rewrite NR in N1 by lia. discriminate. } subst l.
    assert (IJ : i = 0%nat /\ j = 0%nat). { apply (hV_In far_radii far_angles (1 / 2) 40 t ord TS) in I1 as (_ & E1 & _). apply (hV_In far_radii far_angles (1 / 2) 40 t ord TS) in I2 as (_ & E2 & _). lia. } destruct IJ as [-> ->].
    pose proof (hblock_pfar HI H52 t ord TS A B 2 0 0 Hok) as PF.
    assert (PB : pfar (1 / 2) 40 0 0 2 < 1 / 5000000).
    { unfold pfar, connectionProbRec. rewrite !rmin_eq. cbn [INR]. replace (40 - 0 - 1) with 39 by ring. replace (wid 2) with (PI / 2) by (unfold wid; change (pow2R 2) with 4; field). rewrite hyp_distance_0, Hc.
      assert (D : 56 < acosh (cosh 39 * cosh 39)) by (apply acosh_gt_iff; [rewrite <- Hc; apply hc_ge_1|lra|exact C39]). set (dd := acosh _) in *.
      assert (exp 16 < exp (1 / 2 / (1 / 2) * (dd - 40))) by (apply exp_increasing; lra). pose proof exp_big. unfold Rdiv at 1 5. rewrite !Rmult_1_l. apply Rinv_lt_contravar; [apply Rmult_lt_0_compat; lra|lra]. }
    cbn [hdropped]. set (va := hV far_radii far_angles 40 ord 0 A 2) in *. set (vb := hV far_radii far_angles 40 ord 0 B 2) in *. set (bm := hblock_max t A B 2 0 0) in *.
    apply andb_true_intro. split; [apply negb_true_iff, Rltb_false; lra|]. apply Rltb_true.
    assert (L1 : (length va <= 2)%nat) by apply (hV_length far_radii far_angles (1 / 2) 40 t ord TS). assert (L2' : (length vb <= 2)%nat) by apply (hV_length far_radii far_angles (1 / 2) 40 t ord TS).
    assert (L3 : INR (length va * length vb) <= 4). { replace 4 with (INR 4) by (rewrite INR_IZR_INZ; reflexivity). apply le_INR. nia. }
    assert (0 <= INR (length va * length vb)) by apply pos_INR. nra.
Qed.
Print Assumptions C47_exact_probability_refuted.
