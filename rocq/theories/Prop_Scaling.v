(** Properties C30-C35: girgs::scaleWeights, in exact real arithmetic. *)
From Coq Require Import Arith NArith ZArith List Bool Reals Lia Lra Psatz Sorting.Sorted Permutation.
From Flocq Require Import Core.
From Coquelicot Require Import Coquelicot.
From Verif Require Import Base Sched Coord_Proofs Coord_Geo Coord_Torus Prop_Coord Tree_Model Tree_Run Girg_Model Girg_Num Prop_Girg
  Scaling_Model Scaling_Lazy Scaling_Loops Scaling_Thr Scaling_Search Scaling_Inst Scaling_Total Scaling_Integral.
Import ListNotations.
Local Open Scope R_scope.

(** ** Specification *)
(** every weight is a positive double: std::numeric_limits<double>::min() <= w <= std::numeric_limits<double>::max() *)
Definition double_weights (ws : list R) : Prop := List.Forall (fun w => bpow radix2 (-1022) <= w <= (2 - bpow radix2 (-52)) * bpow radix2 1023) ws.
(** density of the maximum-norm distance of two independent uniform points of the d-dimensional torus: the ball of radius r <= 1/2 has volume (2r)^d *)
Definition distance_density (d : nat) (r : R) : R := INR d * 2 ^ d * r ^ (d - 1).
(** probability that two nodes at distance r are connected, k = w_u w_v / W *)
Definition threshold_rule (d : nat) (k r : R) : R := if Rlt_dec (r ^ d) k then 1 else 0.
Definition alpha_rule (alpha : R) (d : nat) (k r : R) : R := Rmin 1 (Rpower (k / r ^ d) alpha).
(** expected average degree of the GIRG with weights ws: (1/n) * sum over ordered pairs u <> v of P(u ~ v) *)
Definition expected_degree (rule : nat -> R -> R -> R) (d : nat) (ws : list R) : R :=
  let W := sumR ws in
  sumR (map (fun u => sumR (map (fun v => if (u =? v)%nat then 0 else
    RInt (fun r => rule d (nth u ws 0 * nth v ws 0 / W) r * distance_density d r) 0 (1 / 2)) (seq 0 (length ws)))) (seq 0 (length ws)))
  / INR (length ws).
Definition scaled (s : R) (ws : list R) : list R := map (fun w => w * s) ws.

(** the density integrates to the volume of the ball *)
Lemma density_volume d r : (d >= 1)%nat -> 0 < r <= 1 / 2 -> is_RInt (distance_density d) 0 r ((2 * r) ^ d).
Proof.
  intros Hd Hr. eapply is_RInt_ext; [|apply (int_low d Hd r); lra]. intros x _. cbv beta. unfold distance_density. symmetry. apply (dens_g 1 1 1 d Hd).
Qed.

(** the probabilities in closed form *)
Lemma threshold_closed d k : (d >= 1)%nat -> 0 < k -> is_RInt (fun r => threshold_rule d k r * distance_density d r) 0 (1 / 2) (capped idR (2 ^ d * k)).
Proof.
  intros Hd Hk. assert (H2 : 0 < 2 ^ d) by (apply pow_lt; lra).
  assert (M : forall a b, 0 < a < b -> a ^ d < b ^ d).
  { intros a b H. rewrite <- !Rpower_pow by lra. unfold Rpower. apply exp_increasing. apply Rmult_lt_compat_l; [apply lt_0_INR; lia|]. apply ln_increasing; lra. }
  assert (Half : 2 ^ d * (1 / 2) ^ d = 1) by (rewrite <- Rpow_mult_distr; replace (2 * (1 / 2)) with 1 by field; apply pow1).
  unfold capped, idR. destruct (Rge_dec (2 ^ d * k) 1) as [H|H].
  - pose proof (density_volume d (1 / 2) Hd ltac:(lra)) as I. rewrite Rpow_mult_distr, Half in I. eapply is_RInt_ext; [|exact I].
    intros x. rewrite Rmin_left, Rmax_right by lra. intros Hx. unfold threshold_rule. destruct (Rlt_dec (x ^ d) k) as [L|L]; [now rewrite Rmult_1_l|]. exfalso. pose proof (M x (1 / 2) ltac:(lra)). apply L. apply Rmult_lt_reg_l with (2 ^ d); [exact H2|]. nra.
  - set (r0 := Rpower k (/ INR d)). assert (P : 0 < r0) by apply exp_pos. assert (E0 : r0 ^ d = k). { unfold r0. rewrite <- Rpower_pow by exact P. rewrite Rpower_mult, Rinv_l by (apply not_0_INR; lia). now apply Rpower_1. }
    assert (Hr1 : r0 < 1 / 2). { apply Rnot_le_lt. intros C. destruct (Rle_lt_or_eq_dec _ _ C) as [C'|C']; [pose proof (M (1 / 2) r0 ltac:(lra)) as Q; rewrite E0 in Q; nra|rewrite <- C' in E0; rewrite E0 in Half; lra]. }
    replace (2 ^ d * k) with (@plus R_NormedModule (2 ^ d * k) 0) by (unfold plus; cbn; ring).
    apply (is_RInt_Chasles (V := R_NormedModule) _ 0 r0 (1 / 2)).
    + pose proof (density_volume d r0 Hd ltac:(lra)) as I. rewrite Rpow_mult_distr, E0 in I. eapply is_RInt_ext; [|exact I]. intros x. rewrite Rmin_left, Rmax_right by lra. intros Hx.
      unfold threshold_rule. destruct (Rlt_dec (x ^ d) k) as [L|L]; [now rewrite Rmult_1_l|]. exfalso. apply L. rewrite <- E0. apply M. lra.
    + eapply is_RInt_ext; [|replace 0 with (@scal R_Ring R_NormedModule (1 / 2 - r0) 0) by (unfold scal; cbn; unfold mult; cbn; ring); apply is_RInt_const].
      intros x. rewrite Rmin_left, Rmax_right by lra. intros Hx. unfold threshold_rule. destruct (Rlt_dec (x ^ d) k) as [L|L]; [|now rewrite Rmult_0_l]. exfalso. rewrite <- E0 in L. pose proof (M r0 x ltac:(lra)). lra.
Qed.
Lemma alpha_closed alpha d k : 0 < alpha -> alpha <> 1 -> (d >= 1)%nat -> 0 < k -> is_RInt (fun r => alpha_rule alpha d k r * distance_density d r) 0 (1 / 2) (capped (phi_gen alpha) (2 ^ d * k)).
Proof.
  intros H0 H1 Hd Hk. pose proof (probability_integral alpha 1 k d H0 H1 ltac:(lra) Hk Hd) as I.
  assert (E1 : forall x, Rpower 1 x = 1) by (intros; unfold Rpower; rewrite ln_1, Rmult_0_r, exp_0; reflexivity). rewrite E1, Rmult_1_r in I.
  eapply is_RInt_ext; [|exact I]. intros x _. unfold integrand, alpha_rule, distance_density. now rewrite Rmult_1_l.
Qed.

Lemma sumR_scaled s ws : sumR (scaled s ws) = sumR ws * s.
Proof. unfold scaled, sumR. induction ws as [|w ws IH]; cbn; [ring|]. rewrite IH. ring. Qed.
Lemma sumR_by ws : sumR ws = sum_by (fun w => w) ws.
Proof. unfold sumR, sum_by. now rewrite map_id. Qed.
Lemma valid_double ws : double_weights ws -> valid_weights ws. Proof. exact (fun H => H). Qed.
(** the pair sums of the estimators are the expected degree of the scaled weights *)
Lemma expected_degree_closed rule phi d s ws q : (d >= 1)%nat -> double_weights ws -> ws <> [] -> 0 < s -> q = 2 ^ d * s / sumR ws ->
  (forall k, 0 < k -> is_RInt (fun r => rule d k r * distance_density d r) 0 (1 / 2) (capped phi (2 ^ d * k))) ->
  expected_degree rule d (scaled s ws) = deg_sum phi ws q / INR (length ws).
Proof.
  intros Hd V Hne Hs Eq HR. pose proof (valid_double ws V) as V'. pose proof (W_pos ws V' Hne) as HW. rewrite <- sumR_by in HW.
  unfold expected_degree, deg_sum. rewrite <- pair_sum_psum. unfold pair_sum. rewrite sumR_scaled.
  replace (length (scaled s ws)) with (length ws) by (unfold scaled; now rewrite map_length). unfold Rdiv at 1 4. f_equal.
  unfold sumR at 1 2. do 1 f_equal. apply map_ext_in. intros u Hu. f_equal. apply map_ext_in. intros v Hv. destruct (u =? v)%nat; [reflexivity|].
  assert (Hn : forall u, In u (seq 0 (length ws)) -> nth u (scaled s ws) 0 = nth u ws 0 * s /\ 0 < nth u ws 0).
  { intros x Hx. apply in_seq in Hx. split; [|apply (valid_pos ws _ V'); apply nth_In; lia]. unfold scaled. rewrite nth_indep with (d' := 0 * s) by (rewrite map_length; lia). apply (map_nth (fun w => w * s)). }
  destruct (Hn u Hu) as [-> Pu]. destruct (Hn v Hv) as [-> Pv]. set (a := nth u ws 0) in *. set (b := nth v ws 0) in *.
  replace (a * s * (b * s) / (sumR ws * s)) with (s * (a * b) / sumR ws) by (field; lra). assert (0 < a * b) by nra.
  assert (Hk : 0 < s * (a * b) / sumR ws) by (apply Rdiv_lt_0_compat; [apply Rmult_lt_0_compat|]; assumption).
  rewrite (is_RInt_unique _ _ _ _ (HR _ Hk)). f_equal. rewrite Eq. field. lra.
Qed.

(** ** C30: the result of scaleWeights *)
Definition bad_alpha (alpha : dbl) : Prop := match alpha with DNaN => True | DInf positive => positive = false | DFin a => a <= 0 \/ a = 1 end.
Lemma throw_iff alpha : dgt alpha 8 = false /\ dgt alpha 0 && dne alpha 1 = false <-> bad_alpha alpha.
Proof.
  destruct alpha as [| |a]; cbn; [tauto|destruct positive; intuition congruence|].
  destruct (Rlt_dec 8 a), (Rlt_dec 0 a), (Req_EM_T a 1); cbn; split; try (intros [? ?]; try discriminate); try lra; auto; intros [?|?]; try lra; auto.
Qed.
Lemma scaling_pos_thr ws desired d s : scaling_threshold ws desired d s -> double_weights ws -> ws <> [] -> 0 < s.
Proof.
  intros (st' & c & v & H & ->) V Hne. apply pow_lt.
  apply (run_ok (threshold_f ws d) desired default_accuracy (lazy_inv ws) (fun c v => est idR ws (qthr ws d c) v)) in H; [apply H| |].
  - intros st x y st'' I Hx Hf. apply (threshold_est ws V Hne d st x y st'' Hx I Hf).
  - cbn. split; [now apply inv_init|lra].
Qed.

Theorem C30_scaleWeights : forall ws desired d alpha r ws', scale_weights ws desired d alpha r ws' ->
  match r with
  | Thrown => bad_alpha alpha /\ ws' = ws
  | Returned s => ~ bad_alpha alpha /\ length ws' = length ws /\ (forall u, nth u ws' 0 = nth u ws 0 * s)
  end.
Proof.
  intros ws desired d alpha r ws' H. pose proof (throw_iff alpha) as TI.
  assert (E : forall s, length (map (fun w => w * s) ws) = length ws /\ forall u, nth u (map (fun w => w * s) ws) 0 = nth u ws 0 * s).
  { intros s. split; [apply map_length|]. intros u. rewrite <- (map_nth (fun w => w * s)). f_equal. ring. }
  destruct H as [s H1 H2|a s H1 H2 Ea H3|H1 H2]; [| |tauto].
  - split; [|apply E]. intros [C _]%TI. congruence.
  - split; [|apply E]. intros [_ C]%TI. congruence.
Qed.
Theorem C30_throws_iff : forall ws desired d alpha ws', scale_weights ws desired d alpha Thrown ws' <-> bad_alpha alpha /\ ws' = ws.
Proof.
  intros ws desired d alpha ws'. split; [intros H; exact (C30_scaleWeights _ _ _ _ _ _ H)|]. intros [H ->]. apply throw_iff in H as [H1 H2]. now constructor.
Qed.

(** ** C32: the search *)
(** any number of iterations of the loops of the search, as executed for scaleWeights *)
Definition search_terminates {St} (f : St -> R -> R -> St -> Prop) (desired : R) (st : St) : Prop :=
  Acc (fun later earlier => search_step f desired default_accuracy earlier later) (InUp st 1 2) (* no infinite run *) /\
  forall a, search_run f desired default_accuracy (InUp st 1 2) a -> (exists st' r v, a = Done st' r v) \/ exists b, search_step f desired default_accuracy a b (* no run gets stuck *).
Definition search_diverges {St} (f : St -> R -> R -> St -> Prop) (desired : R) (st : St) : Prop :=
  forall a, search_run f desired default_accuracy (InUp st 1 2) a -> exists b, search_step f desired default_accuracy a b (* every run goes on for ever *).
Lemma terminates_result {St} (f : St -> R -> R -> St -> Prop) desired st : search_terminates f desired st -> exists st' r v, search f desired default_accuracy st 1 2 st' r v.
Proof.
  intros [HA HP]. unfold search. set (a0 := InUp st 1 2) in *.
  assert (HA' : forall a, Acc (fun later earlier => search_step f desired default_accuracy earlier later) a -> search_run f desired default_accuracy a0 a -> exists st' r v, search_run f desired default_accuracy a (Done st' r v)).
  { clear HA. induction 1 as [a _ IH]; intros Hr. destruct (HP a Hr) as [(st' & r & v & ->)|(b & Hb)]; [exists st', r, v; constructor|].
    destruct (IH b Hb) as (st' & r & v & Hv); [eapply (run_trans f); [exact Hr|]; econstructor; [exact Hb|constructor]|]. exists st', r, v. econstructor; eassumption. }
  apply HA'; [exact HA|constructor].
Qed.

Section Thr.
  Variables (ws : list R) (d : nat).
  Hypothesis V : double_weights ws.
  Hypothesis Hne : ws <> [].
  Hypothesis Hd : (d >= 1)%nat.
  Lemma thr_val : forall st c v st', lazy_inv ws st -> 0 < c -> threshold_f ws d st c v st' -> lazy_inv ws st' /\ val idR (qthr ws d) ws c v.
  Proof. intros st c v st' I Hc Hf. exact (threshold_est ws V Hne d st c v st' Hc I Hf). Qed.
  Lemma id_mono : forall y z, 0 < y <= z -> z <= 1 -> idR y <= idR z. Proof. unfold idR; intros; lra. Qed.
  Lemma id_pos : forall z, 0 < z <= 1 -> 0 < idR z. Proof. unfold idR; intros; lra. Qed.
  Lemma id_cont : forall z, 0 < z -> continuity_pt idR z. Proof. intros z _. apply derivable_continuous_pt. apply derivable_pt_id. Qed.
  Lemma id_zero : forall e, 0 < e -> exists z, 0 < z <= 1 /\ idR z <= e.
  Proof. intros e He. exists (Rmin 1 e). unfold idR. split; [split; [apply Rmin_glb_lt; lra|apply Rmin_l]|apply Rmin_r]. Qed.
  Lemma thr_terminates desired st : lazy_inv ws st -> 0 < desired <= INR (length ws) - 1 -> search_terminates (threshold_f ws d) desired st.
  Proof.
    intros I Hdes. split.
    - apply (total_terminates idR (qthr ws d) ws desired eq_refl id_mono id_pos id_cont id_zero (qthr_pos ws V Hne d) (fun x y H => qthr_mono ws V Hne d x y Hd H)
        (fun c _ => qthr_cont ws d c) (fun y Hy => qthr_surj ws V Hne d y Hd Hy) V Hne (threshold_f ws d) (lazy_inv ws) thr_val st I Hdes).
    - intros a. apply (total_progress idR (qthr ws d) ws desired (threshold_f ws d) (lazy_inv ws) thr_val (fun st c I _ => threshold_f_exists ws d st c I) st a I).
  Qed.
  Lemma thr_diverges desired st : lazy_inv ws st -> INR (length ws) - 1 < desired -> search_diverges (threshold_f ws d) desired st.
  Proof.
    intros I Hdes a Ha. destruct (total_progress idR (qthr ws d) ws desired (threshold_f ws d) (lazy_inv ws) thr_val (fun st c I _ => threshold_f_exists ws d st c I) st a I Ha) as [(st' & r & v & ->)|H]; [|exact H].
    exfalso. destruct (total_diverges idR (qthr ws d) ws desired eq_refl id_mono id_pos (qthr_pos ws V Hne d) V Hne (threshold_f ws d) (lazy_inv ws) thr_val st _ I Hdes Ha) as (? & ? & ? & E). discriminate.
  Qed.
  Lemma thr_degree c : 0 < c -> expected_degree threshold_rule d (scaled (c ^ d) ws) = deg_sum idR ws (qthr ws d c) / INR (length ws).
  Proof.
    intros Hc. apply expected_degree_closed; auto; [now apply pow_lt| |].
    - unfold qthr. rewrite Rpow_mult_distr, sumR_by. reflexivity.
    - intros k Hk. now apply threshold_closed.
  Qed.
End Thr.
Section Gen.
  Variables (ws : list R) (d : nat) (alpha : R).
  Hypothesis V : double_weights ws.
  Hypothesis Hne : ws <> [].
  Hypothesis Hd : (d >= 1)%nat.
  Hypothesis Hlen : (N.of_nat (length ws) < 2 ^ 31)%N.
  Hypothesis H0 : 0 < alpha.
  Hypothesis H1 : alpha <> 1.
  Lemma gen_val : forall st c v st', gen_inv ws alpha st -> 0 < c -> general_f ws d alpha st c v st' -> gen_inv ws alpha st' /\ val (phi_gen alpha) (qgen ws alpha d) ws c v.
  Proof. intros st c v st' I Hc Hf. exact (general_est ws V Hne alpha H0 H1 d st c v st' Hd Hlen Hc I Hf). Qed.
  Lemma gen_terminates desired st : gen_inv ws alpha st -> 0 < desired <= INR (length ws) - 1 -> search_terminates (general_f ws d alpha) desired st.
  Proof.
    intros I Hdes. split.
    - apply (total_terminates (phi_gen alpha) (qgen ws alpha d) ws desired (phi_gen_1 alpha H1) (fun y z => phi_gen_mono alpha y z H0 H1) (fun z => phi_gen_pos alpha z H0 H1)
        (fun z => phi_gen_cont alpha z H1) (fun e => phi_gen_zero alpha e H0 H1) (fun c _ => qgen_pos ws V Hne alpha d c) (fun x y H => qgen_mono ws V Hne alpha H0 d x y H)
        (fun c => qgen_cont ws alpha d c) (fun y Hy => qgen_surj ws V Hne alpha H0 d y Hy) V Hne (general_f ws d alpha) (gen_inv ws alpha) gen_val st I Hdes).
    - intros a. apply (total_progress (phi_gen alpha) (qgen ws alpha d) ws desired (general_f ws d alpha) (gen_inv ws alpha) gen_val (fun st c I _ => general_f_exists ws alpha d st c I) st a I).
  Qed.
  Lemma gen_diverges desired st : gen_inv ws alpha st -> INR (length ws) - 1 < desired -> search_diverges (general_f ws d alpha) desired st.
  Proof.
    intros I Hdes a Ha. destruct (total_progress (phi_gen alpha) (qgen ws alpha d) ws desired (general_f ws d alpha) (gen_inv ws alpha) gen_val (fun st c I _ => general_f_exists ws alpha d st c I) st a I Ha) as [(st' & r & v & ->)|H]; [|exact H].
    exfalso. destruct (total_diverges (phi_gen alpha) (qgen ws alpha d) ws desired (phi_gen_1 alpha H1) (fun y z => phi_gen_mono alpha y z H0 H1) (fun z => phi_gen_pos alpha z H0 H1) (fun c _ => qgen_pos ws V Hne alpha d c) V Hne (general_f ws d alpha) (gen_inv ws alpha) gen_val st _ I Hdes Ha) as (? & ? & ? & E). discriminate.
  Qed.
  Lemma gen_degree c : 0 < c -> expected_degree (alpha_rule alpha) d (scaled (Rpower c (1 / alpha)) ws) = deg_sum (phi_gen alpha) ws (qgen ws alpha d c) / INR (length ws).
  Proof.
    intros Hc. apply expected_degree_closed; auto; [apply exp_pos| |].
    - unfold qgen. rewrite sumR_by. reflexivity.
    - intros k Hk. now apply alpha_closed.
  Qed.
End Gen.

(** what scaleWeights achieves: the expected degree of the scaled weights; [rule] is the connection rule of the estimator that was used *)
Theorem C32_degree_reached : forall ws desired d alpha s ws', double_weights ws -> ws <> [] -> (N.of_nat (length ws) < 2 ^ 31)%N -> (1 <= d)%nat ->
  scale_weights ws desired d alpha (Returned s) ws' ->
  0 < s /\
  let rule := match alpha with DFin a => if Rlt_dec 8 a then threshold_rule else alpha_rule a | _ => threshold_rule end in
  desired - 2 / 100 <= expected_degree rule d ws' < desired + 2 / 100 + 1 / INR (length ws).
Proof.
  intros ws desired d alpha s ws' V Hne Hlen Hd H. inversion H as [s' Hg Hs E1 E2|a s' Hg Hb Ea Hs E1 E2|]; subst s' ws'.
  - assert (Er : (match alpha with DFin a => if Rlt_dec 8 a then threshold_rule else alpha_rule a | _ => threshold_rule end) = threshold_rule).
    { destruct alpha as [| |a]; auto. cbn in Hg. destruct (Rlt_dec 8 a); [reflexivity|discriminate]. }
    cbv zeta. rewrite Er. destruct Hs as (st' & c & v & Hs & ->).
    destruct (total_result idR (qthr ws d) ws desired eq_refl id_mono id_pos (qthr_pos ws V Hne d) V Hne (threshold_f ws d) (lazy_inv ws) (thr_val ws d V Hne) (lazy_init ws) st' c v (inv_init ws V) Hs) as [Hc R].
    split; [now apply pow_lt|]. change (map (fun w => w * c ^ d) ws) with (scaled (c ^ d) ws). rewrite (thr_degree ws d V Hne Hd c Hc). exact R.
  - subst alpha. cbn in Hg, Hb. apply andb_prop in Hb as [Hb1 Hb2].
    destruct (Rlt_dec 8 a) as [C|C]; [discriminate|]. destruct (Rlt_dec 0 a) as [A0|A0]; [|discriminate]. destruct (Req_EM_T a 1) as [A1|A1]; [discriminate|]. clear Hg Hb1 Hb2.
    destruct Hs as (st' & c & v & Hs & ->).
    destruct (total_result (phi_gen a) (qgen ws a d) ws desired (phi_gen_1 a A1) (fun y z => phi_gen_mono a y z A0 A1) (fun z => phi_gen_pos a z A0 A1) (fun c _ => qgen_pos ws V Hne a d c) V Hne (general_f ws d a) (gen_inv ws a)
      (gen_val ws d a V Hne Hd Hlen A0 A1) (lazy_init ws, []) st' c v (gen_inv_init ws V a) Hs) as [Hc R].
    split; [apply exp_pos|]. cbv zeta. change (map (fun w => w * Rpower c (1 / a)) ws) with (scaled (Rpower c (1 / a)) ws). rewrite (gen_degree ws d a V Hne Hd A0 A1 c Hc). exact R.
Qed.

(** the search ends in every run iff the desired degree is at most n - 1, the maximum degree *)
Theorem C32_termination : forall ws desired d, double_weights ws -> ws <> [] -> (N.of_nat (length ws) < 2 ^ 31)%N -> (1 <= d)%nat ->
  (0 < desired <= INR (length ws) - 1 ->
     search_terminates (threshold_f ws d) desired (lazy_init ws) /\
     (forall alpha, 0 < alpha -> alpha <> 1 -> search_terminates (general_f ws d alpha) desired (lazy_init ws, [])) /\
     (forall alpha, ~ bad_alpha alpha -> exists s, scale_weights ws desired d alpha (Returned s) (scaled s ws))) /\
  (INR (length ws) - 1 < desired ->
     search_diverges (threshold_f ws d) desired (lazy_init ws) /\
     (forall alpha, 0 < alpha -> alpha <> 1 -> search_diverges (general_f ws d alpha) desired (lazy_init ws, [])) /\
     (forall alpha s ws', ~ scale_weights ws desired d alpha (Returned s) ws')).
Proof.
  intros ws desired d V Hne Hlen Hd. split; intros Hdes.
  - assert (T1 : search_terminates (threshold_f ws d) desired (lazy_init ws)) by (apply thr_terminates; auto; now apply inv_init).
    assert (T2 : forall alpha, 0 < alpha -> alpha <> 1 -> search_terminates (general_f ws d alpha) desired (lazy_init ws, [])) by (intros; apply gen_terminates; auto; now apply gen_inv_init).
    split; [exact T1|]. split; [exact T2|]. intros alpha Hb. rewrite <- throw_iff in Hb. destruct (dgt alpha 8) eqn:E8.
    + destruct (terminates_result _ _ _ T1) as (st' & r & v & Hr). exists (r ^ d). apply scale_thr; [exact E8|]. exists st', r, v. split; [exact Hr|reflexivity].
    + destruct (dgt alpha 0 && dne alpha 1) eqn:E0; [|exfalso; apply Hb; auto]. destruct alpha as [|b|a]; cbn in *; try discriminate; [destruct b; discriminate|].
      pose proof E0 as E0'. apply andb_prop in E0 as [Q1 Q2]. destruct (Rlt_dec 0 a) as [A0|A0]; [|discriminate]. destruct (Req_EM_T a 1) as [A1|A1]; [discriminate|].
      destruct (terminates_result _ _ _ (T2 a A0 A1)) as (st' & r & v & Hr). exists (Rpower r (1 / a)). eapply scale_gen; [exact E8| |reflexivity|].
      * cbn. destruct (Rlt_dec 0 a), (Req_EM_T a 1); auto; lra.
      * exists st', r, v. split; [exact Hr|reflexivity].
  - assert (T1 : search_diverges (threshold_f ws d) desired (lazy_init ws)) by (apply thr_diverges; auto; now apply inv_init).
    assert (T2 : forall alpha, 0 < alpha -> alpha <> 1 -> search_diverges (general_f ws d alpha) desired (lazy_init ws, [])) by (intros; apply gen_diverges; auto; now apply gen_inv_init).
    split; [exact T1|]. split; [exact T2|]. intros alpha s ws' H. inversion H as [s' Hg Hs E1 E2|a s' Hg Hb Ea Hs E1 E2|]; subst.
    + destruct Hs as (st' & c & v & Hs & _). destruct (T1 _ Hs) as (b & Hb). inversion Hb.
    + destruct Hs as (st' & c & v & Hs & _). cbn in Hb. destruct (Rlt_dec 0 a) as [A0|A0]; [|discriminate]. destruct (Req_EM_T a 1) as [A1|A1]; [discriminate|].
      destruct (T2 a A0 A1 _ Hs) as (b & Hb'). inversion Hb'.
Qed.

(** the bare search, for any function whose states satisfy an invariant: the value at the returned point is within the accuracy *)
Theorem C32_accuracy : forall (f : R -> R) desired accuracy lo hi r,
  (exists st' v, search (fun (_ : unit) x v (_ : unit) => v = f x) desired accuracy tt lo hi st' r v) -> Rabs (f r - desired) <= accuracy.
Proof.
  intros f desired accuracy lo hi r (st' & v & H). unfold search in H.
  assert (G : forall a b, search_run (fun (_ : unit) x v (_ : unit) => v = f x) desired accuracy a b -> b = Done st' r v -> a = b \/ (v = f r /\ Rabs (v - desired) <= accuracy)).
  { induction 1 as [a|a b c Hs Hr IH]; intros Eb; [now left|]. destruct (IH Eb) as [->|E]; [|now right]. subst c. right. inversion Hs; subst. split; [reflexivity|]. now apply Rnot_gt_le. }
  destruct (G _ _ H eq_refl) as [E|[-> E]]; [discriminate|exact E].
Qed.

(** ** C33: the lazily sorted weights, for any sequence of queries *)
Inductive queries : lazy -> list (R * nat * list R) -> lazy -> Prop :=
| q_none : forall st, queries st [] st
| q_one : forall st t k st1 l st2, sort_downto st t k st1 -> queries st1 l st2 -> queries st ((t, k, larr st1) :: l) st2.
Theorem C33_lazy_sorter : forall ws, double_weights ws ->
  (forall ts, exists l st, queries (lazy_init ws) l st /\ map (fun q => fst (fst q)) l = ts) /\
  forall l st, queries (lazy_init ws) l st ->
    (* a query for threshold t returned the range of the first k elements of arr *)
    (forall t k arr, In (t, k, arr) l -> Permutation arr ws /\ (k <= length ws)%nat /\ StronglySorted Rge (firstn k arr) /\
      (forall x, In x (firstn k arr) -> x >= t) /\ (forall x, In x (skipn k arr) -> x <= t)) /\
    (* later queries do not change a returned range *)
    (forall l1 l2 t k arr t' k' arr', l = l1 ++ (t, k, arr) :: l2 -> In (t', k', arr') l2 -> firstn k arr' = firstn k arr).
Proof.
  intros ws V. assert (I : lazy_inv ws (lazy_init ws)) by now apply inv_init. revert I. generalize (lazy_init ws) as st0. intros st0 I. split.
  - intros ts. revert st0 I. induction ts as [|t ts IH]; intros st0 I; [exists [], st0; split; constructor|].
    destruct (query_exists ws st0 t I) as (k & st1 & H). destruct (query_correct _ _ _ _ _ V I H) as (I1 & _). destruct (IH st1 I1) as (l & st & Hq & E).
    exists ((t, k, larr st1) :: l), st. split; [econstructor; eassumption|]. cbn. now rewrite E.
  - assert (EXT : forall l st st', queries st l st' -> lazy_inv ws st -> forall t' k' arr', In (t', k', arr') l -> firstn (lend st) arr' = firstn (lend st) (larr st)).
    { induction 1 as [|st t k st1 l st2 Hs _ IH]; intros I0 t' k' arr' Hin; [destruct Hin|]. destruct (query_correct _ _ _ _ _ V I0 Hs) as (I1 & _ & [EX1 EX2] & _).
      destruct Hin as [[= <- <- <-]|Hin]; [exact EX2|]. rewrite <- EX2. eapply firstn_le_eq; [exact EX1|]. eapply IH; eassumption. }
    induction 1 as [st|st t k st1 l st2 Hs Hq IH]; [split; [intros ? ? ? []|intros [|] ? ? ? ? ? ? ?; discriminate]|].
    destruct (query_correct _ _ _ _ _ V I Hs) as (I1 & Q & _ & Hk). destruct (IH I1) as [IH1 IH2]. split.
    + intros t' k' arr' [[= <- <- <-]|Hin]; [|now apply IH1]. destruct Q as [Q1 Q2 Q3 Q4 Q5]. rewrite Forall_forall in Q4, Q5. auto.
    + intros l1 l2 t' k' arr' t2 k2 arr2 E Hin. destruct l1 as [|y l1]; cbn in E; injection E; intros; subst; [|eapply IH2; [reflexivity|eassumption]].
      eapply firstn_le_eq; [exact Hk|]. eapply EXT; eassumption.
Qed.

(** ** C34, C35: what the estimators compute, for every sequence of evaluations *)
Inductive evaluations {St} (f : St -> R -> R -> St -> Prop) : St -> list (R * R) -> St -> Prop :=
| e_none : forall st, evaluations f st [] st
| e_one : forall st c v st1 l st2, 0 < c -> f st c v st1 -> evaluations f st1 l st2 -> evaluations f st ((c, v) :: l) st2.
Lemma evaluations_val {St} (f : St -> R -> R -> St -> Prop) (Inv : St -> Prop) (P : R -> R -> Prop) :
  (forall st c v st', Inv st -> 0 < c -> f st c v st' -> Inv st' /\ P c v) -> forall st l st', evaluations f st l st' -> Inv st -> forall c v, In (c, v) l -> 0 < c /\ P c v.
Proof.
  intros HI. induction 1 as [|st c v st1 l st2 Hc Hf _ IH]; intros I c' v' Hin; [destruct Hin|]. destruct (HI _ _ _ _ I Hc Hf) as [I1 HP]. destruct Hin as [[= <- <-]|Hin]; auto.
Qed.
Lemma evaluations_exist {St} (f : St -> R -> R -> St -> Prop) (Inv : St -> Prop) :
  (forall st c v st', Inv st -> 0 < c -> f st c v st' -> Inv st') -> (forall st c, Inv st -> exists v st', f st c v st') ->
  forall cs st, (forall c, In c cs -> 0 < c) -> Inv st -> exists l st', evaluations f st l st' /\ map fst l = cs.
Proof.
  intros HI HE. induction cs as [|c cs IH]; intros st Hp I; [exists [], st; split; constructor|]. destruct (HE st c I) as (v & st1 & Hf). assert (Hc : 0 < c) by (apply Hp; now left).
  destruct (IH st1 (fun x H => Hp x (or_intror H)) (HI _ _ _ _ I Hc Hf)) as (l & st' & Hq & E). exists ((c, v) :: l), st'. split; [econstructor; eassumption|]. cbn. now rewrite E.
Qed.

Theorem C34_threshold_estimator : forall ws d, double_weights ws -> ws <> [] -> (1 <= d)%nat ->
  (forall cs, (forall c, In c cs -> 0 < c) -> exists l st, evaluations (threshold_f ws d) (lazy_init ws) l st /\ map fst l = cs) /\
  forall l st c v, evaluations (threshold_f ws d) (lazy_init ws) l st -> In (c, v) l ->
    let E := expected_degree threshold_rule d (scaled (c ^ d) ws) in E - 1 / INR (length ws) < v <= E.
Proof.
  intros ws d V Hne Hd. split.
  - intros cs Hp. apply (evaluations_exist _ (lazy_inv ws)); auto; [|intros; now apply threshold_f_exists|now apply inv_init]. intros st c v st' I Hc Hf. eapply thr_val; eassumption.
  - intros l st c v He Hin. destruct (evaluations_val _ (lazy_inv ws) (val idR (qthr ws d) ws) (thr_val ws d V Hne) _ _ _ He (inv_init ws V) c v Hin) as [Hc Hv].
    cbv zeta. rewrite (thr_degree ws d V Hne Hd c Hc). apply (val_range idR (qthr ws d) ws eq_refl id_mono id_pos (qthr_pos ws V Hne d) V Hne c v Hc Hv).
Qed.
(** closed form of the same expectation: min(1, (2c)^d w_u w_v / W) *)
Theorem C34_closed_form : forall ws d c, double_weights ws -> ws <> [] -> (1 <= d)%nat -> 0 < c ->
  expected_degree threshold_rule d (scaled (c ^ d) ws) = pair_sum (fun x y => Rmin 1 ((2 * c) ^ d * (x * y / sumR ws))) ws / INR (length ws).
Proof.
  intros ws d c V Hne Hd Hc. rewrite (thr_degree ws d V Hne Hd c Hc). f_equal. unfold deg_sum. rewrite pair_sum_psum. apply psum_ext. intros x y _ _. unfold capped, idR, qthr. rewrite <- sumR_by.
  replace ((2 * c) ^ d / sumR ws * (x * y)) with ((2 * c) ^ d * (x * y / sumR ws)) by (unfold Rdiv; ring). unfold Rmin. destruct (Rge_dec _ 1), (Rle_dec 1 _); lra.
Qed.
Theorem C35_general_estimator : forall ws d alpha, double_weights ws -> ws <> [] -> (N.of_nat (length ws) < 2 ^ 31)%N -> (1 <= d)%nat -> 0 < alpha -> alpha <> 1 ->
  (forall cs, (forall c, In c cs -> 0 < c) -> exists l st, evaluations (general_f ws d alpha) (lazy_init ws, []) l st /\ map fst l = cs) /\
  forall l st c v, evaluations (general_f ws d alpha) (lazy_init ws, []) l st -> In (c, v) l ->
    let E := expected_degree (alpha_rule alpha) d (scaled (Rpower c (1 / alpha)) ws) in E - 1 / INR (length ws) < v <= E.
Proof.
  intros ws d alpha V Hne Hlen Hd H0 H1. split.
  - intros cs Hp. apply (evaluations_exist _ (gen_inv ws alpha)); auto; [|intros; now apply general_f_exists|now apply gen_inv_init]. intros st c v st' I Hc Hf. eapply (gen_val ws d alpha); eassumption.
  - intros l st c v He Hin. destruct (evaluations_val _ (gen_inv ws alpha) (val (phi_gen alpha) (qgen ws alpha d) ws) (gen_val ws d alpha V Hne Hd Hlen H0 H1) _ _ _ He (gen_inv_init ws V alpha) c v Hin) as [Hc Hv].
    cbv zeta. rewrite (gen_degree ws d alpha V Hne Hd H0 H1 c Hc).
    apply (val_range (phi_gen alpha) (qgen ws alpha d) ws (phi_gen_1 alpha H1) (fun y z => phi_gen_mono alpha y z H0 H1) (fun z => phi_gen_pos alpha z H0 H1) (fun c _ => qgen_pos ws V Hne alpha d c) V Hne c v Hc Hv).
Qed.

(** the estimator is not exact: one missing self loop is subtracted although it was never added *)
Lemma sort_two a b t : a >= b -> b >= t -> t < dbl_max -> sort_downto (lazy_init [a; b]) t 2 {| larr := [a; b]; lend := 2; llow := dbl_min |}.
Proof.
  intros H1 H2 H3. unfold sort_downto. cbn [lazy_init llow lend larr]. destruct (Rlt_dec t dbl_max) as [_|C]; [|lra].
  exists [a; b], []. split; [reflexivity|]. split; [constructor; [lra|constructor; [lra|constructor]]|]. split; [constructor|]. exists [a; b]. split; [reflexivity|].
  split; [constructor; [constructor; constructor|constructor; [lra|constructor]]|]. split; reflexivity.
Qed.
Lemma small_double x : 1 <= x <= 2 ^ 31 -> bpow radix2 (-1022) <= x <= (2 - bpow radix2 (-52)) * bpow radix2 1023.
Proof.
  intros H. split; [apply Rle_trans with (bpow radix2 0); [apply bpow_le; lia|cbn; lra]|].
  assert (bpow radix2 (-52) <= 1) by (change 1 with (bpow radix2 0); apply bpow_le; lia). assert (2 ^ 31 <= bpow radix2 1023).
  { apply Rle_trans with (bpow radix2 31); [|apply bpow_le; lia]. right. change (bpow radix2 31) with (IZR (2 ^ 31)). change (2 ^ 31) with (IZR 2 ^ 31). rewrite pow_IZR. reflexivity. }
  assert (0 < bpow radix2 1023) by apply bpow_gt_0. nra.
Qed.
Theorem C34_not_exact : exists st', double_weights [4; 1] /\ threshold_f [4; 1] 1 (lazy_init [4; 1]) (5 / 8) (5 / 8) st' /\
  expected_degree threshold_rule 1 (scaled ((5 / 8) ^ 1) [4; 1]) = 1.
Proof.
  assert (V : double_weights [4; 1]) by (constructor; [apply small_double; split; [lra|cbn; lra]|constructor; [apply small_double; split; [lra|cbn; lra]|constructor]]).
  exists {| larr := [4; 1]; lend := 2; llow := dbl_min |}. split; [exact V|]. split.
  - exists 2%nat. assert (E1 : sum_by (fun w => w) [4; 1] = 5) by (cbn; lra). assert (E2 : sum_by (fun w => w * w) [4; 1] = 17) by (cbn; lra).
    assert (E3 : max_from 0 [4; 1] = 4) by (unfold max_from; cbn; rewrite (Rmax_right 0 4), (Rmax_left 4 1); lra). rewrite E1, E2, E3. split.
    + replace (5 / (2 * (5 / 8)) ^ 1 / 4) with 1 by (cbn; field). apply sort_two; try lra. destruct (small_double 2 ltac:(split; [lra|cbn; lra])) as [_ B]. unfold dbl_max. lra.
    + cbn [firstn larr with_index length seq combine rev app threshold_loop advance_w2]. replace ((2 * (5 / 8)) ^ 1) with (5 / 4) by (cbn; field).
      replace (1 / (1 / 5) / (5 / 4)) with 4 by field. replace (1 / (4 / 5) / (5 / 4)) with 1 by field.
      destruct (Rge_dec 4 4) as [_|C]; [|lra]. destruct (Rge_dec 1 4) as [C|_]; [lra|]. cbn [Nat.leb threshold_loop advance_w2]. destruct (Rge_dec 1 1) as [_|C]; [|lra].
      cbn [Nat.leb threshold_loop advance_w2 INR length]. field.
  - rewrite C34_closed_form; [|exact V|discriminate|lia|lra]. unfold pair_sum, sumR. cbn [length seq map Nat.eqb nth fold_right]. replace ((2 * (5 / 8)) ^ 1) with (5 / 4) by (cbn; field).
    rewrite !Rmin_left by lra. cbn [INR]. lra.
Qed.

(** ** C31: scaling is the constant of the connection rule *)
Lemma pow_root_lt m x k : (m >= 1)%nat -> 0 <= x -> 0 < k -> (x ^ m < k <-> x < Rpower k (/ INR m)).
Proof.
  intros Hm Hx Hk. assert (E : Rpower k (/ INR m) ^ m = k). { rewrite <- Rpower_pow by apply exp_pos. rewrite Rpower_mult, Rinv_l by (apply not_0_INR; lia). now apply Rpower_1. }
  assert (P : 0 < Rpower k (/ INR m)) by apply exp_pos. split; intros H.
  - apply Rnot_le_lt. intros C. assert (Rpower k (/ INR m) ^ m <= x ^ m) by (apply pow_incr; lra). lra.
  - rewrite <- E. destruct (Req_dec x 0) as [->|N0]; [rewrite pow_i by lia; apply pow_lt; exact P|]. rewrite <- !Rpower_pow by lra. unfold Rpower at 1 2. apply exp_increasing. apply Rmult_lt_compat_l; [apply lt_0_INR; lia|]. apply ln_increasing; lra.
Qed.
Lemma scaled_nth s ws u : nth u (scaled s ws) 0 = nth u ws 0 * s.
Proof. unfold scaled. replace 0 with (0 * s) at 1 by ring. apply (map_nth (fun w => w * s)). Qed.
Lemma scaled_term s ws u v : 0 < s -> 0 < sumR ws -> nth u (scaled s ws) 0 * nth v (scaled s ws) 0 / sumR (scaled s ws) = s * (nth u ws 0 * nth v ws 0 / sumR ws).
Proof. intros Hs HW. rewrite !scaled_nth, sumR_scaled. field. lra. Qed.
Lemma sumR_pos ws : ws <> [] -> (forall w, In w ws -> 0 < w) -> 0 < sumR ws.
Proof. intros Hne Hp. rewrite sumR_by. now apply sumf_pos. Qed.

Theorem C31_threshold_rule : forall D ws ps s u v, (1 <= D)%N -> (forall w, In w ws -> 0 < w) -> (u < length ws)%nat -> (v < length ws)%nat -> 0 < s ->
  (threshold_edge D (scaled s ws) ps u v <->
   exists dist, is_torus_dist (nth u ps []) (nth v ps []) dist /\
     dist < Rpower s (1 / INR (N.to_nat D)) * Rpower (nth u ws 0 * nth v ws 0 / sumR ws) (1 / INR (N.to_nat D))).
Proof.
  intros D ws ps s u v HD Hp Hu Hv Hs. assert (HW : 0 < sumR ws) by (apply sumR_pos; [destruct ws; [cbn in Hu; lia|discriminate]|exact Hp]).
  assert (Pu := Hp _ (nth_In ws 0 Hu)). assert (Pv := Hp _ (nth_In ws 0 Hv)). assert (Pk : 0 < nth u ws 0 * nth v ws 0 / sumR ws) by (apply Rdiv_lt_0_compat; [apply Rmult_lt_0_compat|]; assumption).
  unfold threshold_edge. rewrite scaled_term by assumption. rewrite Rpower_mult_distr by assumption. replace (1 / INR (N.to_nat D)) with (/ INR (N.to_nat D)) by (unfold Rdiv; now rewrite Rmult_1_l).
  split; intros (e & He & H); exists e; (split; [exact He|]); destruct He as (_ & He0 & _); apply pow_root_lt; auto; try lia; apply Rmult_lt_0_compat; assumption.
Qed.
Theorem C31_supergraph : forall D ws ps s s' u v, (forall w, In w ws -> 0 < w) -> (u < length ws)%nat -> (v < length ws)%nat -> 0 < s <= s' ->
  threshold_edge D (scaled s ws) ps u v -> threshold_edge D (scaled s' ws) ps u v.
Proof.
  intros D ws ps s s' u v Hp Hu Hv Hs. assert (HW : 0 < sumR ws) by (apply sumR_pos; [destruct ws; [cbn in Hu; lia|discriminate]|exact Hp]).
  assert (Pu := Hp _ (nth_In ws 0 Hu)). assert (Pv := Hp _ (nth_In ws 0 Hv)). assert (Pk : 0 < nth u ws 0 * nth v ws 0 / sumR ws) by (apply Rdiv_lt_0_compat; [apply Rmult_lt_0_compat|]; assumption).
  unfold threshold_edge. rewrite !scaled_term by lra. intros (e & He & H). exists e. split; [exact He|]. nra.
Qed.
(** ... for the generated graphs *)
Theorem C31_generated_supergraph : forall cfg rg D ws ps s s' seed omp_max team, 0 < s <= s' ->
  girg_input D (scaled s ws) ps seed omp_max team -> girg_input D (scaled s' ws) ps seed omp_max team -> good_rng rg ->
  forall o o', girg_outcome ideal_env cfg rg (scaled s ws) ps AInf seed omp_max team o -> girg_outcome ideal_env cfg rg (scaled s' ws) ps AInf seed omp_max team o' ->
  exists edges edges', o = Some edges /\ o' = Some edges' /\
    forall u v, (u < length ws)%nat -> (v < length ws)%nat -> u <> v -> In (u, v) edges \/ In (v, u) edges -> In (u, v) edges' \/ In (v, u) edges'.
Proof.
  intros cfg rg D ws ps s s' seed omp_max team Hs HI HI' GG o o' Ho Ho'.
  destruct (C01_threshold_graph_is_exact cfg rg _ _ _ _ _ _ HI GG) as [_ H]. destruct (H o Ho) as (e & -> & He).
  destruct (C01_threshold_graph_is_exact cfg rg _ _ _ _ _ _ HI' GG) as [_ H']. destruct (H' o' Ho') as (e' & -> & He').
  exists e, e'. split; [reflexivity|]. split; [reflexivity|]. intros u v Hu Hv Hne. unfold scaled in He, He'. rewrite map_length in He, He'. fold (scaled s ws) in He. fold (scaled s' ws) in He'.
  rewrite (He u v Hu Hv Hne), (He' u v Hu Hv Hne). apply C31_supergraph; auto. intros w Hw.
  assert (P : 0 < w * s) by (apply (weights_pos _ _ (gi_weights _ _ _ _ _ _ HI)); unfold scaled; apply in_map_iff; eauto). nra.
Qed.
(** finite alpha: the connection probability of two nodes (before capping at 1) is multiplied by s^alpha *)
Definition scale_node (s : R) (a : Coord_Model.node) : Coord_Model.node :=
  {| Coord_Model.coord := Coord_Model.coord a; Coord_Model.weight := Coord_Model.weight a * s; Coord_Model.index := Coord_Model.index a; Coord_Model.cell_id := Coord_Model.cell_id a |}.
Theorem C31_probability : forall D W alpha a b s, 0 < s -> 0 < W -> 0 < Coord_Model.weight a -> 0 < Coord_Model.weight b -> 0 < alpha ->
  conn_prob ideal_env D (W * s) (AFin alpha) (scale_node s a) (scale_node s b) =
    match conn_prob ideal_env D W (AFin alpha) a b with XInf => XInf | XFin p => XFin (Rpower s alpha * p) end /\
  (1 <= s -> xmin1 (conn_prob ideal_env D W (AFin alpha) a b) <= xmin1 (conn_prob ideal_env D (W * s) (AFin alpha) (scale_node s a) (scale_node s b))).
Proof.
  intros D W alpha a b s Hs HW Ha Hb Hal.
  assert (E : conn_prob ideal_env D (W * s) (AFin alpha) (scale_node s a) (scale_node s b) =
    match conn_prob ideal_env D W (AFin alpha) a b with XInf => XInf | XFin p => XFin (Rpower s alpha * p) end).
  { unfold conn_prob, w_term, d_term. change (Coord_Model.node_distance ideal_env (scale_node s a) (scale_node s b)) with (Coord_Model.node_distance ideal_env a b).
    set (d := Coord_Model.pow_to_the ideal_env D (Coord_Model.node_distance ideal_env a b)). cbn [rnd ideal_env Coord_Model.weight scale_node]. unfold xdiv.
    destruct (Req_EM_T d 0) as [Z|Z]; cbn [xpow]; [destruct (Rlt_dec 0 alpha); [reflexivity|lra]|]. cbn [rnd fpow ideal_env].
    assert (Hd : 0 < d). { unfold d in *. rewrite pow_to_the_ideal in *. assert (0 <= Coord_Model.node_distance ideal_env a b) by apply coord_distance_ge. pose proof (pow_le _ (N.to_nat D) H). lra. }
    f_equal. rewrite Rpower_mult_distr; [f_equal; field; lra|exact Hs|]. apply Rdiv_lt_0_compat; [|exact Hd]. apply Rdiv_lt_0_compat; [|exact HW]. apply Rmult_lt_0_compat; assumption. }
  split; [exact E|]. intros H1. rewrite E. unfold conn_prob. cbn [xpow]. unfold xdiv. destruct (Req_EM_T _ 0); cbn [xmin1 xpow]; [destruct (Rlt_dec 0 alpha); cbn; lra|].
  cbn [rnd fpow ideal_env]. set (p := Rpower _ alpha). assert (P : 0 < p) by apply exp_pos. pose proof (Rpower_1_ge alpha Hal s H1). apply Rle_min_compat_r. nra.
Qed.

(** ** Non-vacuity *)
Lemma ex_double_weights : double_weights [4; 1].
Proof.
  assert (A : bpow radix2 (-1022) <= 1) by (change 1 with (bpow radix2 0); apply bpow_le; lia).
  assert (B : 4 <= (2 - bpow radix2 (-52)) * bpow radix2 1023).
  { assert (bpow radix2 (-52) <= 1) by (change 1 with (bpow radix2 0); apply bpow_le; lia). assert (4 <= bpow radix2 1023) by (change 4 with (bpow radix2 2); apply bpow_le; lia). nra. }
  repeat apply List.Forall_cons; [| |apply List.Forall_nil]; lra.
Qed.
(** the call scaleWeights({4, 1}, 0.5, 1, 2) returns, for both estimators, and reaches the degree *)
Example ex_C32 : exists s, scale_weights [4; 1] (1 / 2) 1 (DFin 2) (Returned s) (scaled s [4; 1]) /\
  1 / 2 - 2 / 100 <= expected_degree (alpha_rule 2) 1 (scaled s [4; 1]) < 1 / 2 + 2 / 100 + 1 / 2.
Proof.
  destruct (C32_termination [4; 1] (1 / 2) 1 ex_double_weights ltac:(discriminate) ltac:(cbn; lia) (le_n 1)) as [H _].
  destruct H as (_ & _ & H); [cbn; lra|]. destruct (H (DFin 2)) as [s Hs]; [cbn; lra|]. exists s. split; [exact Hs|].
  destruct (C32_degree_reached _ _ _ _ _ _ ex_double_weights ltac:(discriminate) ltac:(cbn; lia) (le_n 1) Hs) as [_ R]. cbn [length] in R. destruct (Rlt_dec 8 2); [lra|]. cbn [INR] in R. lra.
Qed.
Example ex_C32_threshold : exists s, scale_weights [4; 1] (1 / 2) 1 (DInf true) (Returned s) (scaled s [4; 1]).
Proof.
  destruct (C32_termination [4; 1] (1 / 2) 1 ex_double_weights ltac:(discriminate) ltac:(cbn; lia) (le_n 1)) as [H _].
  destruct H as (_ & _ & H); [cbn; lra|]. apply H. cbn. congruence.
Qed.
Example ex_C33 : exists l st, queries (lazy_init [4; 1]) l st /\ map (fun q => fst (fst q)) l = [5; 2; 3; 1].
Proof. apply (C33_lazy_sorter [4; 1] ex_double_weights). Qed.
Example ex_C34 : exists l st, evaluations (threshold_f [4; 1] 1) (lazy_init [4; 1]) l st /\ map fst l = [1; 1 / 8; 2].
Proof. apply (C34_threshold_estimator [4; 1] 1 ex_double_weights ltac:(discriminate) (le_n 1)). intros c [<-|[<-|[<-|[]]]]; lra. Qed.
Example ex_C35 : exists l st, evaluations (general_f [4; 1] 1 2) (lazy_init [4; 1], []) l st /\ map fst l = [1; 1 / 8; 2].
Proof. apply (C35_general_estimator [4; 1] 1 2 ex_double_weights ltac:(discriminate) ltac:(cbn; lia) (le_n 1)); try lra. intros c [<-|[<-|[<-|[]]]]; lra. Qed.
(** the generated graphs for the weights 1/2 and 2 (16 nodes on the circle) *)
Example ex_C31 s : 1 / 2 <= s <= 2 -> girg_input 1 (scaled s ex_ws) ex_ps 7 4 3.
Proof.
  intros Hs. destruct (ex_input 7 4 3 ltac:(lia) ltac:(lia) ltac:(lia)) as [A B C D E F G].
  assert (W : forall w, In w (scaled s ex_ws) -> w = s). { intros w Hw. apply in_map_iff in Hw as (x & <- & Hx). apply ex_w in Hx. subst. ring. }
  assert (P1 : bpow radix2 (-1100) <= 1 / 2). { replace (1 / 2) with (bpow radix2 (-1)) by (cbn; lra). apply bpow_le; lia. }
  assert (P2 : 2 <= bpow radix2 1100). { change 2 with (bpow radix2 1). apply bpow_le; lia. }
  assert (S16 : sumR (scaled s ex_ws) = 16 * s) by (unfold sumR, scaled, ex_ws; cbn; ring).
  constructor; auto; try (unfold scaled; rewrite map_length; assumption).
  constructor; [discriminate| |].
  - intros w ->%W. split; lra.
  - intros w ->%W. rewrite S16. change (bpow radix2 31) with (IZR 2147483648). nra.
Qed.

Print Assumptions C30_scaleWeights. Print Assumptions C30_throws_iff. Print Assumptions C31_threshold_rule. Print Assumptions C31_supergraph.
Print Assumptions C31_generated_supergraph. Print Assumptions C31_probability. Print Assumptions C32_degree_reached. Print Assumptions C32_termination.
Print Assumptions C32_accuracy. Print Assumptions C33_lazy_sorter. Print Assumptions C34_threshold_estimator. Print Assumptions C34_closed_form.
Print Assumptions C34_not_exact. Print Assumptions C35_general_estimator.
