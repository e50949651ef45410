(** How far the factor of scaleWeights can be from 1, for the composition of the generators. *)
From Coq Require Import Arith NArith ZArith List Bool Reals Lia Lra Psatz Permutation.
From Flocq Require Import Core.
From Verif Require Import Base Sched Tree_Model Tree_Run Girg_Model Girg_Num Prop_Girg
  Scaling_Model Scaling_Lazy Scaling_Loops Scaling_Thr Scaling_Search Scaling_Inst Scaling_Total Prop_Scaling.
Import ListNotations.
Local Open Scope R_scope.
Notation b2 := (bpow radix2).

(** the search never goes beyond twice the largest point whose value is too small *)
Section Bound.
  Context {St : Type} (f : St -> R -> R -> St -> Prop) (desired accuracy B : R) (Inv : St -> Prop) (val : R -> R -> Prop).
  Hypothesis HI : forall st c v st', Inv st -> 0 < c -> f st c v st' -> Inv st' /\ val c v.
  Hypothesis HB : forall c v, 0 < c -> val c v -> v < desired -> 2 * c <= B.
  Definition below (s : search_state St) : Prop := match s with InUp _ lo hi | InDown _ lo hi | InMid _ lo hi => hi <= B | Done _ r _ => r <= B end.
  Lemma step_below a b : st_ok desired accuracy Inv val a -> below a -> search_step f desired accuracy a b -> below b.
  Proof.
    intros Ha Hb H. destruct H as [st lo hi v st' Hf H|st lo hi v st' Hf H|st lo hi v st' Hf H|st lo hi v st' Hf H|st lo hi v st' Hf H0 H|st lo hi v st' Hf H0 H|st lo hi v st' Hf H]; cbn in *; destruct Ha as [I Hlh]; try lra.
    destruct (HI st hi v st' I ltac:(lra) Hf) as [_ Hv]. pose proof (HB hi v ltac:(lra) Hv H). lra.
  Qed.
  Lemma run_below a b : search_run f desired accuracy a b -> st_ok desired accuracy Inv val a -> below a -> below b.
  Proof. induction 1 as [|a b c Hs _ IH]; intros Ha Hb; [assumption|]. apply IH; [eapply step_ok; eassumption|eapply step_below; eassumption]. Qed.
End Bound.

(** if a value is too small then not all pairs are certain *)
Lemma not_saturated phi q ws desired c v : phi 1 = 1 -> (forall y z, 0 < y <= z -> z <= 1 -> phi y <= phi z) -> (forall z, 0 < z <= 1 -> 0 < phi z) ->
  0 < q c -> valid_weights ws -> ws <> [] -> (forall w, In w ws -> 1 <= w) -> desired <= INR (length ws) - 1 -> val phi q ws c v -> v < desired -> q c < 1.
Proof.
  intros Hphi1 Hmono Hpos Hq V Hne H1 Hd Hv Hlt. apply Rnot_le_lt. intros C.
  assert (Hbig : forall x y, In x ws -> In y ws -> 1 <= q c * (x * y)). { intros x y Hx Hy. pose proof (H1 x Hx). pose proof (H1 y Hy). apply Rle_trans with (1 * 1); [lra|]. apply Rmult_le_compat; try lra. apply Rle_trans with (1 * 1); [lra|]. apply Rmult_le_compat; lra. }
  destruct (est_delta phi Hphi1 Hmono Hpos ws V (q c) v Hq Hv) as (delta & E & Hdl & [D0|(w & Hw & Hww & _)]); [|pose proof (Hbig w w Hw Hw); lra].
  assert (ED : deg_sum phi ws (q c) = 1 * (INR (length ws) * (INR (length ws) - 1))).
  { rewrite <- INR_psum_const. apply psum_ext. intros x y Hx Hy. unfold capped. destruct (Rge_dec (q c * (x * y)) 1) as [G|G]; [reflexivity|]. pose proof (Hbig x y Hx Hy). lra. }
  pose proof (n_pos ws V Hne) as Hn. rewrite ED, D0 in E. assert (v = INR (length ws) - 1) by (apply Rmult_eq_reg_l with (INR (length ws)); lra). lra.
Qed.

(** the expected degree is at most kappa 2^d s W / n *)
Lemma deg_sum_le phi q ws kappa : (forall z, 0 < z -> 0 < capped phi z <= kappa * z) -> 0 < q -> valid_weights ws -> deg_sum phi ws q <= kappa * q * (sumR ws * sumR ws).
Proof.
  intros Hk Hq V. unfold deg_sum, psum.
  assert (P : forall x y, In x ws -> In y ws -> 0 < q * (x * y)) by (intros x y Hx Hy; apply (mul_pos_in ws V); assumption).
  assert (A : sumf (fun x => sumf (fun y => capped phi (q * (x * y))) ws) ws <= sumf (fun x => sumf (fun y => kappa * q * x * y) ws) ws).
  { apply sumf_le. intros x Hx. apply sumf_le. intros y Hy. destruct (Hk _ (P x y Hx Hy)). lra. }
  assert (B : 0 <= sumf (fun x => capped phi (q * (x * x))) ws) by (apply sumf_ge0; intros x Hx; destruct (Hk _ (P x x Hx Hx)); lra).
  assert (C : sumf (fun x => sumf (fun y => kappa * q * x * y) ws) ws = kappa * q * (sumR ws * sumR ws)).
  { rewrite (sumf_ext _ (fun x => kappa * q * sumR ws * x)).
    - rewrite sumf_scal. replace (sumf (fun x => x) ws) with (sumR ws) by (unfold sumf, sumR; now rewrite map_id). ring.
    - intros x _. rewrite sumf_scal. replace (sumf (fun y => y) ws) with (sumR ws) by (unfold sumf, sumR; now rewrite map_id). ring. }
  lra.
Qed.

(** the worst ratio of the expected degree and 2^d s W / n *)
Definition degree_factor (alpha : dbl) : R := match alpha with DFin a => if Rlt_dec 8 a then 1 else a / (a - 1) | _ => 1 end.
Lemma pow_ge_id x d : 1 <= x -> (1 <= d)%nat -> x <= x ^ d.
Proof. intros Hx Hd. destruct d as [|d]; [lia|]. cbn [pow]. rewrite <- (Rmult_1_r x) at 1. apply Rmult_le_compat_l; [lra|]. now apply pow_R1_Rle. Qed.
Lemma b2_pow z d : b2 z ^ d = b2 (z * Z.of_nat d).
Proof. induction d as [|d IH]; [now rewrite Z.mul_0_r|]. cbn [pow]. rewrite IH, <- bpow_plus. f_equal. lia. Qed.
Lemma len_bound (ws : list R) : (N.of_nat (length ws) < 2 ^ 31)%N -> INR (length ws) <= b2 31.
Proof. intros H. rewrite INR_IZR_INZ. change (b2 31) with (IZR (2 ^ 31)). apply IZR_le. lia. Qed.
Lemma sumR_bound (ws : list R) m : 0 <= m -> (forall w, In w ws -> w <= m) -> sumR ws <= INR (length ws) * m.
Proof.
  intros Hm H. induction ws as [|w ws IH]; [cbn; lra|]. unfold sumR in *. cbn [fold_right length]. rewrite S_INR. pose proof (H w (or_introl eq_refl)). specialize (IH (fun x Hx => H x (or_intror Hx))). lra.
Qed.
Theorem scale_bounds ws desired d alpha s ws' : double_weights ws -> ws <> [] -> (N.of_nat (length ws) < 2 ^ 31)%N -> (1 <= d <= 5)%nat ->
  (forall w, In w ws -> 1 <= w <= b2 30) -> desired <= INR (length ws) - 1 -> match alpha with DFin a => 1 < a | _ => True end ->
  scale_weights ws desired d alpha (Returned s) ws' ->
  (desired - 2 / 100) * INR (length ws) <= degree_factor alpha * (2 ^ d * s * sumR ws) /\ 0 < s <= b2 310.
Proof.
  intros V Hne Hlen Hd Hw Hdes Hal H. pose proof (n_pos ws V Hne) as Hn. pose proof (W_pos ws V Hne) as HW. pose proof HW as HW'. rewrite <- sumR_by in HW'.
  assert (Wb : sumR ws <= b2 61). { apply Rle_trans with (INR (length ws) * b2 30); [apply sumR_bound; [apply bpow_ge_0|apply Hw]|]. replace (b2 61) with (b2 31 * b2 30) by (rewrite <- bpow_plus; reflexivity). apply Rmult_le_compat_r; [apply bpow_ge_0|now apply len_bound]. }
  assert (P2 : 0 < 2 ^ d) by (apply pow_lt; lra). assert (P21 : 1 <= 2 ^ d) by (apply pow_R1_Rle; lra).
  assert (B1 : 2 <= b2 61) by (change 2 with (b2 1); apply bpow_le; lia).
  assert (CONC : forall phi q0 r, (forall z, 0 < z -> 0 < capped phi z <= degree_factor alpha * z) -> 0 < q0 -> q0 * sumR ws = 2 ^ d * s -> r = deg_sum phi ws q0 / INR (length ws) -> desired - 2 / 100 <= r ->
    (desired - 2 / 100) * INR (length ws) <= degree_factor alpha * (2 ^ d * s * sumR ws)).
  { intros phi q0 r Hk Hq0 Eq Er Hr. apply Rle_trans with (deg_sum phi ws q0).
    - apply Rmult_le_compat_r with (r := INR (length ws)) in Hr; [|lra]. rewrite Er in Hr. unfold Rdiv in Hr at 2. rewrite Rmult_assoc, Rinv_l, Rmult_1_r in Hr by lra. exact Hr.
    - eapply Rle_trans; [apply (deg_sum_le phi q0 ws (degree_factor alpha) Hk Hq0 V)|]. rewrite <- Eq. right. ring. }
  inversion H as [s' Hg Hs E1 E2|a s' Hg Hb Ea Hs E1 E2|]; subst s' ws'.
  - destruct Hs as (st' & c & v & Hs & ->). assert (Kap : degree_factor alpha = 1) by (destruct alpha as [| |a]; try reflexivity; cbn in Hg |- *; destruct (Rlt_dec 8 a); [reflexivity|discriminate]).
    assert (Q1 : forall c, 0 < c -> qthr ws d c * sumR ws = (2 * c) ^ d). { intros x Hx. unfold qthr. rewrite <- sumR_by. field. lra. }
    destruct (total_result idR (qthr ws d) ws desired eq_refl id_mono id_pos (qthr_pos ws V Hne d) V Hne (threshold_f ws d) (lazy_inv ws) (thr_val ws d V Hne) (lazy_init ws) st' c v (inv_init ws V) Hs) as [Hc [Rl _]].
    split; [|split; [now apply pow_lt|]].
    + apply (CONC idR (qthr ws d c) (deg_sum idR ws (qthr ws d c) / INR (length ws))); [|now apply qthr_pos| |reflexivity|exact Rl].
      * intros z Hz. rewrite Kap. unfold capped, idR. destruct (Rge_dec z 1); lra.
      * rewrite Q1 by exact Hc. apply Rpow_mult_distr.
    + assert (Bd : below (b2 61) (Done st' c v)).
      { eapply (run_below (threshold_f ws d) desired default_accuracy (b2 61) (lazy_inv ws) (val idR (qthr ws d) ws) (thr_val ws d V Hne)); [|exact Hs|cbn; split; [now apply inv_init|lra]|cbn; exact B1].
        intros x y Hx Hv Hlt. assert (Qx : qthr ws d x < 1) by (eapply (not_saturated idR (qthr ws d) ws desired x y eq_refl id_mono id_pos); try eassumption; [now apply qthr_pos|intros w Hin; apply (Hw w Hin)]).
        assert ((2 * x) ^ d <= b2 61). { rewrite <- Q1 by exact Hx. apply Rle_trans with (1 * sumR ws); [apply Rmult_le_compat_r; lra|lra]. }
        destruct (Rle_lt_dec 1 (2 * x)) as [G|G]; [|lra]. pose proof (pow_ge_id (2 * x) d G ltac:(lia)). lra. }
      unfold below in Bd. apply Rle_trans with (b2 61 ^ d); [apply pow_incr; split; [lra|exact Bd]|]. rewrite b2_pow. apply bpow_le. lia.
  - subst alpha. cbn in Hg, Hb. apply andb_prop in Hb as [Hb1 Hb2].
    destruct (Rlt_dec 8 a) as [C|C]; [discriminate|]. clear Hg Hb1 Hb2. assert (A0 : 0 < a) by lra. assert (A1 : a <> 1) by lra.
    assert (Kap : degree_factor (DFin a) = a / (a - 1)) by (cbn; destruct (Rlt_dec 8 a); [lra|reflexivity]).
    destruct Hs as (st' & c & v & Hs & ->).
    assert (Q1 : forall c, qgen ws a d c * sumR ws = 2 ^ d * Rpower c (1 / a)). { intros x. unfold qgen. rewrite <- sumR_by. field. lra. }
    destruct (total_result (phi_gen a) (qgen ws a d) ws desired (phi_gen_1 a A1) (fun y z => phi_gen_mono a y z A0 A1) (fun z => phi_gen_pos a z A0 A1) (fun c _ => qgen_pos ws V Hne a d c) V Hne (general_f ws d a) (gen_inv ws a)
      (gen_val ws d a V Hne (proj1 Hd) Hlen A0 A1) (lazy_init ws, []) st' c v (gen_inv_init ws V a) Hs) as [Hc [Rl _]].
    split; [|split; [apply exp_pos|]].
    + apply (CONC (phi_gen a) (qgen ws a d c) (deg_sum (phi_gen a) ws (qgen ws a d c) / INR (length ws))); [|apply qgen_pos; assumption|apply Q1|reflexivity|exact Rl].
      intros z Hz. destruct (capped_range (phi_gen a) (phi_gen_1 a A1) (fun y z => phi_gen_mono a y z A0 A1) (fun z => phi_gen_pos a z A0 A1) z Hz) as [G1 G2]. split; [exact G1|]. rewrite Kap.
      assert (K1 : 1 <= a / (a - 1)). { apply Rmult_le_reg_r with (a - 1); [lra|]. replace (a / (a - 1) * (a - 1)) with a by (field; lra). lra. }
      unfold capped in *. destruct (Rge_dec z 1) as [Z|Z]; [apply Rle_trans with (1 * 1); [lra|apply Rmult_le_compat; lra]|].
      unfold phi_gen. replace (1 + 1 / (a - 1)) with (a / (a - 1)) by (field; lra). assert (0 < Rpower z a / (a - 1)) by (apply Rdiv_lt_0_compat; [apply exp_pos|lra]). lra.
    + set (B := 2 * Rpower (b2 61) a). assert (PB : 0 < Rpower (b2 61) a) by apply exp_pos.
      assert (G1 : 1 <= Rpower (b2 61) a). { unfold Rpower. rewrite <- exp_0 at 1. assert (L0 : 0 <= ln (b2 61)) by (rewrite <- ln_1; left; apply ln_increasing; lra). assert (T : 0 <= a * ln (b2 61)) by (apply Rmult_le_pos; lra).
        destruct T as [T|T]; [left; now apply exp_increasing|right; now rewrite <- T]. }
      assert (Bd : below B (Done st' c v)).
      { eapply (run_below (general_f ws d a) desired default_accuracy B (gen_inv ws a) (val (phi_gen a) (qgen ws a d) ws) (gen_val ws d a V Hne (proj1 Hd) Hlen A0 A1)); [|exact Hs|cbn; split; [now apply gen_inv_init|lra]|cbn; unfold B; lra].
        intros x y Hx Hv Hlt. assert (Qx : qgen ws a d x < 1) by (eapply (not_saturated (phi_gen a) (qgen ws a d) ws desired x y (phi_gen_1 a A1) (fun y z => phi_gen_mono a y z A0 A1) (fun z => phi_gen_pos a z A0 A1)); try eassumption; [now apply qgen_pos|intros w Hin; apply (Hw w Hin)]).
        assert (X1 : Rpower x (1 / a) <= b2 61). { apply Rle_trans with (2 ^ d * Rpower x (1 / a)); [rewrite <- (Rmult_1_l (Rpower x (1 / a))) at 1; apply Rmult_le_compat_r; [left; apply exp_pos|exact P21]|]. rewrite <- Q1. apply Rle_trans with (1 * sumR ws); [apply Rmult_le_compat_r; lra|lra]. }
        unfold B. apply Rmult_le_compat_l; [lra|]. rewrite <- (Rpower_1 x Hx) at 1. replace 1 with (1 / a * a) by (field; lra). rewrite <- Rpower_mult. apply Rle_Rpower_l; [lra|]. split; [apply exp_pos|exact X1]. }
      unfold below in Bd. apply Rle_trans with (Rpower B (1 / a)); [apply Rle_Rpower_l; [left; apply Rdiv_lt_0_compat; lra|lra]|].
      unfold B. rewrite <- Rpower_mult_distr by (try lra; exact PB). rewrite Rpower_mult. replace (a * (1 / a)) with 1 by (field; lra). rewrite Rpower_1 by apply bpow_gt_0.
      assert (R2 : Rpower 2 (1 / a) <= 2). { rewrite <- (Rpower_1 2) at 2 by lra. apply Rle_Rpower; [lra|]. apply Rmult_le_reg_r with a; [lra|]. replace (1 / a * a) with 1 by (field; lra). lra. }
      apply Rle_trans with (2 * b2 61); [apply Rmult_le_compat_r; [apply bpow_ge_0|exact R2]|]. change (2 * b2 61) with (b2 1 * b2 61). rewrite <- bpow_plus. apply bpow_le. lia.
Qed.
