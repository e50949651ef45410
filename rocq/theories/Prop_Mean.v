(** Property C63: the expected degree of GIRGs with independent uniform positions. *)
From Coq Require Import Arith NArith ZArith List Bool Reals Lia Lra Psatz.
From Flocq Require Import Core.
From Coquelicot Require Import Coquelicot.
From Verif Require Import Base Sched Coord_Model Coord_Torus Prop_Coord Tree_Model Tree_Run Girg_Model Girg_Num Prop_Girg Prop_Prob Scaling_Model Scaling_Thr Scaling_Inst Scaling_Integral Prop_Scaling Mean.
Import ListNotations.
Local Open Scope R_scope.

(** ** Specification *)
(** the probability of the edge {u,v} given the positions ([edge_probability] and [threshold_edge] are those of C08 and C01) *)
Definition given_positions (D : N) (ws : list R) (ps : list (list R)) (alpha : alphaT) (u v : nat) (p : R) : Prop :=
  match alpha with
  | AFin a => edge_probability D ws ps a u v p
  | AInf => (threshold_edge D ws ps u v -> p = 1) /\ (~ threshold_edge D ws ps u v -> p = 0)
  end.
(** the expected average degree given the positions: (1/n) * sum of the probabilities of all ordered pairs *)
Definition degree_given_positions (D : N) (ws : list R) (alpha : alphaT) (ps : list (list R)) (m : R) : Prop :=
  exists p : nat -> nat -> R, (forall u v, (u < length ws)%nat -> (v < length ws)%nat -> u <> v -> given_positions D ws ps alpha u v (p u v)) /\
    m = sumR (map (fun u => sumR (map (fun v => if (u =? v)%nat then 0 else p u v) (seq 0 (length ws)))) (seq 0 (length ws))) / INR (length ws).
(** m is the expected average degree if all positions are independent and uniform in [0,1)^d *)
Definition mean_degree (d : nat) (ws : list R) (alpha : alphaT) (m : R) : Prop :=
  exists F, (forall ps, points_in (length ws) d ps -> degree_given_positions (N.of_nat d) ws alpha ps (F ps)) /\ is_points_mean (length ws) d F m.

(** ** Proofs *)
Lemma sumR_ext {A} (f g : A -> R) l : (forall x, In x l -> f x = g x) -> sumR (map f l) = sumR (map g l).
Proof. induction l as [|x l IH]; intros H; [reflexivity|]. unfold sumR in *. cbn. rewrite IH by (intros y Hy; apply H; now right). now rewrite (H x (or_introl eq_refl)). Qed.
Lemma points_mean_sum {A} n d (F : A -> list (list R) -> R) (m : A -> R) l : (forall x, In x l -> is_points_mean n d (F x) (m x)) -> is_points_mean n d (fun ps => sumR (map (fun x => F x ps) l)) (sumR (map m l)).
Proof.
  induction l as [|x l IH]; intros H; [exact (points_mean_const d n 0)|]. unfold sumR in *. cbn [map fold_right]. apply (points_mean_plus d n (F x)); [apply H; now left|apply IH; intros y Hy; apply H; now right].
Qed.
Lemma mean_degree_unique d ws alpha m m' : mean_degree d ws alpha m -> mean_degree d ws alpha m' -> m = m'.
Proof.
  intros (F & HF & MF) (G & HG & MG). apply (points_mean_unique d (length ws) G); [|exact MG]. apply (points_mean_ext d (length ws) F); [|exact MF]. intros ps Hps.
  destruct (HF ps Hps) as (p & Hp & ->), (HG ps Hps) as (q & Hq & ->). f_equal. apply sumR_ext. intros u Hu. apply in_seq in Hu. apply sumR_ext. intros v Hv. apply in_seq in Hv. destruct (Nat.eqb_spec u v) as [E|E]; [reflexivity|].
  specialize (Hp u v ltac:(lia) ltac:(lia) E). specialize (Hq u v ltac:(lia) ltac:(lia) E). destruct alpha as [|a]; cbn in Hp, Hq; [|eapply edge_probability_unique; eauto].
  destruct (Classical_Prop.classic (threshold_edge (N.of_nat d) ws ps u v)) as [T|T]; [rewrite (proj1 Hp T), (proj1 Hq T)|rewrite (proj2 Hp T), (proj2 Hq T)]; reflexivity.
Qed.
(** from the mean of a function of one distance to the mean degree *)
Lemma mean_degree_intro d ws alpha (f : R -> R -> R) (c : R -> R) : (forall k x, 0 < k -> in_cube d x -> is_cube_mean d (fun y => f k (tdist x y)) (c k)) -> (forall w, In w ws -> 0 < w) ->
  (forall ps u v, points_in (length ws) d ps -> (u < length ws)%nat -> (v < length ws)%nat -> u <> v -> given_positions (N.of_nat d) ws ps alpha u v (f (nth u ws 0 * nth v ws 0 / sumR ws) (tdist (nth u ps []) (nth v ps [])))) ->
  mean_degree d ws alpha (sumR (map (fun u => sumR (map (fun v => if (u =? v)%nat then 0 else c (nth u ws 0 * nth v ws 0 / sumR ws)) (seq 0 (length ws)))) (seq 0 (length ws))) / INR (length ws)).
Proof.
  intros HC HP HG. set (n := length ws) in *. set (W := sumR ws) in *.
  exists (fun ps => sumR (map (fun u => sumR (map (fun v => if (u =? v)%nat then 0 else f (nth u ws 0 * nth v ws 0 / W) (tdist (nth u ps []) (nth v ps []))) (seq 0 n))) (seq 0 n)) / INR n). split.
  - intros ps Hps. exists (fun u v => f (nth u ws 0 * nth v ws 0 / W) (tdist (nth u ps []) (nth v ps []))). split; [|reflexivity]. intros u v Hu Hv Huv. now apply HG.
  - fold n. match goal with |- is_points_mean n d _ (?a / INR n) => replace (a / INR n) with (/ INR n * a) by (unfold Rdiv; ring) end.
    apply (points_mean_ext d n (fun ps => / INR n * sumR (map (fun u => sumR (map (fun v => if (u =? v)%nat then 0 else f (nth u ws 0 * nth v ws 0 / W) (tdist (nth u ps []) (nth v ps []))) (seq 0 n))) (seq 0 n)))); [intros ps _; unfold Rdiv; ring|]. apply points_mean_scal.
    assert (P : forall u, (u < n)%nat -> 0 < nth u ws 0) by (intros u Hu; apply HP, nth_In, Hu).
    assert (PS : (0 < n)%nat -> 0 < W). { intros Hn. unfold W, sumR. clear -HP Hn. assert (Q : forall l : list R, (forall w, In w l -> 0 < w) -> 0 <= fold_right Rplus 0 l). { induction l as [|w l IH]; intros H; cbn; [lra|]. pose proof (H w (or_introl eq_refl)). specialize (IH (fun x Hx => H x (or_intror Hx))). lra. }
      destruct ws as [|w ws]; [cbn in Hn; lia|]. cbn. pose proof (HP w (or_introl eq_refl)). specialize (Q ws (fun x Hx => HP x (or_intror Hx))). lra. }
    apply (points_mean_sum n d (fun u ps => sumR (map (fun v => if (u =? v)%nat then 0 else f (nth u ws 0 * nth v ws 0 / W) (tdist (nth u ps []) (nth v ps []))) (seq 0 n)))). intros u Hu. apply in_seq in Hu.
    apply (points_mean_sum n d (fun v ps => if (u =? v)%nat then 0 else f (nth u ws 0 * nth v ws 0 / W) (tdist (nth u ps []) (nth v ps [])))). intros v Hv. apply in_seq in Hv. destruct (Nat.eqb_spec u v) as [E|E]; [apply points_mean_const|].
    set (k := nth u ws 0 * nth v ws 0 / W). assert (K : 0 < k) by (apply Rdiv_lt_0_compat; [apply Rmult_lt_0_compat; apply P; lia|apply PS; lia]).
    apply (points_mean_two d (fun x y => f k (tdist x y))); [| |lia|lia|exact E].
    + intros x Hx. now apply HC.
    + intros x Hx. apply (cube_mean_ext d (fun y => f k (tdist x y))); [intros y _; now rewrite tdist_sym|now apply HC].
Qed.
Lemma in_points n d ps u : points_in n d ps -> (u < n)%nat -> in_cube d (nth u ps []).
Proof. intros [L F] Hu. apply (proj1 (List.Forall_forall _ _) F). apply nth_In. lia. Qed.
(** threshold graphs *)
Lemma pow_lt_mono d a b : (1 <= d)%nat -> 0 <= a < b -> a ^ d < b ^ d.
Proof.
  intros Hd H. destruct (Req_dec a 0) as [->|N]; [rewrite pow_i by lia; apply pow_lt; lra|]. rewrite <- !Rpower_pow by lra. unfold Rpower. apply exp_increasing. apply Rmult_lt_compat_l; [apply lt_0_INR; lia|]. apply ln_increasing; lra.
Qed.
Lemma threshold_mean d k x : (1 <= d)%nat -> 0 < k -> in_cube d x -> is_cube_mean d (fun y => threshold_rule d k (tdist x y)) (RInt (fun r => threshold_rule d k r * distance_density d r) 0 (1 / 2)).
Proof.
  intros Hd Hk Hx. rewrite (is_RInt_unique _ _ _ _ (threshold_closed d k Hd Hk)). unfold capped, idR. assert (H2 : 0 < 2 ^ d) by (apply pow_lt; lra).
  assert (Half : 2 ^ d * (1 / 2) ^ d = 1) by (rewrite <- Rpow_mult_distr; replace (2 * (1 / 2)) with 1 by field; apply pow1).
  set (r0 := Rpower k (/ INR d)). assert (P : 0 < r0) by apply exp_pos. assert (E0 : r0 ^ d = k). { unfold r0. rewrite <- Rpower_pow by exact P. rewrite Rpower_mult, Rinv_l by (apply not_0_INR; lia). now apply Rpower_1. }
  assert (RU : forall r, 0 <= r -> threshold_rule d k r = if Rlt_dec r r0 then 1 else 0).
  { intros r Hr. unfold threshold_rule. destruct (Rlt_dec (r ^ d) k) as [L|L], (Rlt_dec r r0) as [M|M]; try reflexivity.
    - exfalso. destruct (Req_dec r r0) as [->|N]; [lra|]. pose proof (pow_lt_mono d r0 r Hd ltac:(lra)). lra.
    - exfalso. pose proof (pow_lt_mono d r r0 Hd ltac:(lra)). lra. }
  destruct (Rge_dec (2 ^ d * k) 1) as [H|H].
  - destruct (Rlt_dec (1 / 2) r0) as [G|G].
    + apply (cube_mean_ext d (fun _ => 1)); [|apply cube_mean_const]. intros y Hy. pose proof (tdist_range d x y Hx Hy). rewrite RU by lra. destruct (Rlt_dec _ _); lra.
    + assert (r0 = 1 / 2). { destruct (Req_dec r0 (1 / 2)) as [E|N]; [exact E|]. pose proof (pow_lt_mono d r0 (1 / 2) Hd ltac:(lra)). nra. } replace 1 with ((2 * r0) ^ d) by (replace (2 * r0) with 1 by lra; apply pow1).
      apply (cube_mean_ext d (fun y => if Rlt_dec (tdist x y) r0 then 1 else 0)); [|apply mean_ball; [lra|exact Hx]]. intros y Hy. pose proof (tdist_range d x y Hx Hy). rewrite RU by lra. reflexivity.
  - assert (r0 <= 1 / 2). { apply Rnot_lt_le. intros G. pose proof (pow_lt_mono d (1 / 2) r0 Hd ltac:(lra)). nra. } rewrite <- E0, <- Rpow_mult_distr.
    apply (cube_mean_ext d (fun y => if Rlt_dec (tdist x y) r0 then 1 else 0)); [|apply mean_ball; [lra|exact Hx]]. intros y Hy. pose proof (tdist_range d x y Hx Hy). rewrite E0, RU by lra. reflexivity.
Qed.
Theorem C63_threshold_mean : forall d ws, (1 <= d)%nat -> (forall w, In w ws -> 0 < w) -> mean_degree d ws AInf (expected_degree threshold_rule d ws).
Proof.
  intros d ws Hd HP. apply (mean_degree_intro d ws AInf (threshold_rule d) (fun k => RInt (fun r => threshold_rule d k r * distance_density d r) 0 (1 / 2))).
  - intros k x Hk Hx. now apply threshold_mean.
  - exact HP.
  - intros ps u v Hps Hu Hv Huv. cbn. pose proof (tdist_is d _ _ (in_points _ _ _ u Hps Hu) (in_points _ _ _ v Hps Hv)) as TD. unfold threshold_edge, threshold_rule. rewrite Nat2N.id. split.
    + intros (t & T & L). rewrite <- (torus_dist_unique _ _ _ _ TD T) in L. destruct (Rlt_dec _ _); [reflexivity|contradiction].
    + intros N. destruct (Rlt_dec _ _) as [L|L]; [|reflexivity]. exfalso. apply N. eauto.
Qed.
(** finite alpha *)
Definition near_rule (a : R) (d : nat) (k r : R) : R := if Rle_dec r 0 then 1 else alpha_rule a d k r.
Lemma near_cont a d k r : 0 < a -> 0 < k -> (1 <= d)%nat -> continuous (near_rule a d k) r.
Proof.
  intros Ha Hk Hd. set (r0 := Rpower k (/ INR d)). assert (P : 0 < r0) by apply exp_pos. assert (E0 : r0 ^ d = k). { unfold r0. rewrite <- Rpower_pow by exact P. rewrite Rpower_mult, Rinv_l by (apply not_0_INR; lia). now apply Rpower_1. }
  destruct (Rlt_le_dec r r0) as [L|L].
  - apply (continuous_ext_loc _ (fun _ => 1)); [|apply continuous_const]. exists (mkposreal (r0 - r) ltac:(lra)). intros x Hx. cbn in Hx. unfold ball in Hx; cbn in Hx; unfold AbsRing_ball, abs, minus, plus, opp in Hx; cbn in Hx. apply Rabs_def2 in Hx. cbn in Hx.
    unfold near_rule. destruct (Rle_dec x 0) as [X|X]; [reflexivity|]. unfold alpha_rule. rewrite Rmin_left; [reflexivity|]. pose proof (pow_lt_mono d x r0 Hd ltac:(lra)). pose proof (pow_lt x d ltac:(lra)).
    assert (1 < k / x ^ d) by (apply Rmult_lt_reg_r with (x ^ d); [assumption|]; unfold Rdiv; rewrite Rmult_assoc, Rinv_l by lra; lra). unfold Rpower. rewrite <- exp_0 at 1. left. apply exp_increasing. apply Rmult_lt_0_compat; [exact Ha|]. rewrite <- ln_1. apply ln_increasing; lra.
  - apply (continuous_ext_loc _ (alpha_rule a d k)).
    + exists (mkposreal r ltac:(lra)). intros x Hx. unfold ball in Hx; cbn in Hx; unfold AbsRing_ball, abs, minus, plus, opp in Hx; cbn in Hx. apply Rabs_def2 in Hx. unfold near_rule. destruct (Rle_dec x 0); [lra|reflexivity].
    + unfold alpha_rule. set (g := fun r => Rpower (k / r ^ d) a). assert (CG : continuous g r).
      { apply (ex_derive_continuous (K := R_AbsRing) (V := R_NormedModule)). unfold g, Rpower. pose proof (pow_lt r d ltac:(lra)). auto_derive. split; [lra|]. split; [|exact I]. now apply Rdiv_lt_0_compat. }
      apply (continuous_ext (fun r => (1 + g r - Rabs (1 - g r)) * / 2)).
      * intros x. fold (g x). unfold Rmin, Rabs. destruct (Rle_dec 1 (g x)), (Rcase_abs (1 - g x)); lra.
      * apply (continuous_mult (K := R_AbsRing) (fun r => 1 + g r - Rabs (1 - g r)) (fun _ => / 2)); [|apply continuous_const]. apply (continuous_minus (V := R_NormedModule) (fun r => 1 + g r) (fun r => Rabs (1 - g r))).
        -- apply (continuous_plus (V := R_NormedModule) (fun _ => 1) g); [apply continuous_const|exact CG].
        -- apply (continuous_comp (fun r => 1 - g r) Rabs); [|apply continuous_Rabs]. apply (continuous_minus (V := R_NormedModule) (fun _ => 1) g); [apply continuous_const|exact CG].
Qed.
Theorem C63_alpha_mean : forall a d ws, 0 < a -> (1 <= d)%nat -> (forall w, In w ws -> 0 < w) -> mean_degree d ws (AFin a) (expected_degree (alpha_rule a) d ws).
Proof.
  intros a d ws Ha Hd HP. apply (mean_degree_intro d ws (AFin a) (near_rule a d) (fun k => RInt (fun r => alpha_rule a d k r * distance_density d r) 0 (1 / 2))).
  - intros k x Hk Hx. pose proof (mean_radial d (near_rule a d k) (fun r => near_cont a d k r Ha Hk Hd) x Hx) as M. replace (RInt _ 0 (1 / 2)) with (radial d (near_rule a d k)); [exact M|]. destruct d as [|d]; [lia|].
    apply RInt_ext. rewrite Rmin_left, Rmax_right by lra. intros r Hr. unfold near_rule. destruct (Rle_dec r 0); [lra|reflexivity].
  - exact HP.
  - intros ps u v Hps Hu Hv Huv. pose proof (in_points _ _ _ u Hps Hu) as Cu. pose proof (in_points _ _ _ v Hps Hv) as Cv. exists (tdist (nth u ps []) (nth v ps [])). split; [now apply (tdist_is d)|]. unfold near_rule. rewrite Nat2N.id. split.
    + intros E. destruct (Rle_dec _ 0); [reflexivity|lra].
    + intros E. destruct (Rle_dec _ 0); [lra|reflexivity].
Qed.

(** ** Scaled weights *)
Lemma returned_scaled ws desired d alpha s ws' : scale_weights ws desired d alpha (Returned s) ws' -> ws' = scaled s ws.
Proof. intros H. inversion H; reflexivity. Qed.
Lemma scaled_pos ws s : double_weights ws -> 0 < s -> forall w, In w (scaled s ws) -> 0 < w.
Proof. intros V Hs w I. unfold scaled in I. apply in_map_iff in I as (x & <- & I). apply (proj1 (List.Forall_forall _ _) V) in I. pose proof (bpow_gt_0 radix2 (-1022)). apply Rmult_lt_0_compat; lra. Qed.
(** closed forms of the degrees *)
Lemma degree_le (r1 r2 : nat -> R -> R -> R) d ws (K : R) : 0 <= K -> (forall w, In w ws -> 0 < w) ->
  (forall k, 0 < k -> RInt (fun r => r1 d k r * distance_density d r) 0 (1 / 2) <= K * RInt (fun r => r2 d k r * distance_density d r) 0 (1 / 2)) -> expected_degree r1 d ws <= K * expected_degree r2 d ws.
Proof.
  intros HK HP H. unfold expected_degree. cbv zeta. set (n := length ws). set (W := sumR ws). destruct (Nat.eq_dec n 0) as [E|E]; [rewrite E; cbn; lra|].
  assert (SL : forall (f g : nat -> R) l, (forall x, In x l -> f x <= K * g x) -> sumR (map f l) <= K * sumR (map g l)).
  { intros f g l. induction l as [|x l IH]; intros Q; unfold sumR in *; cbn; [lra|]. pose proof (Q x (or_introl eq_refl)). specialize (IH (fun y Hy => Q y (or_intror Hy))). lra. }
  match goal with |- _ <= K * (?b / ?m) => replace (K * (b / m)) with (K * b / m) by (unfold Rdiv; ring) end. apply Rmult_le_compat_r; [left; apply Rinv_0_lt_compat, lt_0_INR; lia|]. apply SL. intros u Hu. apply in_seq in Hu. apply SL. intros v Hv. apply in_seq in Hv. destruct (u =? v)%nat; [lra|]. apply H.
  assert (P : forall u, (u < n)%nat -> 0 < nth u ws 0) by (intros i Hi; apply HP, nth_In, Hi).
  assert (WP : 0 < W). { unfold W, sumR. clear -HP E. assert (Q : forall l : list R, (forall w, In w l -> 0 < w) -> 0 <= fold_right Rplus 0 l). { induction l as [|w l IH]; intros H; cbn; [lra|]. pose proof (H w (or_introl eq_refl)). specialize (IH (fun x Hx => H x (or_intror Hx))). lra. }
    destruct ws as [|w ws]; [cbn in E; lia|]. cbn. pose proof (HP w (or_introl eq_refl)). specialize (Q ws (fun x Hx => HP x (or_intror Hx))). lra. }
  apply Rdiv_lt_0_compat; [apply Rmult_lt_0_compat; apply P; lia|exact WP].
Qed.
Lemma large_alpha_degree a d ws : 1 < a -> (1 <= d)%nat -> (forall w, In w ws -> 0 < w) -> expected_degree threshold_rule d ws <= expected_degree (alpha_rule a) d ws <= a / (a - 1) * expected_degree threshold_rule d ws.
Proof.
  intros Ha Hd HP. split.
  - rewrite <- (Rmult_1_l (expected_degree (alpha_rule a) d ws)). apply degree_le; [lra|exact HP|]. intros k Hk. rewrite (is_RInt_unique _ _ _ _ (threshold_closed d k Hd Hk)), (is_RInt_unique _ _ _ _ (alpha_closed a d k ltac:(lra) ltac:(lra) Hd Hk)), Rmult_1_l.
    assert (Z : 0 < 2 ^ d * k) by (apply Rmult_lt_0_compat; [apply pow_lt; lra|exact Hk]). set (z := 2 ^ d * k) in *. unfold capped, idR, phi_gen. destruct (Rge_dec z 1); [lra|].
    assert (LE : Rpower z a <= z). { rewrite <- (Rpower_1 z Z) at 2. unfold Rpower. left. apply exp_increasing. assert (ln z < 0) by (rewrite <- ln_1; apply ln_increasing; lra). nra. }
    replace (z * (1 + 1 / (a - 1)) - Rpower z a / (a - 1)) with (z + (z - Rpower z a) / (a - 1)) by (field; lra). assert (0 <= (z - Rpower z a) / (a - 1)) by (apply Rmult_le_pos; [lra|left; apply Rinv_0_lt_compat; lra]). lra.
  - assert (K0 : 0 < a / (a - 1)) by (apply Rdiv_lt_0_compat; lra). apply degree_le; [lra|exact HP|]. intros k Hk. rewrite (is_RInt_unique _ _ _ _ (threshold_closed d k Hd Hk)), (is_RInt_unique _ _ _ _ (alpha_closed a d k ltac:(lra) ltac:(lra) Hd Hk)).
    assert (Z : 0 < 2 ^ d * k) by (apply Rmult_lt_0_compat; [apply pow_lt; lra|exact Hk]). set (z := 2 ^ d * k) in *. unfold capped, idR, phi_gen. assert (A1 : a / (a - 1) = 1 + 1 / (a - 1)) by (field; lra). rewrite A1. assert (0 < 1 / (a - 1)) by (apply Rdiv_lt_0_compat; lra).
    destruct (Rge_dec z 1); [lra|]. assert (0 < Rpower z a / (a - 1)) by (apply Rdiv_lt_0_compat; [apply exp_pos|lra]). lra.
Qed.
(** the expected degree of the GIRG after scaleWeights, over uniform positions and independent edges *)
Theorem C63_scaled_degree : forall ws desired d s ws' alpha, double_weights ws -> ws <> [] -> (N.of_nat (length ws) < 2 ^ 31)%N -> (1 <= d)%nat ->
  scale_weights ws desired d alpha (Returned s) ws' ->
  let n := INR (length ws) in
  match alpha with
  | DFin a => exists m, mean_degree d ws' (AFin a) m /\ desired - 2 / 100 <= m /\ if Rle_dec a 8 then m < desired + 2 / 100 + 1 / n else m < a / (a - 1) * (desired + 2 / 100 + 1 / n)
  | DInf true => exists m, mean_degree d ws' AInf m /\ desired - 2 / 100 <= m < desired + 2 / 100 + 1 / n
  | _ => True
  end.
Proof.
  intros ws desired d s ws' alpha V Hne Hlen Hd H n. destruct (C32_degree_reached ws desired d alpha s ws' V Hne Hlen Hd H) as [S0 R]. pose proof (returned_scaled _ _ _ _ _ _ H) as E. pose proof (scaled_pos ws s V S0) as HP. rewrite <- E in HP. cbv zeta in R. fold n in R.
  destruct alpha as [|[|]|a]; [exact I| |exact I|].
  - exists (expected_degree threshold_rule d ws'). split; [now apply C63_threshold_mean|exact R].
  - assert (A0 : 0 < a). { inversion H as [s' Hg Hs E1 E2|b s' Hg Hb Ea Hs E1 E2|]; subst.
      - cbn in Hg. destruct (Rlt_dec 8 a); [lra|discriminate].
      - injection Ea as <-. cbn in Hb. destruct (Rlt_dec 0 a); [assumption|discriminate]. }
    exists (expected_degree (alpha_rule a) d ws'). split; [now apply C63_alpha_mean|]. destruct (Rle_dec a 8) as [L|L], (Rlt_dec 8 a) as [G|G]; [lra|exact R| |lra].
    destruct (large_alpha_degree a d ws' ltac:(lra) Hd HP) as [L1 L2]. split; [lra|]. eapply Rle_lt_trans; [exact L2|]. apply Rmult_lt_compat_l; [apply Rdiv_lt_0_compat; lra|lra].
Qed.

(** ** The generated graphs *)
Lemma sum_ind n a : (a < n)%nat -> forall c, sumR (map (fun u => if (u =? a)%nat then c else 0) (seq 0 n)) = c.
Proof.
  intros H c. assert (Z : forall k m, (forall i, In i (seq k m) -> i <> a) -> sumR (map (fun u => if (u =? a)%nat then c else 0) (seq k m)) = 0).
  { intros k m. revert k. induction m as [|m IH]; intros k Q; [reflexivity|]. unfold sumR in *. cbn. rewrite IH by (intros i Hi; apply Q; now right). destruct (Nat.eqb_spec k a) as [E|E]; [exfalso; apply (Q k); [now left|exact E]|lra]. }
  replace n with (a + (1 + (n - a - 1)))%nat by lia. rewrite seq_app, map_app. unfold sumR. rewrite fold_right_app. cbn [seq Nat.add map fold_right]. rewrite Nat.eqb_refl. change (fold_right Rplus 0 ?l) with (sumR l). rewrite Z by (intros i Hi; apply in_seq in Hi; lia). rewrite Rplus_0_r.
  assert (G : forall l s, (forall i, In i l -> i <> a) -> fold_right Rplus s (map (fun u => if (u =? a)%nat then c else 0) l) = s). { induction l as [|i l IH]; intros s Q; cbn; [reflexivity|]. rewrite IH by (intros j Hj; apply Q; now right). destruct (Nat.eqb_spec i a) as [E|E]; [exfalso; apply (Q i); [now left|exact E]|lra]. }
  apply G. intros i Hi. apply in_seq in Hi. lia.
Qed.
Lemma sumR_plus {A} (f g : A -> R) l : sumR (map (fun x => f x + g x) l) = sumR (map f l) + sumR (map g l).
Proof. induction l as [|x l IH]; unfold sumR in *; cbn; [ring|]. rewrite IH. ring. Qed.
(** twice the number of edges is the sum over all ordered pairs *)
Lemma count_edges n es (p : nat -> nat -> R) : NoDup es -> (forall u v, In (u, v) es -> (u < n)%nat /\ (v < n)%nat) -> (forall u, ~ In (u, u) es) -> (forall u v, In (u, v) es -> ~ In (v, u) es) ->
  (forall u v, (u < n)%nat -> (v < n)%nat -> u <> v -> (In (u, v) es \/ In (v, u) es -> p u v = 1) /\ (~ (In (u, v) es \/ In (v, u) es) -> p u v = 0)) ->
  sumR (map (fun u => sumR (map (fun v => if (u =? v)%nat then 0 else p u v) (seq 0 n))) (seq 0 n)) = 2 * INR (length es).
Proof.
  revert p. induction es as [|[a b] es IH]; intros p ND RG NL NR HP.
  - cbn [length INR]. rewrite Rmult_0_r. transitivity (sumR (map (fun u : nat => 0) (seq 0 n))).
    + apply sumR_ext. intros u Hu. transitivity (sumR (map (fun v : nat => 0) (seq 0 n))).
      * apply sumR_ext. intros v Hv. apply in_seq in Hu, Hv. destruct (Nat.eqb_spec u v) as [E|E]; [reflexivity|]. apply (HP u v ltac:(lia) ltac:(lia) E). intros [[]|[]].
      * generalize (seq 0 n) as l. induction l as [|x l IHl]; unfold sumR in *; cbn; [reflexivity|]. rewrite IHl. ring.
    + generalize (seq 0 n) as l. induction l as [|x l IHl]; unfold sumR in *; cbn; [reflexivity|]. rewrite IHl. ring.
  - apply NoDup_cons_iff in ND as [N1 ND]. destruct (RG a b (or_introl eq_refl)) as [Ra Rb]. assert (AB : a <> b) by (intros ->; apply (NL b); now left). assert (N2 : ~ In (b, a) es) by (intros I; apply (NR a b); [now left|now right]).
    set (q := fun u v : nat => p u v - (if (u =? a)%nat then if (v =? b)%nat then 1 else 0 else 0) - (if (u =? b)%nat then if (v =? a)%nat then 1 else 0 else 0)).
    assert (Q : forall u v, (u < n)%nat -> (v < n)%nat -> u <> v -> (In (u, v) es \/ In (v, u) es -> q u v = 1) /\ (~ (In (u, v) es \/ In (v, u) es) -> q u v = 0)).
    { intros u v Hu Hv Huv. destruct (HP u v Hu Hv Huv) as [P1 P0]. unfold q. split.
      - intros I. rewrite P1 by (destruct I as [I|I]; [left|right]; now right).
        assert (X1 : ~ (u = a /\ v = b)) by (intros [-> ->]; tauto). assert (X2 : ~ (u = b /\ v = a)) by (intros [-> ->]; tauto).
        destruct (Nat.eqb_spec u a), (Nat.eqb_spec v b), (Nat.eqb_spec u b), (Nat.eqb_spec v a); try tauto; lra.
      - intros N. destruct (Nat.eqb_spec u a) as [Ea|Ea], (Nat.eqb_spec v b) as [Eb|Eb].
        + subst. rewrite P1 by (left; now left). destruct (Nat.eqb_spec a b); [congruence|]. lra.
        + subst. rewrite P0. { destruct (Nat.eqb_spec a b); [congruence|lra]. } intros [[I|I]|[I|I]]; [congruence|tauto|congruence|tauto].
        + subst. destruct (Nat.eqb_spec u b) as [Eu|Eu]; [congruence|]. rewrite P0; [lra|]. intros [[I|I]|[I|I]]; [congruence|tauto|congruence|tauto].
        + destruct (Nat.eqb_spec u b) as [Eu|Eu]; [destruct (Nat.eqb_spec v a) as [Ev|Ev]|].
          * subst. rewrite P1 by (right; now left). lra.
          * rewrite P0; [lra|]. intros [[I|I]|[I|I]]; [congruence|tauto|congruence|tauto].
          * rewrite P0; [lra|]. intros [[I|I]|[I|I]]; [congruence|tauto|congruence|tauto]. }
    specialize (IH q ND (fun u v I => RG u v (or_intror I)) (fun u I => NL u (or_intror I)) (fun u v I J => NR u v (or_intror I) (or_intror J)) Q). cbn [length]. rewrite S_INR.
    transitivity (sumR (map (fun u => sumR (map (fun v => if (u =? v)%nat then 0 else q u v) (seq 0 n)) + ((if (u =? a)%nat then 1 else 0) + (if (u =? b)%nat then 1 else 0))) (seq 0 n))).
    + apply sumR_ext. intros u _. transitivity (sumR (map (fun v => (if (u =? v)%nat then 0 else q u v) + ((if (v =? b)%nat then if (u =? a)%nat then 1 else 0 else 0) + (if (v =? a)%nat then if (u =? b)%nat then 1 else 0 else 0))) (seq 0 n))).
      * apply sumR_ext. intros v _. unfold q. destruct (Nat.eqb_spec u v) as [<-|E]; destruct (Nat.eqb_spec u a), (Nat.eqb_spec u b); subst; try congruence; try lra; destruct (Nat.eqb_spec v b), (Nat.eqb_spec v a); subst; try congruence; lra.
      * rewrite !sumR_plus, !sum_ind by assumption. reflexivity.
    + rewrite !sumR_plus, IH, !sum_ind by assumption. lra.
Qed.
(** the average degree 2 |E| / n of a generated threshold graph is the degree given its positions *)
Theorem C63_generated : forall cfg rg D ws ps seed omp_max team edges, girg_input D ws ps seed omp_max team -> good_rng rg ->
  girg_outcome ideal_env cfg rg ws ps AInf seed omp_max team (Some edges) -> degree_given_positions D ws AInf ps (2 * INR (length edges) / INR (length ws)).
Proof.
  intros cfg rg D ws ps seed omp_max team edges HI GR HO. destruct (C01_threshold_graph_is_exact cfg rg D ws ps seed omp_max team HI GR) as [_ X]. destruct (X _ HO) as (e & E & XE). injection E as <-.
  destruct (C02_simple_graph cfg rg D ws ps AInf seed omp_max team HI GR _ HO) as (e & E & ND & NL & NR). injection E as <-. destruct (C03_endpoints_are_node_indices cfg rg D ws ps AInf seed omp_max team HI GR _ HO) as (e & E & RG). injection E as <-.
  assert (DEC : forall x y : nat * nat, {x = y} + {x <> y}) by (decide equality; apply Nat.eq_dec). set (p := fun u v : nat => if in_dec DEC (u, v) edges then 1 else if in_dec DEC (v, u) edges then 1 else 0).
  assert (P : forall u v, (In (u, v) edges \/ In (v, u) edges -> p u v = 1) /\ (~ (In (u, v) edges \/ In (v, u) edges) -> p u v = 0)) by (intros u v; unfold p; destruct (in_dec DEC (u, v) edges), (in_dec DEC (v, u) edges); tauto).
  exists p. split; [|f_equal; symmetry; now apply count_edges].
  intros u v Hu Hv Huv. cbn. destruct (P u v) as [P1 P0]. rewrite <- (XE u v Hu Hv Huv). split; [exact P1|exact P0].
Qed.

(** ** Examples *)
Example ex_C63 : mean_degree 2 [1 / 8; 1 / 8] AInf (1 / 4).
Proof.
  pose proof (C63_threshold_mean 2 [1 / 8; 1 / 8] ltac:(lia) ltac:(intros w [<-|[<-|[]]]; lra)) as M. replace (1 / 4) with (expected_degree threshold_rule 2 [1 / 8; 1 / 8]); [exact M|].
  unfold expected_degree, sumR. cbn [length seq map Nat.eqb nth fold_right]. rewrite (is_RInt_unique _ _ _ _ (threshold_closed 2 (1 / 8 * (1 / 8) / (1 / 8 + (1 / 8 + 0))) ltac:(lia) ltac:(lra))).
  unfold capped, idR. replace (2 ^ 2 * (1 / 8 * (1 / 8) / (1 / 8 + (1 / 8 + 0)))) with (1 / 4) by field. destruct (Rge_dec (1 / 4) 1); [lra|]. cbn [INR]. field.
Qed.
Example ex_C63_scaled : exists s m, scale_weights [4; 1] (1 / 2) 1 (DFin 2) (Returned s) (scaled s [4; 1]) /\ mean_degree 1 (scaled s [4; 1]) (AFin 2) m /\ 48 / 100 <= m < 102 / 100.
Proof.
  destruct (C32_termination [4; 1] (1 / 2) 1 ex_double_weights ltac:(discriminate) ltac:(cbn; lia) (le_n 1)) as [H _].
  destruct H as (_ & _ & H); [cbn; lra|]. destruct (H (DFin 2)) as [s Hs]; [cbn; lra|]. destruct (C63_scaled_degree _ _ _ _ _ _ ex_double_weights ltac:(discriminate) ltac:(cbn; lia) (le_n 1) Hs) as (m & M & L & U). exists s, m. split; [exact Hs|]. split; [exact M|].
  cbn [length INR] in U. destruct (Rle_dec 2 8); lra.
Qed.

Print Assumptions C63_threshold_mean. Print Assumptions C63_alpha_mean. Print Assumptions C63_scaled_degree. Print Assumptions C63_generated. Print Assumptions mean_degree_unique.
