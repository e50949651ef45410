(** C68: the debug build of scaleWeights (assertions on) behaves like the release build. *)
From Coq Require Import Arith NArith ZArith List Bool Reals Lia Lra Psatz Sorting.Sorted Permutation.
From Flocq Require Import Core.
From Verif Require Import Base Scaling_Model Scaling_Lazy Scaling_Loops Scaling_Thr Scaling_Search Scaling_Inst Scaling_Total ScaleDbg_Model ScaleDbg_Proofs Prop_Scaling.
Import ListNotations.
Local Open Scope R_scope.

Lemma dbl_min_2 : dbl_min = / Rpower 2 1022.
Proof. unfold dbl_min. change (-1022)%Z with (- (1022))%Z. rewrite bpow_opp, bpow_powerRZ, powerRZ_Rpower by (cbn; lra). reflexivity. Qed.
Lemma Rpower2_le a b : a <= b -> Rpower 2 a <= Rpower 2 b.
Proof. intros H. apply Rle_Rpower; lra. Qed.

Section Gen.
  Variables (phi q : R -> R) (ws : list R) (desired e m M : R).
  Hypothesis Hphi1 : phi 1 = 1.
  Hypothesis Hmono : forall y z, 0 < y <= z -> z <= 1 -> phi y <= phi z.
  Hypothesis Hpos : forall z, 0 < z <= 1 -> 0 < phi z.
  Hypothesis Hqpos : forall c, 0 < c -> 0 < q c.
  Hypothesis Hqmono : forall x y, 0 < x < y -> q x < q y.
  Hypothesis Hq2 : forall c, 0 < c -> q (c * 2) = Rpower 2 e * q c.
  Hypothesis He : 0 < e.
  Hypothesis V : double_weights ws.
  Hypothesis Hne : ws <> [].
  Hypothesis Hm : In m ws /\ forall x, In x ws -> m <= x.
  Let n := INR (length ws).
  Let Mx := max_from 0 ws.
  Lemma Mx_pos : 0 < Mx.
  Proof. apply (valid_pos ws _ V). apply max_from_in; [exact Hne|]. intros x Hx. now apply (valid_pos ws). Qed.
  Lemma m_pos : 0 < m. Proof. apply (valid_pos ws _ V). apply Hm. Qed.
  Lemma n_pos' : 0 < n. Proof. exact (n_pos ws V Hne). Qed.
  (** everything connected *)
  Lemma val_full c v : 0 < c -> 1 / (m * m) <= q c -> val phi q ws c v -> v = n - 1.
  Proof.
    intros Hc Hq1 Hv. destruct Hm as [Hm1 HM]. pose proof m_pos as Hm0. pose proof n_pos' as Hn.
    assert (Hbig : forall x y, In x ws -> In y ws -> 1 <= q c * (x * y)).
    { intros x y Hx Hy. pose proof (HM x Hx). pose proof (HM y Hy). apply Rle_trans with (1 / (m * m) * (m * m)); [right; field; lra|]. apply Rmult_le_compat; try nra. left. apply Rdiv_lt_0_compat; nra. }
    destruct (est_delta phi Hphi1 Hmono Hpos ws V (q c) v (Hqpos c ltac:(lra)) Hv) as (delta & E & Hdl & [D0|(w & Hw & Hww & _)]); [|pose proof (Hbig w w Hw Hw); lra].
    assert (ED : deg_sum phi ws (q c) = 1 * (n * (n - 1))).
    { unfold n. rewrite <- INR_psum_const. apply psum_ext. intros x y Hx Hy. unfold capped. destruct (Rge_dec (q c * (x * y)) 1) as [G|G]; [reflexivity|]. pose proof (Hbig x y Hx Hy). lra. }
    rewrite ED, D0 in E. fold n in E. apply Rmult_eq_reg_l with n; lra.
  Qed.
  Lemma q_le x y : 0 < x <= y -> q x <= q y.
  Proof. intros H. destruct (Rle_lt_or_eq_dec x y ltac:(lra)) as [L|L]; [left; apply Hqmono; lra|subst; lra]. Qed.
  Lemma thr_anti x y : 0 < x <= y -> 1 / q y / Mx <= 1 / q x / Mx.
  Proof.
    intros H. pose proof (q_le x y H). pose proof Mx_pos. pose proof (Hqpos x ltac:(lra)). unfold Rdiv. apply Rmult_le_compat_r; [left; now apply Rinv_0_lt_compat|]. rewrite !Rmult_1_l. apply Rinv_le_contravar; lra.
  Qed.
  Lemma q_pow c k : 0 < c -> q (c * 2 ^ k) = Rpower 2 e ^ k * q c.
  Proof.
    intros Hc. induction k as [|k IH]; [cbn; rewrite Rmult_1_r; lra|]. cbn [pow]. replace (c * (2 * 2 ^ k)) with (c * 2 ^ k * 2) by ring. rewrite Hq2, IH; [ring|]. apply Rmult_lt_0_compat; [exact Hc|apply pow_lt; lra].
  Qed.
  Lemma thr_small c : 0 < c -> exists k : nat, 1 / q (c * 2 ^ k) / Mx < dbl_min.
  Proof.
    intros Hc. pose proof Mx_pos as HM. pose proof (Hqpos c Hc) as Hq. assert (P1 : 1 < Rpower 2 e) by (rewrite <- (Rpower_O 2) by lra; apply Rpower_lt; lra).
    destruct (Pow_x_infinity (Rpower 2 e)) with (b := / dbl_min / (q c * Mx) + 1) as [k Hk]; [rewrite Rabs_pos_eq; lra|]. exists k. specialize (Hk k (le_n _)). rewrite Rabs_pos_eq in Hk by (apply pow_le; lra).
    rewrite q_pow by exact Hc. set (X := Rpower 2 e ^ k) in *. assert (0 < q c * Mx) by nra. pose proof dbl_min_pos as D. assert (D' : 0 < / dbl_min) by (now apply Rinv_0_lt_compat).
    assert (HX : / dbl_min < X * (q c * Mx)).
    { apply Rmult_lt_reg_r with (/ (q c * Mx)); [now apply Rinv_0_lt_compat|]. replace (X * (q c * Mx) * / (q c * Mx)) with X by (field; lra). unfold Rdiv in Hk. lra. }
    assert (0 < X) by (apply pow_lt; lra). replace (1 / (X * q c) / Mx) with (/ (X * (q c * Mx))) by (field; lra). rewrite <- (Rinv_inv dbl_min). apply Rinv_lt_contravar; [apply Rmult_lt_0_compat; nra|exact HX].
  Qed.
  Lemma val_below c v : n - 1 < desired -> 0 < c -> val phi q ws c v -> v < desired.
  Proof.
    intros Hd Hc Hv. destruct (val_range phi q ws Hphi1 Hmono Hpos Hqpos V Hne c v Hc Hv) as [_ P]. pose proof (deg_le phi q ws Hphi1 Hmono Hpos Hqpos V c Hc) as D. fold n in P, D. pose proof n_pos' as Hn.
    assert (deg_sum phi ws (q c) / n <= n - 1). { apply Rmult_le_reg_r with n; [exact Hn|]. unfold Rdiv. rewrite Rmult_assoc, Rinv_l by lra. lra. } lra.
  Qed.
  Hypothesis Hdes : desired <= n - 1.
  Hypothesis Hstart : q 2 * Mx <= / dbl_min.
  Hypothesis Hspread : Rpower 2 e * Mx <= / dbl_min * (m * m).
  Hypothesis Hqsurj : forall y, 0 < y -> exists c, 0 < c /\ q c = y.
  Lemma arg_bound : exists H, 2 <= H /\ (forall c v, 0 < c -> val phi q ws c v -> v < desired -> 2 * c <= H) /\ (forall c, 0 < c <= H -> dbl_min <= 1 / q c / Mx).
  Proof.
    pose proof m_pos as Hm0. pose proof Mx_pos as HM0. pose proof dbl_min_pos as D.
    destruct (Hqsurj (1 / (m * m))) as (c1 & Hc1 & E1); [apply Rdiv_lt_0_compat; nra|]. exists (Rmax 2 (c1 * 2)).
    split; [apply Rmax_l|]. split.
    - intros c v Hc Hv Hlt. apply Rle_trans with (c1 * 2); [|apply Rmax_r]. apply Rnot_lt_le. intros C. assert (c1 <= c) by lra.
      pose proof (q_le c1 c ltac:(lra)) as L. rewrite E1 in L. pose proof (val_full c v Hc L Hv). lra.
    - intros c Hc. apply Rle_trans with (1 / q (Rmax 2 (c1 * 2)) / Mx); [|apply thr_anti; exact Hc].
      assert (B : q (Rmax 2 (c1 * 2)) * Mx <= / dbl_min).
      { unfold Rmax. destruct (Rle_dec 2 (c1 * 2)); [|exact Hstart]. rewrite Hq2, E1 by exact Hc1. apply Rmult_le_reg_r with (m * m); [nra|].
        replace (Rpower 2 e * (1 / (m * m)) * Mx * (m * m)) with (Rpower 2 e * Mx) by (field; lra). exact Hspread. }
      pose proof (Hqpos (Rmax 2 (c1 * 2)) ltac:(pose proof (Rmax_l 2 (c1 * 2)); lra)) as Hq. set (Q := q (Rmax 2 (c1 * 2))) in *.
      replace (1 / Q / Mx) with (/ (Q * Mx)) by (field; lra). rewrite <- (Rinv_inv dbl_min). apply Rinv_le_contravar; [nra|exact B].
  Qed.
End Gen.

(** ** the two estimators *)
Section Inst.
  Variables (ws : list R) (d : nat).
  Hypothesis V : double_weights ws.
  Hypothesis Hne : ws <> [].
  Hypothesis Hd : (d >= 1)%nat.
  Let M := max_from 0 ws.
  Lemma full_dec st : full st \/ ~ full st. Proof. unfold full. destruct (Nat.eq_dec (lend st) (length (larr st))); tauto. Qed.
  Lemma thr_thresh c : 0 < c -> sum_by (fun w => w) ws / (2 * c) ^ d / M = 1 / qthr ws d c / M.
  Proof. intros Hc. unfold qthr. pose proof (W_pos ws V Hne). assert (0 < (2 * c) ^ d) by (apply pow_lt; lra). f_equal. field. lra. Qed.
  Lemma thr_linv st c v st' : linv ws st -> 0 < c -> threshold_f ws d st c v st' -> linv ws st' /\ val idR (qthr ws d) ws c v.
  Proof. intros I Hc Hf. split; [destruct Hf as (k & Hs & _); eapply linv_step; eassumption|]. apply (thr_val ws d V Hne st c v st'); auto. apply I. Qed.
  Lemma thr_HF st c : linv ws st -> 0 < c -> (threshold_fails ws d st c <-> 1 / qthr ws d c / M < dbl_min /\ full st).
  Proof.
    intros I Hc. unfold threshold_fails. cbv zeta. fold M. rewrite thr_thresh by exact Hc. rewrite (sort_fails_iff ws st _ I). split; [|tauto].
    intros [H|(k & st' & H & C)]; [exact H|]. exfalso. apply C. apply (sort_k ws V _ _ _ _ I H).
  Qed.
  Lemma thr_HA st c v st' : linv ws st -> 0 < c -> 1 / qthr ws d c / M < dbl_min -> threshold_f ws d st c v st' -> full st'.
  Proof. intros I Hc Ht (k & Hs & _). fold M in Hs. rewrite thr_thresh in Hs by exact Hc. eapply sort_all; eassumption. Qed.
  Lemma thr_q2 c : 0 < c -> qthr ws d (c * 2) = Rpower 2 (INR d) * qthr ws d c.
  Proof. intros Hc. unfold qthr. rewrite Rpower_pow by lra. replace (2 * (c * 2)) with (2 * (2 * c)) by ring. rewrite (Rpow_mult_distr 2 (2 * c)). unfold Rdiv. ring. Qed.

  Variable alpha : R.
  Hypothesis Hlen : (N.of_nat (length ws) < 2 ^ 31)%N.
  Hypothesis H0 : 0 < alpha.
  Hypothesis H1 : alpha <> 1.
  Lemma gen_thresh c : 0 < c -> exp (INR d * ln (1 / 2 / Rpower c (1 / alpha / INR d)) - ln (M / sum_by (fun w => w) ws)) = 1 / qgen ws alpha d c / M.
  Proof.
    intros Hc. pose proof (W_pos ws V Hne) as HW. pose proof (Mx_pos ws V Hne) as HM. fold M in HM. assert (HC : 0 < Rpower c (1 / alpha)) by apply exp_pos. assert (H2 : 0 < 2 ^ d) by (apply pow_lt; lra). assert (Hid : 0 < INR d) by (apply lt_0_INR; lia).
    unfold qgen. unfold Rminus. rewrite exp_plus, exp_Ropp, exp_ln by (apply Rdiv_lt_0_compat; assumption).
    assert (E : exp (INR d * ln (1 / 2 / Rpower c (1 / alpha / INR d))) = 1 / (2 ^ d * Rpower c (1 / alpha))).
    { change (Rpower (1 / 2 / Rpower c (1 / alpha / INR d)) (INR d) = 1 / (2 ^ d * Rpower c (1 / alpha))). rewrite Rpower_div; [|lra|apply exp_pos]. rewrite Rpower_mult.
      replace (1 / alpha / INR d * INR d) with (1 / alpha) by (field; lra). rewrite Rpower_pow by lra. unfold Rdiv. rewrite Rmult_1_l, pow_inv by lra. field. split; [apply Rgt_not_eq; exact HC|lra]. }
    rewrite E. field. repeat split; lra.
  Qed.
  Definition glinv (st : lazy * list R) : Prop := gen_inv ws alpha st /\ linv ws (fst st).
  Lemma gen_linv st c v st' : glinv st -> 0 < c -> general_f ws d alpha st c v st' -> glinv st' /\ val (phi_gen alpha) (qgen ws alpha d) ws c v.
  Proof.
    intros [G I] Hc Hf. destruct (gen_val ws d alpha V Hne Hd Hlen H0 H1 st c v st' G Hc Hf) as [G' Hv]. split; [|exact Hv]. split; [exact G'|]. destruct Hf as (k & Hs & _). eapply linv_step; eassumption.
  Qed.
  Lemma gen_HF st c : glinv st -> 0 < c -> (general_fails ws d alpha st c <-> 1 / qgen ws alpha d c / M < dbl_min /\ full (fst st)).
  Proof.
    intros [_ I] Hc. unfold general_fails. cbv zeta. fold M. rewrite gen_thresh by exact Hc. rewrite (sort_fails_iff ws (fst st) _ I). split; [|tauto].
    intros [H|(k & st' & H & _ & C)]; [exact H|]. exfalso. apply C. apply (sort_k ws V _ _ _ _ I H).
  Qed.
  Lemma gen_HA st c v st' : glinv st -> 0 < c -> 1 / qgen ws alpha d c / M < dbl_min -> general_f ws d alpha st c v st' -> full (fst st').
  Proof. intros [_ I] Hc Ht (k & Hs & _). fold M in Hs. rewrite gen_thresh in Hs by exact Hc. eapply sort_all; eassumption. Qed.
  Lemma gen_q2 c : 0 < c -> qgen ws alpha d (c * 2) = Rpower 2 (1 / alpha) * qgen ws alpha d c.
  Proof. intros Hc. unfold qgen. rewrite <- Rpower_mult_distr by lra. unfold Rdiv. ring. Qed.
End Inst.

(** ** C68, specification *)
Definition smallest (ws : list R) (w : R) : Prop := In w ws /\ forall x, In x ws -> w <= x.
Definition largest (ws : list R) (w : R) : Prop := In w ws /\ forall x, In x ws -> x <= w.
(** doubling the argument of the estimated degree function multiplies the weights by 2^(this) *)
Definition doubling (d : nat) (alpha : dbl) : R := match alpha with DFin a => if Rlt_dec 8 a then INR d else 1 / a | _ => INR d end.

Lemma largest_max ws M : double_weights ws -> largest ws M -> max_from 0 ws = M.
Proof.
  intros V [HM HL]. assert (Hne : ws <> []) by (intros ->; destruct HM). destruct (max_from_ge 0 ws) as [_ G]. apply Rle_antisym; [|now apply G].
  apply HL. apply max_from_in; [exact Hne|]. intros x Hx. now apply (valid_pos ws).
Qed.
Lemma max_le_sum ws M : double_weights ws -> largest ws M -> M <= sum_by (fun w => w) ws.
Proof.
  intros V [HM _]. assert (G : forall l, (forall x, In x l -> 0 < x) -> 0 <= sum_by (fun w => w) l /\ (In M l -> M <= sum_by (fun w => w) l)).
  { induction l as [|x l IH]; intros Hp; [cbn; split; [lra|tauto]|]. destruct IH as [A B]; [intros; apply Hp; now right|]. pose proof (Hp x (or_introl eq_refl)).
    change (sum_by (fun w => w) (x :: l)) with (x + sum_by (fun w => w) l). split; [lra|]. intros [->|C]; [lra|]. specialize (B C). lra. }
  apply G; [|exact HM]. intros x Hx. now apply (valid_pos ws).
Qed.

Section Equal.
  Variables (ws : list R) (desired : R) (d : nat) (lo hi : R).
  Hypothesis V : double_weights ws.
  Hypothesis Hlen : (N.of_nat (length ws) < 2 ^ 31)%N.
  Hypothesis Hd : (1 <= d)%nat.
  Hypothesis Hlo : smallest ws lo.
  Hypothesis Hhi : largest ws hi.
  Hypothesis Hdes : 0 < desired <= INR (length ws) - 1.
  Lemma Hne : ws <> []. Proof. destruct Hlo as [H _]. intros ->. destruct H. Qed.
  Lemma q_start (q e W : R) : 0 < W -> hi <= W -> INR d + e <= 1022 -> q = Rpower 2 (INR d + e) / W -> q * max_from 0 ws <= / dbl_min.
  Proof.
    intros HW HWM He ->. rewrite (largest_max ws hi V Hhi). rewrite dbl_min_2, Rinv_inv. assert (0 < hi) by (apply (valid_pos ws _ V); apply Hhi).
    apply Rle_trans with (Rpower 2 (INR d + e)); [|now apply Rpower2_le]. assert (P : 0 < Rpower 2 (INR d + e)) by apply exp_pos.
    apply Rmult_le_reg_r with W; [exact HW|]. replace (Rpower 2 (INR d + e) / W * hi * W) with (Rpower 2 (INR d + e) * hi) by (field; lra). apply Rmult_le_compat_l; lra.
  Qed.
  Lemma spread e : Rpower 2 e * hi <= Rpower 2 1022 * (lo * lo) -> Rpower 2 e * max_from 0 ws <= / dbl_min * (lo * lo).
  Proof. intros H. rewrite (largest_max ws hi V Hhi), dbl_min_2, Rinv_inv. exact H. Qed.
  Lemma thr_safe b : INR d + INR d <= 1022 -> Rpower 2 (INR d) * hi <= Rpower 2 1022 * (lo * lo) ->
    search_run (threshold_f ws d) desired default_accuracy (InUp (lazy_init ws) 1 2) b ->
    ~ aborts (threshold_fails ws d) b /\ dbg_run (threshold_f ws d) (threshold_fails ws d) desired default_accuracy (InUp (lazy_init ws) 1 2) b.
  Proof.
    intros He Hs Hr. pose proof Hne as Hne. assert (Hid : 0 < INR d) by (apply lt_0_INR; lia). pose proof (W_pos ws V Hne) as HW.
    destruct (arg_bound idR (qthr ws d) ws desired (INR d) lo eq_refl id_mono id_pos (qthr_pos ws V Hne d) (fun x y H => qthr_mono ws V Hne d x y Hd H) (thr_q2 ws d) V Hne Hlo (proj2 Hdes)) as (H & HH2 & Hup & Hthr).
    - apply (q_start (qthr ws d 2) (INR d) (sum_by (fun w => w) ws)); auto; [now apply max_le_sum|]. unfold qthr. rewrite Rpower_plus, Rpower_pow, <- Rpow_mult_distr by lra. reflexivity.
    - now apply spread.
    - intros y Hy. now apply (qthr_surj ws V Hne d y).
    - apply (safe_run (threshold_f ws d) (threshold_fails ws d) desired default_accuracy (linv ws) full (val idR (qthr ws d) ws) (fun c => 1 / qthr ws d c / max_from 0 ws)) with (H := H); auto.
      + intros st c v st' I Hc Hf. now apply (thr_linv ws d V Hne st c v st').
      + intros st c I Hc. now apply thr_HF.
      + now apply linv_init.
  Qed.
  Lemma gen_safe alpha b : 0 < alpha -> alpha <> 1 -> INR d + 1 / alpha <= 1022 -> Rpower 2 (1 / alpha) * hi <= Rpower 2 1022 * (lo * lo) ->
    search_run (general_f ws d alpha) desired default_accuracy (InUp (lazy_init ws, []) 1 2) b ->
    ~ aborts (general_fails ws d alpha) b /\ dbg_run (general_f ws d alpha) (general_fails ws d alpha) desired default_accuracy (InUp (lazy_init ws, []) 1 2) b.
  Proof.
    intros H0 H1 He Hs Hr. pose proof Hne as Hne. pose proof (W_pos ws V Hne) as HW.
    destruct (arg_bound (phi_gen alpha) (qgen ws alpha d) ws desired (1 / alpha) lo (phi_gen_1 alpha H1) (fun y z => phi_gen_mono alpha y z H0 H1) (fun z => phi_gen_pos alpha z H0 H1) (fun c _ => qgen_pos ws V Hne alpha d c)
      (fun x y H => qgen_mono ws V Hne alpha H0 d x y H) (gen_q2 ws d alpha) V Hne Hlo (proj2 Hdes)) as (H & HH2 & Hup & Hthr).
    - apply (q_start (qgen ws alpha d 2) (1 / alpha) (sum_by (fun w => w) ws)); auto; [now apply max_le_sum|]. unfold qgen. rewrite Rpower_plus, Rpower_pow by lra. reflexivity.
    - now apply spread.
    - intros y Hy. now apply (qgen_surj ws V Hne alpha H0 d y).
    - apply (safe_run (general_f ws d alpha) (general_fails ws d alpha) desired default_accuracy (glinv ws alpha) (fun st => full (fst st)) (val (phi_gen alpha) (qgen ws alpha d) ws) (fun c => 1 / qgen ws alpha d c / max_from 0 ws)) with (H := H); auto.
      + intros st c v st' I Hc Hf. now apply (gen_linv ws d V Hne Hd alpha Hlen H0 H1 st c v st').
      + intros st c I Hc. now apply gen_HF.
      + split; [now apply gen_inv_init|now apply linv_init].
  Qed.
End Equal.

(** the debug build has exactly the results of the release build: no assertion fails *)
Theorem C68_debug_equals_release : forall ws desired d alpha lo hi, double_weights ws -> (N.of_nat (length ws) < 2 ^ 31)%N -> (1 <= d)%nat ->
  smallest ws lo -> largest ws hi -> 0 < desired <= INR (length ws) - 1 ->
  INR d + doubling d alpha <= 1022 -> Rpower 2 (doubling d alpha) * hi <= Rpower 2 1022 * (lo * lo) ->
  forall r ws', scale_weights_dbg ws desired d alpha r ws' <-> exists r', r = Finished r' /\ scale_weights ws desired d alpha r' ws'.
Proof.
  intros ws desired d alpha lo hi V Hlen Hd Hlo Hhi Hdes He Hs r ws'.
  assert (E8 : dgt alpha 8 = true -> doubling d alpha = INR d). { destruct alpha as [|b|a]; cbn; try discriminate; auto. destruct (Rlt_dec 8 a); [reflexivity|discriminate]. }
  assert (E0 : forall a, alpha = DFin a -> dgt alpha 8 = false -> doubling d alpha = 1 / a). { intros a ->. cbn. destruct (Rlt_dec 8 a); [discriminate|reflexivity]. }
  assert (Epos : forall a, alpha = DFin a -> dgt alpha 0 && dne alpha 1 = true -> 0 < a /\ a <> 1). { intros a -> H. cbn in H. destruct (Rlt_dec 0 a); [|discriminate]. destruct (Req_EM_T a 1); [discriminate|]. split; assumption. }
  split.
  - intros H. destruct H as [st' c v H8 Hr|s H8 Hr Ha|a st' c v H8 H01 -> H1 Hr|H8 H01 ->|a s H8 H01 -> H1 Hr Ha|H8 H01].
    + eexists. split; [reflexivity|]. apply scale_thr; [exact H8|]. exists st', c, v. split; [now apply drun_run in Hr|reflexivity].
    + exfalso. apply drun_run in Hr. rewrite (E8 H8) in *. apply (proj1 (thr_safe ws desired d lo hi V Hlen Hd Hlo Hhi Hdes s He Hs Hr)). exact Ha.
    + eexists. split; [reflexivity|]. eapply scale_gen; try eassumption; [reflexivity|]. exists st', c, v. split; [now apply drun_run in Hr|reflexivity].
    + destruct (Epos 1 eq_refl H01). congruence.
    + exfalso. apply drun_run in Hr. destruct (Epos a eq_refl H01) as [A0 A1]. rewrite (E0 a eq_refl H8) in *. apply (proj1 (gen_safe ws desired d lo hi V Hlen Hd Hlo Hhi Hdes a s A0 A1 He Hs Hr)). exact Ha.
    + eexists. split; [reflexivity|]. now apply scale_throw.
  - intros (r' & -> & H). destruct H as [s H8 (st' & c & v & Hr & ->)|a s H8 H01 -> (st' & c & v & Hr & ->)|H8 H01].
    + apply (dbg_thr ws desired d alpha st' c v H8). rewrite (E8 H8) in *. apply (thr_safe ws desired d lo hi V Hlen Hd Hlo Hhi Hdes _ He Hs Hr).
    + destruct (Epos a eq_refl H01) as [A0 A1]. apply (dbg_gen ws desired d (DFin a) a st' c v H8 H01 eq_refl A1). rewrite (E0 a eq_refl H8) in *. apply (gen_safe ws desired d lo hi V Hlen Hd Hlo Hhi Hdes a _ A0 A1 He Hs Hr).
    + now apply dbg_throw.
Qed.

(** in particular for all weights between 2^-300 and 2^300 *)
Theorem C68_ordinary_weights : forall ws desired d alpha, ws <> [] -> (forall w, In w ws -> Rpower 2 (-300) <= w <= Rpower 2 300) -> (N.of_nat (length ws) < 2 ^ 31)%N -> (1 <= d <= 100)%nat ->
  match alpha with DFin a => a <= 0 \/ 1 / 100 <= a | _ => True end -> 0 < desired <= INR (length ws) - 1 ->
  forall r ws', scale_weights_dbg ws desired d alpha r ws' <-> exists r', r = Finished r' /\ scale_weights ws desired d alpha r' ws'.
Proof.
  intros ws desired d alpha Hne Hw Hlen Hd Ha Hdes.
  assert (PP : forall k : Z, Rpower 2 (IZR k) = bpow radix2 k) by (intros k; rewrite bpow_powerRZ, powerRZ_Rpower by (cbn; lra); reflexivity).
  assert (V : double_weights ws).
  { apply Forall_forall. intros w Hx. destruct (Hw w Hx) as [A B]. split; [eapply Rle_trans; [|exact A]; rewrite PP; apply bpow_le; lia|]. eapply Rle_trans; [exact B|]. rewrite PP.
    apply Rle_trans with (bpow radix2 1023); [apply bpow_le; lia|]. assert (bpow radix2 (-52) <= 1) by (change 1 with (bpow radix2 0); apply bpow_le; lia). pose proof (bpow_gt_0 radix2 1023). nra. }
  assert (Ex : exists lo hi, smallest ws lo /\ largest ws hi).
  { clear -Hne. induction ws as [|x l IH]; [congruence|]. destruct l as [|y l]; [exists x, x; split; (split; [now left|]); intros z [->|[]]; lra|].
    destruct IH as (a & b & [A1 A2] & [B1 B2]); [discriminate|]. exists (Rmin x a), (Rmax x b). split; split.
    - unfold Rmin. destruct (Rle_dec x a); [now left|now right].
    - intros z [<-|Hz]; [apply Rmin_l|]. eapply Rle_trans; [apply Rmin_r|]. now apply A2.
    - unfold Rmax. destruct (Rle_dec x b); [now right|now left].
    - intros z [<-|Hz]; [apply Rmax_l|]. eapply Rle_trans; [|apply Rmax_r]. now apply B2. }
  destruct Ex as (lo & hi & Hlo & Hhi). destruct (Hw lo (proj1 Hlo)) as [L _]. destruct (Hw hi (proj1 Hhi)) as [_ G]. assert (Hid : INR d <= 100) by (replace 100 with (INR 100) by (cbn; lra); apply le_INR; lia).
  assert (Finite : doubling d alpha <= 100 -> forall r ws', scale_weights_dbg ws desired d alpha r ws' <-> exists r', r = Finished r' /\ scale_weights ws desired d alpha r' ws').
  { intros Hdb. apply (C68_debug_equals_release ws desired d alpha lo hi); auto; try lia; try lra.
    apply Rle_trans with (Rpower 2 100 * Rpower 2 300); [apply Rmult_le_compat; try (left; apply exp_pos); [|apply Rpower2_le; exact Hdb|exact G]|].
    - assert (0 < hi); [apply (valid_pos ws _ V), Hhi|lra].
    - apply Rle_trans with (Rpower 2 1022 * (Rpower 2 (-300) * Rpower 2 (-300))).
      + rewrite <- !Rpower_plus. apply Rpower2_le. lra.
      + apply Rmult_le_compat_l; [left; apply exp_pos|]. apply Rmult_le_compat; try (left; apply exp_pos); exact L. }
  destruct alpha as [|b|a]; [apply Finite; exact Hid|apply Finite; exact Hid|]. destruct Ha as [Ha|Ha].
  - (* throws *) assert (N1 : dgt (DFin a) 8 = false) by (cbn; destruct (Rlt_dec 8 a); [lra|reflexivity]). assert (N2 : dgt (DFin a) 0 && dne (DFin a) 1 = false) by (cbn; destruct (Rlt_dec 0 a); [lra|reflexivity]).
    intros r ws'. split; [intros H; inversion H; subst; try congruence; eexists; split; [reflexivity|now apply scale_throw]|]. intros (r' & -> & H). inversion H; subst; try congruence. now apply dbg_throw.
  - apply Finite. cbn. destruct (Rlt_dec 8 a); [exact Hid|]. unfold Rdiv. rewrite Rmult_1_l. rewrite <- (Rinv_inv 100). apply Rinv_le_contravar; lra.
Qed.

(** a degree that no graph with n nodes has: the release build never returns (C32); every run of the debug build ends, with a failed assertion *)
Definition runs_abort {St} (f : St -> R -> R -> St -> Prop) (fails : St -> R -> Prop) (desired : R) (st : St) : Prop :=
  Acc (fun later earlier => dbg_step f fails desired default_accuracy earlier later) (InUp st 1 2) (* no infinite run *) /\
  forall a, dbg_run f fails desired default_accuracy (InUp st 1 2) a -> (forall st' r v, a <> Done st' r v) /\ (aborts fails a \/ exists b, dbg_step f fails desired default_accuracy a b) (* no run returns, or ends without an abort *).
Lemma thr_runs_abort ws desired d : double_weights ws -> ws <> [] -> (1 <= d)%nat -> INR (length ws) - 1 < desired ->
  runs_abort (threshold_f ws d) (threshold_fails ws d) desired (lazy_init ws) /\
  exists s, dbg_run (threshold_f ws d) (threshold_fails ws d) desired default_accuracy (InUp (lazy_init ws) 1 2) s /\ aborts (threshold_fails ws d) s.
Proof.
  intros V Hne Hd Hdes. assert (Hid : 0 < INR d) by (apply lt_0_INR; lia). set (thr := fun c => 1 / qthr ws d c / max_from 0 ws).
  assert (HI : forall st c v st', linv ws st -> 0 < c -> threshold_f ws d st c v st' -> linv ws st' /\ val idR (qthr ws d) ws c v) by (intros st c v st'; apply (thr_linv ws d V Hne)).
  assert (HE : forall st c, linv ws st -> 0 < c -> exists v st', threshold_f ws d st c v st') by (intros st c I _; apply threshold_f_exists; apply I).
  assert (HF : forall st c, linv ws st -> 0 < c -> (threshold_fails ws d st c <-> thr c < dbl_min /\ full st)) by (intros; now apply thr_HF).
  assert (HA : forall st c v st', linv ws st -> 0 < c -> thr c < dbl_min -> threshold_f ws d st c v st' -> full st') by (intros st c v st' I Hc Ht; now apply (thr_HA ws d V Hne st c v st')).
  assert (HB : forall c v, 0 < c -> val idR (qthr ws d) ws c v -> v < desired) by (intros c v; apply (val_below idR (qthr ws d) ws desired eq_refl id_mono id_pos (qthr_pos ws V Hne d) V Hne c v Hdes)).
  assert (HS : forall c, 0 < c -> exists m : nat, thr (c * 2 ^ m) < dbl_min) by (intros c Hc; apply (thr_small (qthr ws d) ws (INR d) (qthr_pos ws V Hne d) (thr_q2 ws d) Hid V Hne c Hc)).
  assert (HT : forall x y, 0 < x <= y -> thr y <= thr x) by (intros x y Hxy; apply (thr_anti (qthr ws d) ws (qthr_pos ws V Hne d) (fun x y H => qthr_mono ws V Hne d x y Hd H) V Hne x y Hxy)).
  assert (U : up_ok (linv ws) (InUp (lazy_init ws) 1 2)) by (cbn; split; [now apply linv_init|lra]).
  assert (AC : Acc (fun later earlier => dbg_step (threshold_f ws d) (threshold_fails ws d) desired default_accuracy earlier later) (InUp (lazy_init ws) 1 2)).
  { apply (abort_acc (threshold_f ws d) (threshold_fails ws d) desired default_accuracy (linv ws) full (val idR (qthr ws d) ws) thr HI HF HA HB HS HT); [now apply linv_init|lra]. }
  split; [split; [exact AC|]|].
  - intros a Ha. pose proof (up_run (threshold_f ws d) (threshold_fails ws d) desired default_accuracy (linv ws) (val idR (qthr ws d) ws) HI HB _ _ Ha U) as Ua. split; [intros st' r v ->; exact Ua|].
    apply (up_progress (threshold_f ws d) (threshold_fails ws d) desired default_accuracy (linv ws) full (val idR (qthr ws d) ws) thr HI HE HF full_dec HB a Ua).
  - apply (abort_reached (threshold_f ws d) (threshold_fails ws d) desired default_accuracy (linv ws) full (val idR (qthr ws d) ws) thr HI HE HF full_dec HB _ U AC).
Qed.
Lemma gen_runs_abort ws desired d alpha : double_weights ws -> ws <> [] -> (N.of_nat (length ws) < 2 ^ 31)%N -> (1 <= d)%nat -> 0 < alpha -> alpha <> 1 -> INR (length ws) - 1 < desired ->
  runs_abort (general_f ws d alpha) (general_fails ws d alpha) desired (lazy_init ws, []) /\
  exists s, dbg_run (general_f ws d alpha) (general_fails ws d alpha) desired default_accuracy (InUp (lazy_init ws, []) 1 2) s /\ aborts (general_fails ws d alpha) s.
Proof.
  intros V Hne Hlen Hd H0 H1 Hdes. assert (Hia : 0 < 1 / alpha) by (apply Rdiv_lt_0_compat; lra). set (thr := fun c => 1 / qgen ws alpha d c / max_from 0 ws). set (vl := val (phi_gen alpha) (qgen ws alpha d) ws).
  set (fl := fun st : lazy * list R => full (fst st)). assert (FD : forall st, fl st \/ ~ fl st) by (intros; apply full_dec).
  assert (HI : forall st c v st', glinv ws alpha st -> 0 < c -> general_f ws d alpha st c v st' -> glinv ws alpha st' /\ vl c v) by (intros st c v st'; apply (gen_linv ws d V Hne Hd alpha Hlen H0 H1)).
  assert (HE : forall st c, glinv ws alpha st -> 0 < c -> exists v st', general_f ws d alpha st c v st') by (intros st c [I _] _; now apply general_f_exists).
  assert (HF : forall st c, glinv ws alpha st -> 0 < c -> (general_fails ws d alpha st c <-> thr c < dbl_min /\ fl st)) by (intros; now apply gen_HF).
  assert (HA : forall st c v st', glinv ws alpha st -> 0 < c -> thr c < dbl_min -> general_f ws d alpha st c v st' -> fl st') by (intros st c v st' I Hc Ht Hf; now apply (gen_HA ws d V Hne Hd alpha Hlen H0 st c v st' I Hc Ht)).
  assert (HB : forall c v, 0 < c -> vl c v -> v < desired) by (intros c v; apply (val_below (phi_gen alpha) (qgen ws alpha d) ws desired (phi_gen_1 alpha H1) (fun y z => phi_gen_mono alpha y z H0 H1) (fun z => phi_gen_pos alpha z H0 H1) (fun c _ => qgen_pos ws V Hne alpha d c) V Hne c v Hdes)).
  assert (HS : forall c, 0 < c -> exists m : nat, thr (c * 2 ^ m) < dbl_min) by (intros c Hc; apply (thr_small (qgen ws alpha d) ws (1 / alpha) (fun c _ => qgen_pos ws V Hne alpha d c) (gen_q2 ws d alpha) Hia V Hne c Hc)).
  assert (HT : forall x y, 0 < x <= y -> thr y <= thr x) by (intros x y Hxy; apply (thr_anti (qgen ws alpha d) ws (fun c _ => qgen_pos ws V Hne alpha d c) (fun x y H => qgen_mono ws V Hne alpha H0 d x y H) V Hne x y Hxy)).
  assert (I0 : glinv ws alpha (lazy_init ws, [])) by (split; [now apply gen_inv_init|now apply linv_init]).
  assert (U : up_ok (glinv ws alpha) (InUp (lazy_init ws, []) 1 2)) by (cbn; split; [exact I0|lra]).
  assert (AC : Acc (fun later earlier => dbg_step (general_f ws d alpha) (general_fails ws d alpha) desired default_accuracy earlier later) (InUp (lazy_init ws, []) 1 2)).
  { apply (abort_acc (general_f ws d alpha) (general_fails ws d alpha) desired default_accuracy (glinv ws alpha) fl vl thr HI HF HA HB HS HT); [exact I0|lra]. }
  split; [split; [exact AC|]|].
  - intros a Ha. pose proof (up_run (general_f ws d alpha) (general_fails ws d alpha) desired default_accuracy (glinv ws alpha) vl HI HB _ _ Ha U) as Ua. split; [intros st' r v ->; exact Ua|].
    apply (up_progress (general_f ws d alpha) (general_fails ws d alpha) desired default_accuracy (glinv ws alpha) fl vl thr HI HE HF FD HB a Ua).
  - apply (abort_reached (general_f ws d alpha) (general_fails ws d alpha) desired default_accuracy (glinv ws alpha) fl vl thr HI HE HF FD HB _ U AC).
Qed.

Theorem C68_impossible_degree_aborts : forall ws desired d alpha, double_weights ws -> ws <> [] -> (N.of_nat (length ws) < 2 ^ 31)%N -> (1 <= d)%nat -> ~ bad_alpha alpha ->
  INR (length ws) - 1 < desired ->
  scale_weights_dbg ws desired d alpha Aborted ws /\ (forall r ws', scale_weights_dbg ws desired d alpha r ws' -> r = Aborted /\ ws' = ws) /\
  runs_abort (threshold_f ws d) (threshold_fails ws d) desired (lazy_init ws) /\
  (forall a, 0 < a -> a <> 1 -> runs_abort (general_f ws d a) (general_fails ws d a) desired (lazy_init ws, [])).
Proof.
  intros ws desired d alpha V Hne Hlen Hd Hb Hdes. destruct (thr_runs_abort ws desired d V Hne Hd Hdes) as [T1 (s1 & R1 & A1)].
  assert (T2 : forall a, 0 < a -> a <> 1 -> runs_abort (general_f ws d a) (general_fails ws d a) desired (lazy_init ws, [])) by (intros a H0 H1; now apply gen_runs_abort).
  rewrite <- throw_iff in Hb. split; [|split; [|split; [exact T1|exact T2]]].
  - destruct (dgt alpha 8) eqn:E8; [eapply dbg_thr_abort; eassumption|]. destruct (dgt alpha 0 && dne alpha 1) eqn:E0; [|exfalso; apply Hb; auto].
    destruct alpha as [|b|a]; cbn in *; try discriminate; [destruct b; discriminate|]. pose proof E0 as E0'. apply andb_prop in E0 as [Q1 Q2]. destruct (Rlt_dec 0 a) as [P0|P0]; [|discriminate]. destruct (Req_EM_T a 1) as [P1|P1]; [discriminate|].
    destruct (gen_runs_abort ws desired d a V Hne Hlen Hd P0 P1 Hdes) as [_ (s & Rs & As)]. eapply dbg_gen_abort; [exact E8| |reflexivity|exact P1|exact Rs|exact As].
    cbn. destruct (Rlt_dec 0 a), (Req_EM_T a 1); auto; lra.
  - intros r ws' H. destruct H as [st' c v H8 Hr|s H8 Hr Ha|a st' c v H8 H01 -> H1 Hr|H8 H01 ->|a s H8 H01 -> H1 Hr Ha|H8 H01]; auto.
    + exfalso. now apply (proj1 (proj2 T1 _ Hr) st' c v).
    + exfalso. cbn in H01. destruct (Rlt_dec 0 a) as [P0|P0]; [|discriminate]. now apply (proj1 (proj2 (T2 a P0 H1) _ Hr) st' c v).
    + exfalso. apply Hb. auto.
Qed.

(** ** Non-vacuity *)
Lemma ex_range w : In w [4; 1] -> Rpower 2 (-300) <= w <= Rpower 2 300.
Proof.
  assert (A : Rpower 2 (-300) <= 1) by (rewrite <- (Rpower_O 2) by lra; apply Rpower2_le; lra). assert (B : 4 <= Rpower 2 300).
  { replace 4 with (Rpower 2 2); [apply Rpower2_le; lra|]. replace 2 with (INR 2) at 2 by (cbn; lra). rewrite Rpower_pow by lra. cbn. lra. }
  intros [<-|[<-|[]]]; lra.
Qed.
(** scaleWeights({4, 1}, 0.5, 1, 2) returns in the debug build *)
Example ex_C68 : exists s, scale_weights_dbg [4; 1] (1 / 2) 1 (DFin 2) (Finished (Returned s)) (scaled s [4; 1]).
Proof.
  destruct ex_C32 as (s & Hs & _). exists s. apply (C68_ordinary_weights [4; 1] (1 / 2) 1 (DFin 2)); [discriminate|exact ex_range|cbn; lia|lia|cbn; lra|cbn; lra|]. eexists. split; [reflexivity|exact Hs].
Qed.
(** scaleWeights({4, 1}, 3, 1, inf) aborts in the debug build: two nodes have degree at most 1 *)
Example ex_C68_abort : scale_weights_dbg [4; 1] 3 1 (DInf true) Aborted [4; 1].
Proof. apply (C68_impossible_degree_aborts [4; 1] 3 1 (DInf true)); [exact ex_double_weights|discriminate|cbn; lia|lia|cbn; congruence|cbn; lra]. Qed.

Print Assumptions C68_debug_equals_release. Print Assumptions C68_ordinary_weights. Print Assumptions C68_impossible_degree_aborts.
