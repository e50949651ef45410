(** Error analysis of the weight sampling of girgs::generateWeights in doubles (Generator.cpp:30). *)
From Coq Require Import Arith NArith ZArith List Bool Reals Lia Lra Psatz.
From Flocq Require Import Core.
From Verif Require Import Base Sched Coord_Model Coord_Proofs Tree_Model Tree_Run Sampling_Model Sampling_Proofs Prop_Sampling Girg_Num Ieee HypF_Err HypF_Ieee.
Import ListNotations.
Local Open Scope R_scope.
Local Notation u := u53.

(** std::pow in doubles: a double with a relative error of at most 2^-52 (two units in the last place), in the absence of over- and underflow *)
Definition pow_ok (pw : R -> R -> R) : Prop := forall x a, is_double x -> is_double a -> 0 < x -> b2 (-1000) <= Rpower x a <= b2 1000 ->
  is_double (pw x a) /\ Rabs (pw x a - Rpower x a) <= b2 (-52) * Rpower x a.

Lemma u_val : u * IZR (2 ^ 53) = 1.
Proof. replace (IZR (2 ^ 53)) with (b2 53) by reflexivity. unfold u53. rewrite <- bpow_plus. reflexivity. Qed.
Lemma b2_52 : b2 (-52) = 2 * u.
Proof. change 2 with (b2 1). unfold u53. rewrite <- bpow_plus. reflexivity. Qed.
Lemma exp_le' x y : x <= y -> exp x <= exp y.
Proof. intros [H| ->]; [left; now apply exp_increasing|apply Rle_refl]. Qed.
Lemma exp_1m y : 1 + y <= exp y. Proof. apply exp_ineq1_le. Qed.
Lemma x_exp x : 0 <= x -> x * exp (- x) <= 1.
Proof. intros H. rewrite exp_Ropp. pose proof (exp_1m x). pose proof (exp_pos x). apply Rmult_le_reg_r with (exp x); [lra|]. rewrite Rmult_assoc, Rinv_l by lra. lra. Qed.
Lemma exp_diff x x' : 0 <= x -> Rabs (x' - x) <= u * x -> Rabs (exp (- x') - exp (- x)) <= 2 * u.
Proof.
  intros H0 H. pose proof u_small as U. apply Rabs_le_inv in H.
  assert (X' : x <= 2 * x') by nra.
  assert (K : forall a b, 0 <= a <= b -> 0 <= exp (- a) - exp (- b) <= exp (- a) * (b - a)).
  { intros a b Hab. replace (- b) with (- a + (a - b)) by ring. rewrite exp_plus. pose proof (exp_1m (a - b)). assert (exp (a - b) <= 1) by (rewrite <- exp_0; apply exp_le'; lra). pose proof (exp_pos (- a)). split; nra. }
  destruct (Rle_lt_dec x x') as [L|L].
  - pose proof (K x x' (conj H0 L)) as [K1 K2]. pose proof (x_exp x H0). pose proof (exp_pos (- x)). rewrite Rabs_left1 by lra. assert (exp (- x) * (x' - x) <= exp (- x) * (u * x)) by (apply Rmult_le_compat_l; lra). nra.
  - pose proof (K x' x ltac:(lra)) as [K1 K2]. pose proof (x_exp x' ltac:(lra)). pose proof (exp_pos (- x')). rewrite Rabs_right by lra. assert (exp (- x') * (x - x') <= exp (- x') * (u * (2 * x'))) by (apply Rmult_le_compat_l; [lra|nra]). nra.
Qed.
Lemma exp_near y : Rabs y <= 1 / 2 -> Rabs (exp y - 1) <= 2 * Rabs y.
Proof.
  intros H. pose proof (exp_1m y) as L. destruct (Rle_lt_dec 0 y) as [P|P].
  - rewrite (Rabs_pos_eq y) in * by lra. rewrite Rabs_pos_eq by lra.
    pose proof (exp_1m (- y)) as A. rewrite exp_Ropp in A. pose proof (exp_pos y) as S0. set (s := exp y) in *.
    assert (B : s * (1 - y) <= 1). { apply Rmult_le_reg_l with (/ s); [now apply Rinv_0_lt_compat|]. rewrite <- Rmult_assoc, Rinv_l, Rmult_1_l, Rmult_1_r by lra. lra. }
    apply Rmult_le_reg_r with (1 - y); [lra|]. nra.
  - rewrite (Rabs_left y) in * by lra. assert (exp y <= 1) by (rewrite <- exp_0; apply exp_le'; lra). rewrite Rabs_left1 by lra. lra.
Qed.
Lemma ln_le_sub x : 0 < x -> ln x <= x - 1.
Proof. intros H. pose proof (exp_1m (ln x)) as E. rewrite exp_ln in E by exact H. lra. Qed.
Lemma ln_le x y : 0 < x -> x <= y -> ln x <= ln y.
Proof. intros H [L| ->]; [left; now apply ln_increasing|apply Rle_refl]. Qed.
Lemma ln_near x : 0 < x -> Rabs (x - 1) <= 1 / 2 -> Rabs (ln x) <= 2 * Rabs (x - 1).
Proof.
  intros H0 H. pose proof (ln_le_sub x H0) as A. pose proof (ln_le_sub (/ x) (Rinv_0_lt_compat _ H0)) as B. rewrite ln_Rinv in B by exact H0. apply Rabs_le_inv in H.
  assert (C : / x - 1 = (1 - x) / x) by (field; lra). rewrite C in B.
  destruct (Rle_lt_dec 1 x) as [P|P].
  - rewrite (Rabs_pos_eq (x - 1)) by lra. assert ((1 - x) / x <= 0) by (unfold Rdiv; pose proof (Rinv_0_lt_compat _ H0); nra). rewrite Rabs_pos_eq; lra.
  - rewrite (Rabs_left (x - 1)) by lra. assert ((1 - x) / x <= 2 * (1 - x)). { apply Rmult_le_reg_r with x; [exact H0|]. unfold Rdiv. rewrite Rmult_assoc, Rinv_l by lra. nra. } rewrite Rabs_left1; lra.
Qed.
Lemma RN_opp x : RN (- x) = - RN x. Proof. apply round_NE_opp. Qed.
Lemma double_opp x : is_double x -> is_double (- x). Proof. apply generic_format_opp. Qed.
Lemma below_one x : is_double x -> 0 <= x < 1 -> x <= 1 - u.
Proof.
  intros D H. apply FLT_format_generic in D; [|reflexivity]. destruct D as [[m e] E Hm He]. cbn [Fnum Fexp] in *. unfold F2R in E. cbn [Fnum Fexp] in E.
  assert (P0 : 0 < b2 e) by apply bpow_gt_0.
  destruct (Z_lt_le_dec e (-53)) as [L|L].
  - assert (x <= IZR (2 ^ 53 - 1) * b2 e) by (rewrite E; apply Rmult_le_compat_r; [lra|apply IZR_le; change (Z.pow_pos radix2 53) with (2 ^ 53)%Z in Hm; change (2 ^ 53)%Z with 9007199254740992%Z in *; cbn in Hm; lia]).
    assert (b2 e <= b2 (-53)) by (apply bpow_le; lia). fold u in *. pose proof u_val as V. rewrite minus_IZR in H0. change (b2 (-53)) with u in *. nra.
  - assert (E2 : 1 - x = IZR (2 ^ (- e) - m) * b2 e \/ (0 <= e)%Z).
    { destruct (Z_le_gt_dec 0 e); [now right|left]. rewrite minus_IZR, Rmult_minus_distr_r, <- E. f_equal. rewrite (IZR_Zpower radix2) by lia. rewrite <- bpow_plus. replace (- e + e)%Z with 0%Z by lia. reflexivity. }
    destruct E2 as [E2|E2].
    + assert (0 < IZR (2 ^ (- e) - m)). { apply Rmult_lt_reg_r with (b2 e); [exact P0|]. rewrite <- E2. lra. } apply lt_IZR in H0. assert (1 <= IZR (2 ^ (- e) - m)) by (apply IZR_le; lia).
      assert (b2 (-53) <= b2 e) by (apply bpow_le; lia). change (b2 (-53)) with u in *. nra.
    + assert (1 <= b2 e) by (change 1 with (b2 0); apply bpow_le; lia). assert (m = 0)%Z. { assert (IZR m < 1) by nra. assert (0 <= IZR m) by nra. apply lt_IZR in H1. apply le_IZR in H2. lia. } subst m. rewrite E, Rmult_0_l. pose proof u_small. lra.
Qed.

Section Weight.
  Context (f : R -> R) (pw : R -> R -> R) (PW : pow_ok pw) (n : nat) (ple : R).
  Hypothesis Hn : (2 < n)%nat.
  Hypothesis Hn2 : (N.of_nat n < 2 ^ 31)%N.
  Hypothesis HP : 5 / 4 <= ple <= 16.
  Context (U : R) (DU : is_double U) (HU : 0 <= U < 1).
  Let k := ple - 1.
  Let a := Rpower (INR n / 2) (1 - ple).
  Let bs := (a - 1) * U + 1.
  Let e := RN (- ple + 1).
  Let a' := pw (RN (1 / 2 * INR n)) e.
  Let b := RN (RN (RN (a' - 1) * U) + 1).
  Let g := RN (1 / e).
  Lemma w_unfold : weight_of (double_env f pw) n ple U = pw b g.
  Proof. reflexivity. Qed.
  Lemma w_half : RN (1 / 2 * INR n) = INR n / 2.
  Proof.
    replace (1 / 2 * INR n) with (INR n / 2) by field. apply RN_id. rewrite INR_IZR_INZ. replace (IZR (Z.of_nat n) / 2) with (IZR (Z.of_nat n) * b2 (-1)) by (change (b2 (-1)) with (/ 2); reflexivity).
    apply FLT_double; lia.
  Qed.
  Lemma w_tiny : b2 (-1022) <= / 1024.
  Proof. change (/ 1024) with (b2 (-10)). apply bpow_le. lia. Qed.
  Lemma w_k : 1 / 4 <= k <= 15. Proof. unfold k. lra. Qed.
  Lemma w_e : exists k', e = - k' /\ is_double k' /\ k * (1 - u) <= k' <= k * (1 + u).
  Proof.
    pose proof w_k. exists (RN k). unfold e. replace (- ple + 1) with (- k) by (unfold k; ring). rewrite RN_opp. split; [reflexivity|]. split; [apply RN_double|]. apply RN_rel. pose proof w_tiny. lra.
  Qed.
  Lemma w_H : 3 / 2 <= INR n / 2 <= b2 30.
  Proof.
    split; [assert (3 <= INR n); [|lra]; replace 3 with (INR 3) by (cbn; lra); apply le_INR; lia|].
    assert (INR n <= b2 31). { rewrite INR_IZR_INZ. replace (b2 31) with (IZR (2 ^ 31)) by reflexivity. apply IZR_le. lia. } replace (b2 31) with (2 * b2 30) in H by (change 2 with (b2 1); rewrite <- bpow_plus; reflexivity). lra.
  Qed.
  Lemma w_L : 1 / 3 <= ln (INR n / 2) <= 30.
  Proof.
    pose proof w_H as [H1 H2]. split.
    - pose proof (ln_le_sub (/ (INR n / 2)) ltac:(apply Rinv_0_lt_compat; lra)) as L. rewrite ln_Rinv in L by lra. assert (/ (INR n / 2) <= / (3 / 2)) by (apply Rinv_le_contravar; lra). lra.
    - assert (ln (INR n / 2) <= ln (b2 30)) by (apply ln_le; lra). rewrite bpow_exp in H. rewrite ln_exp in H. assert (ln (IZR radix2) <= 1). { pose proof (ln_le_sub 2 ltac:(lra)). change (IZR radix2) with 2. lra. } cbn [IZR IPR] in *. nra.
  Qed.
  Lemma w_a' : is_double a' /\ Rabs (a' - a) <= 4 * u /\ 0 < a' < 1.
  Proof.
    pose proof u_small as HU1. destruct w_e as (k' & Ee & Dk & Hk). pose proof w_k as K. pose proof w_L as L. set (l := ln (INR n / 2)) in *.
    assert (EX : Rpower (INR n / 2) e = exp (- (k' * l))) by (unfold Rpower; fold l; rewrite Ee; f_equal; ring).
    assert (EA : a = exp (- (k * l))) by (unfold a, Rpower; fold l; f_equal; unfold k; ring).
    assert (KL : 1 / 13 <= k' * l <= 460) by nra.
    assert (X1 : exp (- (k' * l)) <= 99 / 100).
    { rewrite exp_Ropp. pose proof (exp_1m (k' * l)). apply Rmult_le_reg_r with (exp (k' * l)); [apply exp_pos|]. rewrite Rinv_l by (pose proof (exp_pos (k' * l)); lra). nra. }
    destruct (PW (INR n / 2) e) as [D1 E1].
    - rewrite <- w_half. apply RN_double.
    - apply RN_double.
    - pose proof w_H. lra.
    - rewrite EX. split.
      + rewrite bpow_exp. apply exp_le'. assert (1 / 2 <= ln (IZR radix2)). { change (IZR radix2) with 2. pose proof (ln_le_sub (/ 2) ltac:(lra)) as L2. rewrite ln_Rinv in L2 by lra. lra. } lra.
      + apply Rle_trans with 1; [lra|]. change 1 with (b2 0). apply bpow_le. lia.
    - unfold a'. rewrite w_half. split; [exact D1|]. rewrite EX, b2_52 in E1. set (p := pw (INR n / 2) e) in *. pose proof (exp_pos (- (k' * l))) as P0. set (q := exp (- (k' * l))) in *.
      assert (DQ : Rabs (q - a) <= 2 * u). { unfold q. rewrite EA. apply exp_diff; [nra|]. replace (k' * l - k * l) with ((k' - k) * l) by ring. rewrite Rabs_mult, (Rabs_pos_eq l) by lra. rewrite <- Rmult_assoc. apply Rmult_le_compat_r; [lra|]. apply Rabs_le. lra. }
      apply Rabs_le_inv in E1. apply Rabs_le_inv in DQ. assert (2 * u * q <= 2 * u) by nra. assert (2 * u * q <= q / 2) by nra. split; [apply Rabs_le; lra|]. lra.
  Qed.
  Lemma w_b : is_double b /\ u <= b <= 1 /\ Rabs (b - bs) <= 7 * u.
  Proof.
    pose proof u_small as HU1. destruct w_a' as (Da & Ea & Ha). split; [apply RN_double|].
    assert (D1 : is_double 1) by (apply (double_Z 1); lia).
    assert (B1 : is_double (1 - u)).
    { replace (1 - u) with (IZR (2 ^ 53 - 1) * b2 (-53)); [apply FLT_double; lia|]. rewrite minus_IZR, Rmult_minus_distr_r. change (b2 (-53)) with u. rewrite (Rmult_comm (IZR (2 ^ 53))), u_val. ring. }
    pose proof (below_one U DU HU) as HU2.
    assert (C1 : -1 <= RN (a' - 1) <= 0).
    { split; [|rewrite <- (RN_Z 0) by lia; apply RN_le; lra]. rewrite <- (RN_id (-1)) by (apply (double_Z (-1)); lia). apply RN_le. lra. }
    pose proof (RN_abs (a' - 1) ltac:(apply Rabs_le; lra)) as E1. change (b2 (-53)) with u in E1. set (c := RN (a' - 1)) in *.
    assert (C2 : - (1 - u) <= c * U <= 0) by nra.
    assert (C3 : - (1 - u) <= RN (c * U) <= 0).
    { split; [|rewrite <- (RN_Z 0) by lia; apply RN_le; lra]. rewrite <- (RN_id (- (1 - u))) by now apply double_opp. apply RN_le. lra. }
    pose proof (RN_abs (c * U) ltac:(apply Rabs_le; lra)) as E2. change (b2 (-53)) with u in E2. set (m := RN (c * U)) in *.
    pose proof (RN_abs (m + 1) ltac:(apply Rabs_le; lra)) as E3. change (b2 (-53)) with u in E3. fold b in E3.
    split; [split|].
    - unfold b. fold c. fold m. rewrite <- (RN_id u) by (apply (b2_double (-53)); lia). apply RN_le. lra.
    - unfold b. fold c. fold m. rewrite <- (RN_id 1 D1) at 2. apply RN_le. lra.
    - unfold b in *. fold c in E3 |- *. fold m in E3 |- *. set (r := RN (m + 1)) in *. unfold bs. apply Rabs_le_inv in E1, E2, E3, Ea. assert (- (5 * u) <= (c - (a - 1)) * U <= 5 * u) by nra. apply Rabs_le. lra.
  Qed.
  Lemma w_g : exists g', g = - g' /\ Rabs (g' - / k) <= 4 * u * / k /\ 0 < g' <= 5.
  Proof.
    pose proof u_small as HU1. destruct w_e as (k' & Ee & Dk & Hk). pose proof w_k as K. exists (RN (/ k')).
    assert (K' : 1 / 5 <= k' <= 16) by nra. assert (I : / 16 <= / k' <= 5) by (split; [apply Rinv_le_contravar; lra|rewrite <- (Rinv_involutive 5) by lra; apply Rinv_le_contravar; lra]).
    split; [unfold g; rewrite Ee; replace (1 / - k') with (- (/ k')) by (field; lra); apply RN_opp|].
    pose proof w_tiny as T. destruct (RN_rel (/ k') ltac:(lra)) as [G1 G2]. set (g' := RN (/ k')) in *.
    assert (IK : 0 < / k <= 4) by (split; [apply Rinv_0_lt_compat; lra|rewrite <- (Rinv_involutive 4) by lra; apply Rinv_le_contravar; lra]).
    assert (Q : / k' = / k * (k / k')) by (field; lra).
    assert (Q1 : 1 - 2 * u <= k / k' <= 1 + 2 * u).
    { split; apply Rmult_le_reg_r with k'; try lra; unfold Rdiv; rewrite Rmult_assoc, Rinv_l, Rmult_1_r by lra; nra. }
    set (q := k / k') in *. assert (q * (1 - u) >= 1 - 4 * u) by nra. assert (q * (1 + u) <= 1 + 4 * u) by nra. rewrite Q in G1, G2. set (i := / k) in *.
    assert (i * (q * (1 - u)) <= g' <= i * (q * (1 + u))) by lra. split; [apply Rabs_le; nra|]. split; nra.
  Qed.
  (** the exact weight *)
  Let ws := weight_of ideal_env n ple U.
  Lemma w_bs : 0 < bs <= 1 /\ ws = exp (- (ln bs / k)) /\ Rpower ws k = / bs.
  Proof.
    assert (Hp : 1 < ple) by lra. pose proof (base_range n ple Hn Hp U HU) as B. fold a in B. pose proof (a_range n ple Hn Hp) as A. fold a in A. fold bs in B. pose proof w_k.
    split; [lra|]. assert (W : ws = exp (- (ln bs / k))) by (unfold ws; rewrite weight_ideal by assumption; fold a; fold bs; unfold Rpower; f_equal; unfold k; field; lra).
    split; [exact W|]. unfold Rpower. rewrite W, ln_exp. replace (k * - (ln bs / k)) with (- ln bs) by (field; lra). rewrite exp_Ropp, exp_ln by lra. reflexivity.
  Qed.
  Lemma ln2_le : 0 < ln 2 <= 1. Proof. split; [rewrite <- ln_1; apply ln_increasing; lra|pose proof (ln_le_sub 2 ltac:(lra)); lra]. Qed.
  Lemma w_pow : exists g', g = - g' /\ Rabs (g' - / k) <= 4 * u * / k /\ 0 < g' <= 5 /\ 0 <= - ln b <= 53 * ln 2 /\ Rpower b g = exp (g' * - ln b) /\
    is_double (pw b g) /\ Rabs (pw b g - exp (g' * - ln b)) <= 2 * u * exp (g' * - ln b).
  Proof.
    destruct w_g as (g' & Eg & G1 & G2). destruct w_b as (Db & Hb & _). pose proof u_small as HU1. pose proof ln2_le as L2.
    assert (LB : 0 <= - ln b <= 53 * ln 2).
    { split; [assert (ln b <= ln 1) by (apply ln_le; lra); rewrite ln_1 in H; lra|]. assert (ln u <= ln b) by (apply ln_le; lra). unfold u53 in H. rewrite bpow_exp, ln_exp in H. change (IZR radix2) with 2 in H. cbn [IZR IPR] in *. lra. }
    assert (EP : Rpower b g = exp (g' * - ln b)) by (unfold Rpower; rewrite Eg; f_equal; ring).
    exists g'. do 5 (split; [assumption|]). rewrite <- EP, <- b2_52. apply PW; [exact Db|apply RN_double|lra|]. rewrite EP. split.
    - apply Rle_trans with 1; [change 1 with (b2 0); apply bpow_le; lia|]. rewrite <- exp_0. apply exp_le'. nra.
    - rewrite bpow_exp. apply exp_le'. change (IZR radix2) with 2. assert (g' * - ln b <= 5 * (53 * ln 2)) by nra. cbn [IZR IPR] in *. lra.
  Qed.
  (** range *)
  Lemma w_range : is_double (pw b g) /\ 1 - b2 (-52) <= pw b g <= Rpower 2 (53 / (ple - 1)) * (1 + b2 (-40)).
  Proof.
    destruct w_pow as (g' & Eg & G1 & G2 & LB & EP & DW & EW). pose proof u_small as HU1. pose proof w_k as K. pose proof ln2_le as L2. split; [exact DW|]. rewrite b2_52.
    set (P := exp (g' * - ln b)) in *. assert (P1 : 1 <= P) by (unfold P; rewrite <- exp_0; apply exp_le'; nra). apply Rabs_le_inv in EW. split; [nra|].
    fold k. assert (IK : 0 < / k <= 4) by (split; [apply Rinv_0_lt_compat; lra|rewrite <- (Rinv_involutive 4) by lra; apply Rinv_le_contravar; lra]). apply Rabs_le_inv in G1.
    assert (PU : P <= Rpower 2 (53 / k) * exp (848 * u)).
    { unfold P, Rpower. rewrite <- exp_plus. apply exp_le'. unfold Rdiv. set (i := / k) in *. assert (g' <= i + 4 * u * i) by lra. assert (g' * - ln b <= (i + 4 * u * i) * (53 * ln 2)) by nra. assert (i * ln 2 <= 4) by nra. nra. }
    assert (U848 : exp (848 * u) <= 1 + 1696 * u). { pose proof (exp_near (848 * u) ltac:(rewrite Rabs_pos_eq; lra)) as E. rewrite (Rabs_pos_eq (848 * u)) in E by lra. apply Rabs_le_inv in E. lra. }
    assert (E40 : b2 (-40) = 8192 * u). { change 8192 with (b2 13). unfold u53. rewrite <- bpow_plus. reflexivity. }
    rewrite E40. set (C := Rpower 2 (53 / k)) in *. assert (C0 : 0 < C) by apply exp_pos. apply Rle_trans with (P * (1 + 2 * u)); [lra|].
    apply Rle_trans with (C * exp (848 * u) * (1 + 2 * u)); [apply Rmult_le_compat_r; lra|]. rewrite Rmult_assoc. apply Rmult_le_compat_l; [lra|]. nra.
  Qed.
  (** accuracy *)
  Lemma w_accuracy : Rpower ws (ple - 1) <= b2 45 -> Rabs (pw b g - ws) <= b2 (-45) * Rpower ws (ple - 1) * ws.
  Proof.
    fold k. destruct w_bs as (HB & WS & ->). intros Hi. destruct w_pow as (g' & Eg & G1 & G2 & LB & EP & DW & EW). destruct w_b as (_ & Hb & Eb). pose proof u_small as HU1. pose proof w_k as K.
    assert (E45 : b2 (-45) = 256 * u). { change 256 with (b2 8). unfold u53. rewrite <- bpow_plus. reflexivity. }
    assert (UB : 256 * u * / bs <= 1). { rewrite <- E45. apply Rle_trans with (b2 (-45) * b2 45); [apply Rmult_le_compat_l; [apply bpow_ge_0|exact Hi]|]. rewrite <- bpow_plus. apply Rle_refl. }
    rewrite E45. set (r := / bs) in *. assert (R1 : 1 <= r) by (unfold r; rewrite <- Rinv_1; apply Rinv_le_contravar; lra). assert (RB : r * bs = 1) by (unfold r; field; lra).
    assert (IK : 0 < / k <= 4) by (split; [apply Rinv_0_lt_compat; lra|rewrite <- (Rinv_involutive 4) by lra; apply Rinv_le_contravar; lra]).
    assert (LQ : Rabs (ln b - ln bs) <= 14 * u * r).
    { assert (Eq : ln b - ln bs = ln (b * r)) by (rewrite ln_mult by (try lra); unfold r; rewrite ln_Rinv by lra; ring). rewrite Eq. assert (X : Rabs (b * r - 1) <= 7 * u * r) by (rewrite <- RB, (Rmult_comm r bs), <- Rmult_minus_distr_r, Rabs_mult, (Rabs_pos_eq r) by lra; apply Rmult_le_compat_r; lra).
      pose proof (ln_near (b * r) ltac:(nra) ltac:(lra)). lra. }
    assert (LS : 0 <= - ln bs <= r - 1).
    { split; [assert (ln bs <= ln 1) by (apply ln_le; lra); rewrite ln_1 in H; lra|]. pose proof (ln_le_sub r ltac:(lra)) as L. unfold r in L at 1. rewrite ln_Rinv in L by lra. exact L. }
    set (y := g' * - ln b - - (ln bs / k)).
    assert (Y : Rabs y <= 72 * u * r).
    { assert (EY : y = (g' - / k) * - ln b + / k * (ln bs - ln b)) by (unfold y; field; lra). rewrite EY. set (i := / k) in *. apply Rabs_le_inv in G1, LQ. assert (0 <= - ln b <= r) by lra.
      assert (- (4 * u * i * r) <= (g' - i) * - ln b <= 4 * u * i * r) by nra. assert (- (i * (14 * u * r)) <= i * (ln bs - ln b) <= i * (14 * u * r)) by nra. assert (0 <= u * r) by nra. apply Rabs_le. nra. }
    assert (PE : exp (g' * - ln b) = ws * exp y) by (rewrite WS, <- exp_plus; f_equal; unfold y; ring).
    pose proof (exp_near y ltac:(lra)) as EY. assert (W0 : 0 < ws) by (rewrite WS; apply exp_pos). rewrite PE in EW. set (z := exp y) in *. assert (Z : Rabs (z - 1) <= 144 * u * r) by lra.
    apply Rabs_le_inv in EW, Z. assert (0 <= u * r) by nra. assert (z <= 2) by lra. assert (2 * u * (ws * z) <= 4 * (u * r) * ws) by nra. apply Rabs_le. nra.
  Qed.
End Weight.
