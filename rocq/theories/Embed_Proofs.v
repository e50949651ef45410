(** The hyperbolic threshold rule between two GIRG threshold rules. *)
From Coq Require Import Reals Lra Psatz ZArith List.
From Verif Require Import Base Hyp_Model Hyp_Math.
Import ListNotations.
Local Open Scope R_scope.

Lemma sin_jordan t : 0 <= t <= PI / 2 -> 2 * t / PI <= sin t.
Proof.
  intros Ht. pose proof PI_RGT_0 as P. destruct (Req_dec t 0) as [->|T0]; [rewrite sin_0; unfold Rdiv; rewrite Rmult_0_r, Rmult_0_l; lra|].
  destruct (Req_dec t (PI / 2)) as [->|T1]; [rewrite sin_PI2; right; field; lra|].
  set (f := fun x => sin x - 2 / PI * x). set (f' := fun x => cos x - 2 / PI).
  assert (D : forall x, derivable_pt_lim f x (f' x)).
  { intros x. unfold f, f'. apply (derivable_pt_lim_minus sin (fun y => 2 / PI * y)); [apply derivable_pt_lim_sin|].
    replace (2 / PI) with (2 / PI * 1) at 1 by ring. apply (derivable_pt_lim_scal id). apply derivable_pt_lim_id. }
  destruct (MVT_cor2 f f' 0 t ltac:(lra) ltac:(intros; apply D)) as (c1 & E1 & H1). destruct (MVT_cor2 f f' t (PI / 2) ltac:(lra) ltac:(intros; apply D)) as (c2 & E2 & H2).
  assert (F0 : f 0 = 0) by (unfold f; rewrite sin_0; ring). assert (F1 : f (PI / 2) = 0) by (unfold f; rewrite sin_PI2; field; lra). rewrite F0 in E1. rewrite F1 in E2.
  assert (C : cos c2 < cos c1) by (apply cos_decreasing_1; lra). assert (G : 0 <= f t). { apply Rnot_lt_le. intros N. unfold f' in *. assert (cos c1 - 2 / PI < 0) by nra. assert (0 < cos c2 - 2 / PI) by nra. lra. }
  unfold f in G. replace (2 * t / PI) with (2 / PI * t) by (field; lra). lra.
Qed.
Lemma exp_mono a b : a <= b -> exp a <= exp b.
Proof. intros [H| ->]; [left; now apply exp_increasing|lra]. Qed.
(** sinh quotients *)
Lemma sinh_ratio_upper a b : a <= b -> sinh a <= sinh b * exp (a - b).
Proof.
  intros H. unfold sinh. replace ((exp b - exp (- b)) / 2 * exp (a - b)) with ((exp b * exp (a - b) - exp (- b) * exp (a - b)) / 2) by field.
  rewrite <- !exp_plus. replace (b + (a - b)) with a by ring. pose proof (exp_mono (- b + (a - b)) (- a) ltac:(lra)). lra.
Qed.
Lemma sinh_ratio_lower a r : r <= 2 * a -> exp (a - r) * sinh r <= sinh a * (1 + exp (- r)).
Proof.
  intros H. unfold sinh. replace (exp (a - r) * ((exp r - exp (- r)) / 2)) with ((exp (a - r) * exp r - exp (a - r) * exp (- r)) / 2) by field.
  replace ((exp a - exp (- a)) / 2 * (1 + exp (- r))) with ((exp a + exp a * exp (- r) - exp (- a) - exp (- a) * exp (- r)) / 2) by field.
  rewrite <- !exp_plus. replace (a - r + r) with a by ring. replace (a + - r) with (a - r) by ring.
  pose proof (exp_mono (- a) (a - r) ltac:(lra)). pose proof (exp_mono (- a + - r) (a - r + - r) ltac:(lra)). lra.
Qed.
(** the condition "distance < R" in terms of the half angle *)
Lemma hc_half r1 r2 x : hc r1 r2 x = cosh (r1 - r2) + 2 * (sinh r1 * sinh r2) * (sin (x / 2) * sin (x / 2)).
Proof.
  unfold hc. rewrite cosh_minus. assert (E : cos x = 1 - 2 * (sin (x / 2) * sin (x / 2))). { replace x with (2 * (x / 2)) at 1 by field. rewrite cos_2a_sin. ring. } rewrite E. ring.
Qed.
Lemma cosh_diff Rd d : cosh Rd - cosh d = 2 * (sinh ((Rd + d) / 2) * sinh ((Rd - d) / 2)).
Proof.
  set (a := (Rd + d) / 2). set (b := (Rd - d) / 2). replace Rd with (a + b) by (unfold a, b; field). replace d with (a - b) by (unfold a, b; field). rewrite cosh_plus, cosh_minus. ring.
Qed.
Lemma edge_half Rd r1 r2 x : hc r1 r2 x < cosh Rd <-> sinh r1 * sinh r2 * (sin (x / 2) * sin (x / 2)) < sinh ((Rd + (r1 - r2)) / 2) * sinh ((Rd - (r1 - r2)) / 2).
Proof. rewrite hc_half. pose proof (cosh_diff Rd (r1 - r2)) as E. split; lra. Qed.
Definition pull (Rd r1 r2 : R) : R := exp ((Rd - r1 - r2) / 2).
(** an edge of the hyperbolic graph has an angle of less than pi * pull *)
Lemma edge_angle_upper Rd r1 r2 x : 0 < r1 <= Rd -> 0 < r2 <= Rd -> 0 <= x <= PI -> hc r1 r2 x < cosh Rd -> x < PI * pull Rd r1 r2.
Proof.
  intros H1 H2 Hx HE. pose proof PI_RGT_0 as P. set (y := pull Rd r1 r2). assert (Y0 : 0 < y) by apply exp_pos.
  destruct (Rlt_le_dec (r1 + r2) Rd) as [L|L].
  - assert (1 < y) by (unfold y, pull; rewrite <- exp_0 at 1; apply exp_increasing; lra). nra.
  - apply edge_half in HE. pose proof (sinh_pos r1 (proj1 H1)) as S1. pose proof (sinh_pos r2 (proj1 H2)) as S2. pose proof (sinh_nonneg ((Rd + (r1 - r2)) / 2) ltac:(lra)) as A0. pose proof (sinh_nonneg ((Rd - (r1 - r2)) / 2) ltac:(lra)) as B0.
    pose proof (sinh_ratio_upper ((Rd + (r1 - r2)) / 2) r1 ltac:(lra)) as U1. pose proof (sinh_ratio_upper ((Rd - (r1 - r2)) / 2) r2 ltac:(lra)) as U2.
    set (A := sinh ((Rd + (r1 - r2)) / 2)) in *. set (B := sinh ((Rd - (r1 - r2)) / 2)) in *.
    set (e1 := exp ((Rd + (r1 - r2)) / 2 - r1)) in *. set (e2 := exp ((Rd - (r1 - r2)) / 2 - r2)) in *.
    assert (E1 : e1 = y) by (unfold e1, y, pull; f_equal; field). assert (E2 : e2 = y) by (unfold e2, y, pull; f_equal; field). rewrite E1 in U1. rewrite E2 in U2. clearbody A B y. clear E1 E2 e1 e2.
    set (s := sin (x / 2)) in *. assert (S0 : 0 <= s) by (apply sin_ge_0; lra). pose proof (sin_jordan (x / 2) ltac:(lra)) as J. fold s in J. clearbody s.
    assert (SY : s < y).
    { apply Rnot_le_lt. intros C. assert (Q : sinh r1 * sinh r2 * (s * s) >= sinh r1 * sinh r2 * (y * y)). { apply Rle_ge. apply Rmult_le_compat_l; [left; now apply Rmult_lt_0_compat|]. apply Rmult_le_compat; lra. }
      assert (K : A * B <= sinh r1 * sinh r2 * (y * y)); [|lra]. replace (sinh r1 * sinh r2 * (y * y)) with ((sinh r1 * y) * (sinh r2 * y)) by ring.
      apply Rmult_le_compat; lra. }
    replace (2 * (x / 2) / PI) with (x / PI) in J by (field; lra). assert (x / PI < y) by lra. apply Rmult_lt_reg_r with (/ PI); [now apply Rinv_0_lt_compat|]. replace (PI * y * / PI) with y by (field; lra). exact H.
Qed.
(** an angle of less than sqrt(2 / (1 + e^-R)) * pull makes an edge *)
Lemma edge_angle_lower Rd r1 r2 x : 0 < r1 <= Rd -> 0 < r2 <= Rd -> 0 <= x <= PI -> x * sqrt (2 * (1 + exp (- Rd))) < 2 * pull Rd r1 r2 -> hc r1 r2 x < cosh Rd.
Proof.
  intros H1 H2 Hx HE. set (y := pull Rd r1 r2) in *. assert (Y0 : 0 < y) by apply exp_pos.
  destruct (Rlt_le_dec (r1 + r2) Rd) as [L|L].
  - apply Rle_lt_trans with (cosh (r1 + r2)); [apply hc_upper; lra|apply cosh_lt; lra].
  - apply edge_half. pose proof (sinh_pos r1 (proj1 H1)) as S1. pose proof (sinh_pos r2 (proj1 H2)) as S2.
    pose proof (sinh_ratio_lower ((Rd + (r1 - r2)) / 2) r1 ltac:(lra)) as U1. pose proof (sinh_ratio_lower ((Rd - (r1 - r2)) / 2) r2 ltac:(lra)) as U2.
    pose proof (sinh_nonneg ((Rd + (r1 - r2)) / 2) ltac:(lra)) as A0. pose proof (sinh_nonneg ((Rd - (r1 - r2)) / 2) ltac:(lra)) as B0.
    set (A := sinh ((Rd + (r1 - r2)) / 2)) in *. set (B := sinh ((Rd - (r1 - r2)) / 2)) in *.
    set (e1 := exp ((Rd + (r1 - r2)) / 2 - r1)) in *. set (e2 := exp ((Rd - (r1 - r2)) / 2 - r2)) in *.
    assert (E1 : e1 = y) by (unfold e1, y, pull; f_equal; field). assert (E2 : e2 = y) by (unfold e2, y, pull; f_equal; field). rewrite E1 in U1. rewrite E2 in U2. clearbody A B. clear E1 E2 e1 e2.
    pose proof (exp_pos (- r1)) as a0. pose proof (exp_pos (- r2)) as b0. pose proof (exp_pos (- Rd)) as c0.
    assert (a1 : exp (- r1) <= 1) by (rewrite <- exp_0; apply exp_mono; lra). assert (b1 : exp (- r2) <= 1) by (rewrite <- exp_0; apply exp_mono; lra).
    assert (ab : exp (- r1) * exp (- r2) <= exp (- Rd)) by (rewrite <- exp_plus; apply exp_mono; lra).
    set (a := exp (- r1)) in *. set (b := exp (- r2)) in *. set (c := exp (- Rd)) in *. assert (Q : (1 + a) * (1 + b) <= 2 * (1 + c)) by nra. set (q := 2 * (1 + c)) in *.
    assert (Sq : 0 < sqrt q) by (apply sqrt_lt_R0; unfold q; lra). assert (SS : sqrt q * sqrt q = q) by (apply sqrt_sqrt; unfold q; lra).
    set (s := sin (x / 2)). assert (S0 : 0 <= s) by (apply sin_ge_0; lra). assert (SX : s <= x / 2). { destruct (Req_dec x 0) as [->|N]; [unfold s; replace (0 / 2) with 0 by field; rewrite sin_0; lra|left; apply sin_lt_x; lra]. }
    assert (SY : s * sqrt q < y) by nra. assert (SY2 : s * s * q < y * y). { rewrite <- SS. replace (s * s * (sqrt q * sqrt q)) with ((s * sqrt q) * (s * sqrt q)) by ring. assert (0 <= s * sqrt q) by (apply Rmult_le_pos; lra). nra. }
    assert (M : (y * sinh r1) * (y * sinh r2) <= (A * (1 + a)) * (B * (1 + b))) by (apply Rmult_le_compat; try lra; apply Rmult_le_pos; lra).
    assert (AB : 0 <= A * B) by (apply Rmult_le_pos; lra). assert (SH : 0 < sinh r1 * sinh r2) by now apply Rmult_lt_0_compat.
    assert (M2 : A * (1 + a) * (B * (1 + b)) <= A * B * q). { replace (A * (1 + a) * (B * (1 + b))) with (A * B * ((1 + a) * (1 + b))) by ring. apply Rmult_le_compat_l; [exact AB|exact Q]. }
    assert (Q0 : 0 < q) by (unfold q; lra). apply Rmult_lt_reg_r with q; [exact Q0|]. apply Rlt_le_trans with (sinh r1 * sinh r2 * (y * y)); [|lra].
    replace (sinh r1 * sinh r2 * (s * s) * q) with (sinh r1 * sinh r2 * (s * s * q)) by ring. apply Rmult_lt_compat_l; assumption.
Qed.
