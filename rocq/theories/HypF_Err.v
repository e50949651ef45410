(** Error bounds of double arithmetic, relative to the exact value. *)
From Coq Require Import Arith NArith ZArith List Bool Reals Lia Lra Psatz.
From Flocq Require Import Core Relative.
From Verif Require Import Base Coord_Model Coord_Geo Girg_Num Ieee Hyp_Math.
Local Open Scope R_scope.

Local Notation u := u53.
Lemma u_small : 0 < u <= / 1000000000.
Proof.
  split; [apply u53_pos|]. apply Rle_trans with (b2 (-30)); [apply bpow_le; lia|]. change (b2 (-30)) with (/ 1073741824). apply Rinv_le_contravar; lra.
Qed.
(** half of the smallest positive double *)
Definition eta : R := b2 (-1075).
Lemma eta_small : 0 < eta <= u * u.
Proof. split; [apply bpow_gt_0|]. unfold u53, eta. rewrite <- bpow_plus. apply bpow_le. lia. Qed.
Lemma RN_err x : Rabs (RN x - x) <= u * Rabs x + eta.
Proof.
  destruct (error_N_FLT radix2 (-1074) 53 eq_refl (fun z => negb (Z.even z)) x) as (e1 & e2 & H1 & H2 & H3 & H4). fold fexp64 in H4. fold (RN x) in H4.
  rewrite H4. replace (x * (1 + e1) + e2 - x) with (x * e1 + e2) by ring. eapply Rle_trans; [apply Rabs_triang|]. rewrite Rabs_mult.
  assert (E1 : / 2 * bpow radix2 (- (53) + 1) = u). { unfold u53. change (/ 2) with (b2 (-1)). rewrite <- bpow_plus. reflexivity. }
  assert (E2 : / 2 * bpow radix2 (-1074) = eta). { unfold eta. change (/ 2) with (b2 (-1)). rewrite <- bpow_plus. reflexivity. }
  rewrite E1 in H1. rewrite E2 in H2. pose proof (Rabs_pos x). assert (Rabs x * Rabs e1 <= Rabs x * u) by (apply Rmult_le_compat_l; assumption). lra.
Qed.
Lemma RN_opp x : RN (- x) = - RN x.
Proof. unfold RN. apply round_NE_opp. Qed.

(** [y] is [x] up to a relative error [e] *)
Definition rel (e x y : R) : Prop := Rabs (y - x) <= e * Rabs x.
Lemma rel_le e e' x y : e <= e' -> rel e x y -> rel e' x y.
Proof. unfold rel. intros H H1. eapply Rle_trans; [exact H1|]. apply Rmult_le_compat_r; [apply Rabs_pos|exact H]. Qed.
Lemma rel_abs e x y : rel e x y -> Rabs y <= (1 + e) * Rabs x.
Proof. unfold rel. intros H. replace y with (x + (y - x)) by ring. eapply Rle_trans; [apply Rabs_triang|]. lra. Qed.
Lemma rel_mul e f x x' y y' : 0 <= e -> 0 <= f -> rel e x x' -> rel f y y' -> rel (e + f + e * f) (x * y) (x' * y').
Proof.
  unfold rel. intros He Hf H1 H2. replace (x' * y' - x * y) with ((x' - x) * y + x * (y' - y) + (x' - x) * (y' - y)) by ring.
  eapply Rle_trans; [apply Rabs_triang|]. eapply Rle_trans; [apply Rplus_le_compat_r, Rabs_triang|]. rewrite !Rabs_mult.
  pose proof (Rabs_pos x). pose proof (Rabs_pos y). pose proof (Rabs_pos (x' - x)). pose proof (Rabs_pos (y' - y)).
  assert (Rabs (x' - x) * Rabs y <= e * Rabs x * Rabs y) by (apply Rmult_le_compat_r; assumption).
  assert (Rabs x * Rabs (y' - y) <= Rabs x * (f * Rabs y)) by (apply Rmult_le_compat_l; assumption).
  assert (Rabs (x' - x) * Rabs (y' - y) <= (e * Rabs x) * (f * Rabs y)) by (apply Rmult_le_compat; assumption).
  lra.
Qed.
Lemma rel_pos e x y : e < 1 -> 0 < x -> rel e x y -> x * (1 - e) <= y <= x * (1 + e).
Proof. unfold rel. intros He Hx H. rewrite (Rabs_pos_eq x) in H by lra. apply Rabs_le_inv in H. lra. Qed.
Lemma rel_inv e x y : 0 <= e <= / 2 -> 0 < x -> rel e x y -> rel (2 * e) (/ x) (/ y).
Proof.
  intros He Hx H. pose proof (rel_pos e x y ltac:(lra) Hx H) as HP. assert (Hy : 0 < y) by nra. unfold rel in *. rewrite (Rabs_pos_eq x) in H by lra.
  rewrite (Rabs_pos_eq (/ x)) by (left; now apply Rinv_0_lt_compat).
  replace (/ y - / x) with (- (y - x) * / (x * y)) by (field; lra). rewrite Rabs_mult, Rabs_Ropp, (Rabs_pos_eq (/ (x * y))) by (left; apply Rinv_0_lt_compat; nra).
  apply Rmult_le_reg_r with (x * y); [nra|]. rewrite Rmult_assoc, Rinv_l by nra. replace (2 * e * / x * (x * y)) with (2 * e * y) by (field; lra). nra.
Qed.
Lemma rel_RN e x y : 0 <= e <= / 2 -> b2 (-1000) <= x -> rel e x y -> rel (e + 2 * u) x (RN y).
Proof.
  intros He Hx H. assert (B0 : 0 < b2 (-1000)) by apply bpow_gt_0. assert (Px : 0 < x) by lra.
  pose proof (rel_pos e x y ltac:(lra) Px H) as HP. pose proof u_small as U.
  assert (Hy : b2 (-1022) <= y). { apply Rle_trans with (b2 (-1000) * / 2); [|nra]. change (/ 2) with (b2 (-1)). rewrite <- bpow_plus. apply bpow_le. lia. }
  pose proof (RN_rel y Hy) as E. unfold rel in *. rewrite (Rabs_pos_eq x) in * by lra. apply Rabs_le_inv in H.
  assert (y <= 2 * x) by nra. apply Rabs_le. nra.
Qed.
Lemma rel_div e f x x' y y' : 0 <= e <= / 4 -> 0 <= f <= / 4 -> 0 < y -> rel e x x' -> rel f y y' -> rel (e + 2 * f + 2 * e * f) (x / y) (x' / y').
Proof.
  intros He Hf Hy H1 H2. unfold Rdiv. replace (e + 2 * f + 2 * e * f) with (e + 2 * f + e * (2 * f)) by ring. apply rel_mul; try lra; [exact H1|]. apply rel_inv; try lra; assumption.
Qed.

(** cos is 1-Lipschitz *)
Lemma cos_lip a b : Rabs (cos a - cos b) <= Rabs (a - b).
Proof.
  assert (S : forall x, Rabs (sin x) <= Rabs x).
  { assert (P : forall x, 0 <= x -> Rabs (sin x) <= x).
    { intros x Hx. destruct (Rle_lt_dec x 1) as [H1|H1].
      - pose proof PI_RGT_0. pose proof PI2_3_2. rewrite Rabs_pos_eq; [|apply sin_ge_0; lra]. destruct (Req_dec x 0) as [->|]; [rewrite sin_0; lra|]. left. apply sin_lt_x. lra.
      - apply Rle_trans with 1; [|lra]. apply Rabs_le. pose proof (SIN_bound x). lra. }
    intros x. destruct (Rle_lt_dec 0 x) as [H|H]; [rewrite (Rabs_pos_eq x H); now apply P|].
    rewrite (Rabs_left x H). replace (sin x) with (- sin (- x)) by (rewrite sin_neg; ring). rewrite Rabs_Ropp. apply P. lra. }
  rewrite form2. rewrite !Rabs_mult. replace (Rabs (-2)) with 2 by (rewrite Rabs_left; lra).
  pose proof (S ((a - b) / 2)) as S1. assert (S2 : Rabs (sin ((a + b) / 2)) <= 1) by (apply Rabs_le; pose proof (SIN_bound ((a + b) / 2)); lra).
  assert (E : Rabs ((a - b) / 2) = Rabs (a - b) / 2). { unfold Rdiv. rewrite Rabs_mult, (Rabs_pos_eq (/ 2)) by lra. reflexivity. } rewrite E in S1.
  pose proof (Rabs_pos (sin ((a - b) / 2))). pose proof (Rabs_pos (sin ((a + b) / 2))). nra.
Qed.
(** a double minus an integer is a double if it is not larger *)
Lemma double_minus x z : is_double x -> 0 <= x <= b2 52 -> Rabs (x - IZR z) <= x -> is_double (x - IZR z).
Proof.
  intros Hx Hr Hz. apply FLT_format_generic in Hx; [|reflexivity]. destruct Hx as [[m e] E Hm He]. cbn [Fnum Fexp] in *. unfold F2R in E. cbn [Fnum Fexp] in E.
  destruct (Z.le_gt_cases e 0) as [L|L].
  - assert (EZ : IZR z = IZR (z * 2 ^ (- e)) * b2 e).
    { rewrite mult_IZR, (IZR_Zpower radix2) by lia. rewrite Rmult_assoc, <- bpow_plus. replace (- e + e)%Z with 0%Z by lia. cbn. ring. }
    assert (ED : x - IZR z = IZR (m - z * 2 ^ (- e)) * b2 e) by (rewrite minus_IZR, E, EZ; ring).
    rewrite ED. apply FLT_double; [|exact He]. apply lt_IZR. apply IZR_lt in Hm. rewrite abs_IZR in *. apply Rle_lt_trans with (Rabs (IZR m)); [|exact Hm].
    pose proof (bpow_gt_0 radix2 e) as P. apply Rmult_le_reg_r with (b2 e); [exact P|].
    assert (A1 : Rabs (IZR (m - z * 2 ^ (- e))) * b2 e = Rabs (x - IZR z)) by (rewrite ED, Rabs_mult, (Rabs_pos_eq (b2 e)) by lra; reflexivity).
    assert (A2 : Rabs (IZR m) * b2 e = Rabs x) by (rewrite E, Rabs_mult, (Rabs_pos_eq (b2 e)) by lra; reflexivity).
    rewrite A1, A2, (Rabs_pos_eq x) by lra. exact Hz.
  - assert (EZ : x - IZR z = IZR (m * 2 ^ e - z) * b2 0). { rewrite minus_IZR, mult_IZR, (IZR_Zpower radix2) by lia. rewrite E. cbn. ring. }
    rewrite EZ. apply FLT_double; [|lia]. apply lt_IZR. rewrite abs_IZR.
    assert (A1 : Rabs (IZR (m * 2 ^ e - z)) = Rabs (x - IZR z)) by (rewrite EZ; cbn; f_equal; ring).
    rewrite A1. apply Rle_lt_trans with (b2 52); [lra|]. change (IZR (2 ^ 53)) with (b2 53). apply bpow_lt. lia.
Qed.
(** doubles are closed under division by 2 far from underflow *)
Lemma double_half x : is_double x -> b2 (-1000) <= x -> is_double (x / 2).
Proof.
  intros Hx Hr. pose proof Hx as Hx'. apply FLT_format_generic in Hx'; [|reflexivity]. destruct Hx' as [[m e] E Hm He]. cbn [Fnum Fexp] in *. unfold F2R in E. cbn [Fnum Fexp] in E.
  assert (HE : x / 2 = IZR m * b2 (e - 1)). { rewrite E. unfold Zminus. rewrite bpow_plus. change (bpow radix2 (- (1))) with (/ 2). field. }
  destruct (Z.eq_dec e (-1074)) as [->|Hne]; [|rewrite HE; apply FLT_double; [exact Hm|lia]].
  exfalso. apply Rle_not_lt in Hr. apply Hr. rewrite E. apply Rle_lt_trans with (Rabs (IZR m) * b2 (-1074)).
  - apply Rmult_le_compat_r; [apply bpow_ge_0|apply Rle_abs].
  - apply Rlt_le_trans with (b2 53 * b2 (-1074)); [apply Rmult_lt_compat_r; [apply bpow_gt_0|]|rewrite <- bpow_plus; apply bpow_le; lia].
    rewrite <- abs_IZR. change (b2 53) with (IZR (2 ^ 53)). apply IZR_lt. exact Hm.
Qed.
