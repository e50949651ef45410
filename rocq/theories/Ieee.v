(** IEEE-754 binary64 arithmetic, round to nearest even (Flocq's FLT format; overflow does not occur in the ranges considered), as an instance of the
    arithmetic environment of the model. *)
From Coq Require Import Arith NArith ZArith List Bool Reals Lia Lra Psatz.
From Flocq Require Import Core Relative.
From Verif Require Import Base Sched Bits_Model Bits_Proofs Coord_Model Coord_Proofs Coord_Geo Tree_Model Tree_Proofs Tree_Build Tree_Plan Girg_Num.
Import ListNotations.
Local Open Scope R_scope.

Definition fexp64 := FLT_exp (-1074) 53.
Definition RN (x : R) : R := round radix2 fexp64 ZnearestE x.
(** the numbers that are doubles *)
Definition is_double (x : R) : Prop := generic_format radix2 fexp64 x.
(** std::log2 and std::pow are not specified exactly; of log2 only monotonicity and exactness at powers of two are used *)
Record good_log2 (f : R -> R) : Prop := {
  gl_mono : forall x y, 0 < x <= y -> f x <= f y;
  gl_pow2 : forall z, (-1074 <= z <= 1023)%Z -> f (b2 z) = IZR z }.
Definition double_env (f : R -> R) (pw : R -> R -> R) : fenv := {| rnd := RN; flog2 := f; fpow := pw |}.

Global Instance prec_53 : Prec_gt_0 53. Proof. reflexivity. Qed.
Global Instance valid64 : Valid_exp fexp64. Proof. apply FLT_exp_valid. reflexivity. Qed.
Lemma RN_le x y : x <= y -> RN x <= RN y.
Proof. apply round_le; typeclasses eauto. Qed.
Lemma RN_id x : is_double x -> RN x = x.
Proof. apply round_generic. typeclasses eauto. Qed.
Lemma RN_double x : is_double (RN x).
Proof. apply generic_format_round; typeclasses eauto. Qed.
Lemma double_iff x : RN x = x <-> is_double x.
Proof. split; [intros <-; apply RN_double|apply RN_id]. Qed.
Lemma FLT_double m e : (Z.abs m < 2 ^ 53)%Z -> (-1074 <= e)%Z -> is_double (IZR m * b2 e).
Proof. intros Hm He. apply generic_format_FLT. exists (Float radix2 m e); [reflexivity|exact Hm|exact He]. Qed.
Lemma b2_double z : (-1074 <= z)%Z -> is_double (b2 z).
Proof. intros H. apply generic_format_bpow. unfold fexp64, FLT_exp. lia. Qed.
Lemma double_scale x l : is_double x -> is_double (x * b2 (Z.of_N l)).
Proof.
  intros H. apply FLT_format_generic in H; [|reflexivity]. destruct H as [[m e] -> Hm He]. cbn [Fnum Fexp] in *. unfold F2R. cbn [Fnum Fexp].
  rewrite Rmult_assoc, <- bpow_plus. apply FLT_double; [exact Hm|lia].
Qed.
Lemma double_good f pw : good_rnd (double_env f pw).
Proof.
  constructor; cbn [rnd double_env].
  - exact RN_le.
  - intros x. apply RN_id, RN_double.
  - intros x. apply round_NE_opp.
  - intros m l Hm Hl. apply RN_id. rewrite pow2R_b2. unfold Rdiv. rewrite <- bpow_opp.
    destruct (Z.eq_dec (Z.abs m) (2 ^ 53)) as [E|E]; [|apply FLT_double; lia].
    assert (Hc : (m = 2 * (m / 2) /\ Z.abs (m / 2) = 2 ^ 52)%Z).
    { change (2 ^ 53)%Z with 9007199254740992%Z in *. change (2 ^ 52)%Z with 4503599627370496%Z. assert (Hm2 : (m = 9007199254740992 \/ m = -9007199254740992)%Z) by lia.
      destruct Hm2 as [-> | ->]; split; reflexivity. }
    destruct Hc as [Hc1 Hc2].
    rewrite Hc1, mult_IZR. replace (2 * IZR (m / 2) * b2 (- Z.of_N l)) with (IZR (m / 2) * b2 (- Z.of_N l + 1)).
    + apply FLT_double; lia.
    + rewrite bpow_plus. change (b2 1) with 2. ring.
  - intros x l Hx. rewrite pow2R_b2. apply RN_id, double_scale, double_iff. exact Hx.
Qed.

(** ** relative errors, u = 2^-53 *)
Definition u53 : R := b2 (-53).
Lemma u53_pos : 0 < u53. Proof. apply bpow_gt_0. Qed.
Lemma RN_rel x : b2 (-1022) <= x -> x * (1 - u53) <= RN x <= x * (1 + u53).
Proof.
  intros Hx. assert (Px : 0 < x) by (pose proof (bpow_gt_0 radix2 (-1022)); lra).
  pose proof (relative_error_N_FLT radix2 (-1074) 53 eq_refl (fun z => negb (Z.even z)) x) as H.
  rewrite !(Rabs_pos_eq x) in H by lra. specialize (H Hx). change (round radix2 (FLT_exp (-1074) 53) ZnearestE x) with (RN x) in H.
  assert (Eu : / 2 * b2 (- (53) + 1) = u53). { unfold u53. change (-(53) + 1)%Z with (-53 + 1)%Z. rewrite bpow_plus. change (b2 1) with 2. lra. }
  rewrite Eu in H. apply Rabs_le_inv in H. lra.
Qed.
Lemma double_gap x y : is_double x -> is_double y -> 0 <= x < y -> x * (1 + u53) < y \/ x = 0.
Proof.
  intros Hx Hy [H0 H]. destruct H0 as [H0|H0]; [left|now right].
  pose proof (succ_le_lt radix2 fexp64 x y Hx Hy H) as S. rewrite succ_eq_pos in S by lra.
  pose proof (ulp_FLT_gt radix2 (-1074) 53 x) as U. rewrite Rabs_right in U by lra. fold fexp64 in U. change (b2 (- (53))) with u53 in U. lra.
Qed.
(** comparison with a double survives rounding *)
Lemma RN_lt_double x y : is_double y -> RN x < y -> x < y.
Proof. intros Hy H. apply Rnot_le_lt. intros C. apply RN_le in C. rewrite (RN_id y Hy) in C. lra. Qed.

(** ** the sum of the weights *)
Lemma sum_ge f pw ws : (forall w, In w ws -> 0 < w /\ is_double w) -> ws <> [] -> forall w0, (forall w, In w ws -> w0 <= w) -> w0 <= sum_elems (double_env f pw) ws.
Proof.
  intros Hd Hne w0 Hm. unfold sum_elems. cbn [rnd double_env].
  assert (G : forall l s, (forall w, In w l -> 0 < w /\ is_double w) -> 0 <= s -> (w0 <= s \/ l <> []) -> (forall w, In w l -> w0 <= w) -> w0 <= fold_left (fun s w => RN (s + w)) l s).
  { induction l as [|w l IH]; intros s Hl Hs Ho Hw; cbn [fold_left]; [destruct Ho; [assumption|congruence]|].
    destruct (Hl w (or_introl eq_refl)) as [W1 W2]. assert (W3 : w <= RN (s + w)). { rewrite <- (RN_id w W2) at 1. apply RN_le. lra. }
    pose proof (Hw w (or_introl eq_refl)). apply IH; [intros; apply Hl; now right|lra|left; lra|intros; apply Hw; now right]. }
  apply G; auto. lra.
Qed.

(** ** the parameters of the tree *)
Record double_weights (f : R -> R) (pw : R -> R -> R) (ws : list R) : Prop := {
  dw_ne : ws <> [];
  dw_double : forall w, In w ws -> is_double w /\ b2 (-400) <= w <= b2 400;
  dw_bits : forall w0, In w0 ws -> (forall w, In w ws -> w0 <= w) ->
    let q := RN (RN (sum_elems (double_env f pw) ws / w0) / w0) in q < b2 31 /\ forall z, (1 <= z)%Z -> IZR z <= f q -> b2 z <= q }.

Lemma trunc_bounds x a b : IZR a <= x -> x <= IZR b -> (a <= Ztrunc x <= b)%Z.
Proof. intros H1 H2. split; [rewrite <- (Ztrunc_IZR a)|rewrite <- (Ztrunc_IZR b)]; now apply Ztrunc_le. Qed.
Lemma trunc_lt x z : 0 <= x -> Ztrunc x = z -> x < IZR (z + 1).
Proof. intros H <-. rewrite Ztrunc_floor by exact H. rewrite plus_IZR. apply Zfloor_ub. Qed.

Theorem double_num_ok f pw D ws : good_log2 f -> dim_ok D -> double_weights f pw ws -> exists P, num_ok (double_env f pw) D ws P /\ far_ok (double_env f pw) ws P /\ p_W P = sum_elems (double_env f pw) ws.
Proof.
  intros GL HD HW. pose proof (dw_ne _ _ _ HW) as Hne.
  destruct (min_elem_spec ws Hne) as (w0 & E0 & I0 & M0). destruct (max_elem_spec ws Hne) as (wn & En & In' & Mn).
  assert (B4 : 0 < b2 (-400)) by apply bpow_gt_0.
  assert (Hpos : forall w, In w ws -> 0 < w) by (intros w Hw; destruct (dw_double _ _ _ HW w Hw); lra).
  pose proof (Hpos w0 I0) as P0. destruct (dw_double _ _ _ HW w0 I0) as [D0 R0].
  set (E := double_env f pw). set (W := sum_elems E ws).
  assert (HW0 : w0 <= W). { apply sum_ge; auto. intros w Hw. split; [now apply Hpos|apply (dw_double _ _ _ HW w Hw)]. }
  assert (PW : 0 < W) by lra. set (q := RN (RN (W / w0) / w0)).
  assert (A1 : 1 <= W / w0). { apply Rmult_le_reg_r with w0; [exact P0|]. replace (W / w0 * w0) with W by (field; lra). lra. }
  assert (A1' : 1 <= RN (W / w0)). { rewrite <- (RN_id 1); [now apply RN_le|]. apply (b2_double 0). lia. }
  assert (A2 : b2 (-400) <= RN (W / w0) / w0).
  { apply Rle_trans with (1 / w0).
    - apply Rmult_le_reg_r with w0; [exact P0|]. replace (1 / w0 * w0) with 1 by (field; lra).
      apply Rle_trans with (b2 (-400) * b2 400); [apply Rmult_le_compat_l; lra|]. rewrite <- bpow_plus. change (b2 (-400 + 400)) with 1. lra.
    - unfold Rdiv. apply Rmult_le_compat_r; [left; now apply Rinv_0_lt_compat|exact A1']. }
  assert (Q1 : b2 (-400) <= q). { rewrite <- (RN_id (b2 (-400))) by (apply b2_double; lia). now apply RN_le. }
  assert (Pq : 0 < q) by lra. destruct (dw_bits _ _ _ HW w0 I0 M0) as [Q2 Q3]. fold E W in Q2, Q3. fold q in Q2, Q3.
  assert (L1 : IZR (-400) <= f q). { rewrite <- (gl_pow2 f GL (-400)) by lia. apply (gl_mono f GL). lra. }
  assert (L2 : f q <= IZR 31). { rewrite <- (gl_pow2 f GL 31) by lia. apply (gl_mono f GL). lra. }
  set (c := Ztrunc (f q)). pose proof (trunc_bounds (f q) (-400) 31 L1 L2) as Hcb. fold c in Hcb.
  assert (Hcq : (1 <= c)%Z -> b2 c <= q).
  { intros Hc. apply Q3; [exact Hc|]. unfold c in *. destruct (Rle_dec 0 (f q)) as [H|H].
    - rewrite Ztrunc_floor by exact H. apply Zfloor_lb.
    - exfalso. assert (Ztrunc (f q) <= 0)%Z; [|lia]. rewrite <- (Ztrunc_IZR 0). apply Ztrunc_le. cbn. lra. }
  assert (Hc30 : (c <= 30)%Z). { destruct (Z.le_gt_cases c 30) as [H|H]; [exact H|exfalso]. specialize (Hcq ltac:(lia)). pose proof (bpow_le radix2 31 c ltac:(lia)). lra. }
  (* layers *)
  assert (Hrat : forall w, In w ws -> 1 <= RN (w / w0) <= b2 800 /\ RN (w / w0) <= RN (wn / w0)).
  { intros w Hw. pose proof (Hpos w Hw) as Pw. destruct (dw_double _ _ _ HW w Hw) as [_ Rw]. repeat split.
    - rewrite <- (RN_id 1) by (apply (b2_double 0); lia). apply RN_le. apply Rmult_le_reg_r with w0; [exact P0|]. replace (w / w0 * w0) with w by (field; lra). rewrite Rmult_1_l. now apply M0.
    - rewrite <- (RN_id (b2 800)) by (apply b2_double; lia). apply RN_le. apply Rmult_le_reg_r with w0; [exact P0|]. replace (w / w0 * w0) with w by (field; lra).
      apply Rle_trans with (b2 800 * b2 (-400)); [|apply Rmult_le_compat_l; [apply bpow_ge_0|lra]]. rewrite <- bpow_plus. change (800 + -400)%Z with 400%Z. lra.
    - apply RN_le. unfold Rdiv. apply Rmult_le_compat_r; [left; now apply Rinv_0_lt_compat|now apply Mn]. }
  assert (Hlog : forall w, In w ws -> 0 <= f (RN (w / w0)) <= IZR 800 /\ f (RN (w / w0)) <= f (RN (wn / w0))).
  { intros w Hw. destruct (Hrat w Hw) as [[H1 H2] H3]. repeat split.
    - change 0 with (IZR 0). rewrite <- (gl_pow2 f GL 0) by lia. apply (gl_mono f GL). change (b2 0) with 1. lra.
    - rewrite <- (gl_pow2 f GL 800) by lia. apply (gl_mono f GL). lra.
    - apply (gl_mono f GL). lra. }
  set (m := Zfloor (f (RN (wn / w0)))).
  assert (Hm : (0 <= m <= 800)%Z).
  { destruct (Hlog wn In') as [[H1 H2] _]. split; [apply Zfloor_lub; exact H1|]. apply le_IZR. pose proof (Zfloor_lb (f (RN (wn / w0)))). unfold m. lra. }
  exists {| p_w0 := w0; p_wn := wn; p_W := W; p_c := c; p_layers := N.to_nat (Z.to_N m + 1); p_levels := base_level D c 0 0 + 1 |}.
  assert (Hli : forall w, In w ws -> layer_index E w0 w = Some (Z.to_nat (Zfloor (f (RN (w / w0)))))).
  { intros w Hw. destruct (Hlog w Hw) as [[H1 H2] _]. unfold layer_index, weight_to_layer. cbn [flog2 rnd double_env E].
    unfold double_to_int. rewrite Ztrunc_floor by exact H1. assert (0 <= Zfloor (f (RN (w / w0))))%Z by (apply Zfloor_lub; exact H1).
    assert (Zfloor (f (RN (w / w0))) <= 800)%Z. { apply le_IZR. pose proof (Zfloor_lb (f (RN (w / w0)))). lra. }
    destruct ((- 2 ^ 31 <=? _) && _)%Z eqn:Eb; [|exfalso; apply andb_false_iff in Eb as [Eb|Eb]; [apply Z.leb_gt in Eb|apply Z.ltb_ge in Eb]; lia].
    cbn [obind]. destruct (Z.ltb_spec (Zfloor (f (RN (w / w0)))) 0); [lia|reflexivity]. }
  split; [constructor; cbn [p_c p_layers p_w0 p_W]|split; [|reflexivity]; unfold far_ok; cbn [p_c p_layers p_w0 p_W]].
  - unfold tree_params. rewrite E0. cbn [obind]. rewrite En. cbn [obind]. fold E. fold W. cbn [flog2 rnd double_env E]. fold q.
    unfold double_to_int at 1. fold c.
    destruct ((- 2 ^ 31 <=? c) && (c <? 2 ^ 31))%Z eqn:Eb; [|exfalso; apply andb_false_iff in Eb as [Eb|Eb]; [apply Z.leb_gt in Eb|apply Z.ltb_ge in Eb]; lia].
    cbn [obind]. fold m. unfold double_to_u32. rewrite Ztrunc_IZR.
    destruct ((0 <=? m) && (m <? 2 ^ 32))%Z eqn:Em; [|exfalso; apply andb_false_iff in Em as [Em|Em]; [apply Z.leb_gt in Em|apply Z.ltb_ge in Em]; lia].
    cbn [obind]. rewrite w32_small by (change (2 ^ 32)%N with 4294967296%N; lia). reflexivity.
  - exact Hc30.
  - lia.
  - intros w Hw. eexists. split; [apply Hli; exact Hw|]. destruct (Hlog w Hw) as [[H1 _] H2].
    assert (Zfloor (f (RN (w / w0))) <= m)%Z by (now apply Zfloor_le). assert (0 <= Zfloor (f (RN (w / w0))))%Z by (apply Zfloor_lub; exact H1). lia.
  - intros w w' i j k Hw Hw' Hi Hj Hijk. rewrite Hli in Hi, Hj by assumption. injection Hi as <-. injection Hj as <-.
    set (zi := Zfloor (f (RN (w / w0)))) in *. set (zj := Zfloor (f (RN (w' / w0)))) in *.
    pose proof u53_pos as U0.
    assert (Hz : forall x, In x ws -> (0 <= Zfloor (f (RN (x / w0))) <= 800)%Z /\ x * (1 + u53) <= b2 (Zfloor (f (RN (x / w0))) + 1) * w0).
    { intros x Hx. destruct (Hlog x Hx) as [[H1 H1'] _]. set (z := Zfloor (f (RN (x / w0)))).
      assert (Zz : (0 <= z <= 800)%Z). { split; [apply Zfloor_lub; exact H1|]. apply le_IZR. pose proof (Zfloor_lb (f (RN (x / w0)))). unfold z. lra. }
      split; [exact Zz|]. assert (Hlt : RN (x / w0) < b2 (z + 1)).
      { apply Rnot_le_lt. intros C. assert (IZR (z + 1) <= f (RN (x / w0))). { rewrite <- (gl_pow2 f GL (z + 1)) by lia. apply (gl_mono f GL). split; [apply bpow_gt_0|exact C]. }
        pose proof (Zfloor_ub (f (RN (x / w0)))) as F. fold z in F. rewrite plus_IZR in H. lra. }
      apply RN_lt_double in Hlt; [|apply b2_double; lia].
      assert (Hx' : x < b2 (z + 1) * w0). { apply Rmult_lt_reg_r with (/ w0); [now apply Rinv_0_lt_compat|]. replace (b2 (z + 1) * w0 * / w0) with (b2 (z + 1)) by (field; lra). exact Hlt. }
      destruct (double_gap x (b2 (z + 1) * w0)) as [G|G]; [apply (dw_double _ _ _ HW x Hx)| | |lra|rewrite G; specialize (Hpos x Hx); lra].
      - rewrite Rmult_comm. replace (z + 1)%Z with (Z.of_N (Z.to_N (z + 1))) by lia. now apply double_scale.
      - specialize (Hpos x Hx). lra. }
    destruct (Hz w Hw) as [Zi Bi]. destruct (Hz w' Hw') as [Zj Bj]. fold zi in Zi, Bi. fold zj in Zj, Bj.
    rewrite !Z2Nat.id in Hijk by lia. pose proof (Hpos w Hw) as Pw. pose proof (Hpos w' Hw') as Pw'. specialize (Hcq ltac:(lia)).
    (* W is large *)
    set (Y := b2 c * w0).
    assert (DY : is_double Y). { unfold Y. rewrite Rmult_comm. replace c with (Z.of_N (Z.to_N c)) by lia. now apply double_scale. }
    assert (PY : 0 < Y). { apply Rmult_lt_0_compat; [apply bpow_gt_0|exact P0]. }
    assert (Hsmall : b2 (-1022) <= b2 (-400)) by (apply bpow_le; lia).
    assert (S1 : Y <= RN (W / w0) * (1 + u53)).
    { pose proof (RN_rel (RN (W / w0) / w0) ltac:(lra)) as [_ H]. fold q in H.
      assert (H1 : b2 c <= RN (W / w0) / w0 * (1 + u53)) by lra. unfold Y. apply Rmult_le_reg_r with (/ w0); [now apply Rinv_0_lt_compat|].
      replace (b2 c * w0 * / w0) with (b2 c) by (field; lra). unfold Rdiv in H1 at 1. lra. }
    assert (S2 : Y <= RN (W / w0)).
    { destruct (Rle_dec Y (RN (W / w0))) as [H|H]; [exact H|exfalso]. apply Rnot_le_lt in H.
      destruct (double_gap (RN (W / w0)) Y (RN_double _) DY ltac:(lra)) as [G|G]; lra. }
    assert (S3 : b2 c * (w0 * w0) <= W * (1 + u53)).
    { assert (H1022 : b2 (-1022) <= 1) by (apply (bpow_le radix2 (-1022) 0); lia). pose proof (RN_rel (W / w0) ltac:(lra)) as [_ H]. assert (H2 : Y <= W / w0 * (1 + u53)) by lra. apply (Rmult_le_compat_r w0) in H2; [|lra].
      unfold Y in H2. replace (W / w0 * (1 + u53) * w0) with (W * (1 + u53)) in H2 by (field; lra). lra. }
    (* the product of the weights is small *)
    assert (HP0 : b2 (-1022) <= w * w').
    { apply Rle_trans with (b2 (-400) * b2 (-400)); [rewrite <- bpow_plus; apply bpow_le; lia|]. destruct (dw_double _ _ _ HW w Hw), (dw_double _ _ _ HW w' Hw'). apply Rmult_le_compat; lra. }
    pose proof (RN_rel (w * w') HP0) as [_ HR].
    assert (HS : w * w' * ((1 + u53) * (1 + u53)) <= b2 (c - Z.of_N k) * (w0 * w0)).
    { apply Rle_trans with (b2 (zi + 1) * w0 * (b2 (zj + 1) * w0)).
      - replace (w * w' * ((1 + u53) * (1 + u53))) with (w * (1 + u53) * (w' * (1 + u53))) by ring. apply Rmult_le_compat; try assumption; apply Rmult_le_pos; lra.
      - replace (b2 (zi + 1) * w0 * (b2 (zj + 1) * w0)) with (b2 (zi + 1) * b2 (zj + 1) * (w0 * w0)) by ring. rewrite <- bpow_plus.
        apply Rmult_le_compat_r; [apply Rmult_le_pos; lra|]. apply bpow_le. lia. }
    assert (Hk : (0 <= Z.of_N k <= 30)%Z) by lia.
    cbn [rnd double_env E]. rewrite pow2R_b2. unfold Rdiv at 2. rewrite Rmult_1_l, <- bpow_opp. rewrite <- (RN_id (b2 (- Z.of_N k))) by (apply b2_double; lia). apply RN_le.
    apply Rmult_le_reg_r with (W * (1 + u53)); [apply Rmult_lt_0_compat; lra|].
    replace (RN (w * w') / W * (W * (1 + u53))) with (RN (w * w') * (1 + u53)) by (field; lra).
    apply Rle_trans with (w * w' * ((1 + u53) * (1 + u53))).
    + rewrite <- Rmult_assoc. apply Rmult_le_compat_r; [lra|exact HR].
    + eapply Rle_trans; [exact HS|]. unfold Zminus. rewrite bpow_plus, (Rmult_comm (b2 c)), Rmult_assoc. apply Rmult_le_compat_l; [apply bpow_ge_0|exact S3].
Qed.

Theorem double_fpl_ok f pw D T : good_log2 f -> dim_ok D -> (1 <= T <= N.to_nat (2 ^ 17))%nat -> fpl_ok D (double_env f pw) T.
Proof.
  intros GL HD HT. unfold fpl_ok. destruct (Nat.eq_dec T 1) as [->|Hne]; [now left|]. right.
  assert (HTN : (2 <= N.of_nat T <= 2 ^ 17)%N) by lia. change (2 ^ 17)%N with 131072%N in HTN.
  unfold first_parallel_level. cbn [rnd flog2 double_env].
  assert (HI : 2 <= INR T <= 131072). { rewrite INR_IZR_INZ. split; apply IZR_le; lia. }
  assert (L1 : IZR 3 <= f (4 * INR T)). { rewrite <- (gl_pow2 f GL 3) by lia. apply (gl_mono f GL). change (b2 3) with 8. lra. }
  assert (L2 : f (4 * INR T) <= IZR 19). { rewrite <- (gl_pow2 f GL 19) by lia. apply (gl_mono f GL). change (b2 19) with 524288. lra. }
  set (y := f (4 * INR T)) in *.
  assert (HB : exists k, (1 <= k)%Z /\ (Z.of_N D * k < 32)%Z /\ y / IZR (Z.of_N D) <= IZR k /\ (k < 2 ^ 20)%Z).
  { unfold dim_ok in HD. assert (HDc : (D = 1 \/ D = 2 \/ D = 3 \/ D = 4 \/ D = 5)%N) by lia.
    destruct HDc as [-> | [-> | [-> | [-> | ->]]]]; cbn [Z.of_N]; [exists 19%Z|exists 10%Z|exists 7%Z|exists 5%Z|exists 4%Z]; repeat split; try lia; lra. }
  destruct HB as (k & K1 & K2 & K3 & K4).
  assert (HDr : 1 <= IZR (Z.of_N D) <= 5). { unfold dim_ok in HD. split; apply IZR_le; lia. }
  assert (Y0 : b2 (-1) <= y / IZR (Z.of_N D)).
  { change (b2 (-1)) with (/ 2). apply Rmult_le_reg_r with (IZR (Z.of_N D)); [lra|]. replace (y / IZR (Z.of_N D) * IZR (Z.of_N D)) with y by (field; lra). lra. }
  set (x := RN (y / IZR (Z.of_N D))).
  assert (X0 : 0 < x). { apply Rlt_le_trans with (b2 (-1)); [apply bpow_gt_0|]. rewrite <- (RN_id (b2 (-1))) by (apply b2_double; lia). now apply RN_le. }
  assert (X1 : x <= IZR k). { rewrite <- (RN_id (IZR k)); [now apply RN_le|]. replace (IZR k) with (IZR k * b2 0) by (change (b2 0) with 1; ring). apply FLT_double; lia. }
  assert (Z1 : (0 < Zceil x)%Z). { apply lt_IZR. pose proof (Zceil_ub x). lra. }
  assert (Z2 : (Zceil x <= k)%Z) by (now apply Zceil_glb).
  exists (Z.to_N (Zceil x)). split; [|nia]. unfold double_to_u32. rewrite Ztrunc_IZR.
  destruct ((0 <=? Zceil x) && (Zceil x <? 2 ^ 32))%Z eqn:Eb; [reflexivity|].
  exfalso. apply andb_false_iff in Eb as [Eb|Eb]; [apply Z.leb_gt in Eb|apply Z.ltb_ge in Eb]; lia.
Qed.

(** ** error bounds *)
Lemma RN_abs x : Rabs x <= 1 -> Rabs (RN x - x) <= b2 (-53).
Proof.
  intros H. pose proof (error_le_half_ulp radix2 fexp64 (fun z => negb (Z.even z)) x) as E. fold (RN x) in E.
  assert (U : ulp radix2 fexp64 x <= ulp radix2 fexp64 1). { apply ulp_le; try typeclasses eauto. rewrite (Rabs_pos_eq 1) by lra. exact H. }
  assert (U1 : ulp radix2 fexp64 1 = b2 (-52)). { change 1 with (b2 0) at 1. rewrite ulp_bpow. reflexivity. }
  rewrite U1 in U. replace (b2 (-52)) with (2 * b2 (-53)) in U by (change (-52)%Z with (1 + -53)%Z; rewrite bpow_plus; reflexivity). unfold RN in E. unfold RN. lra.
Qed.
Lemma sum_err f pw l : (forall w, In w l -> b2 (-400) <= w) -> forall s s' a b, 0 <= s -> 0 < a <= 1 -> 1 <= b -> s * a <= s' <= s * b ->
  (s + sumR l) * (a * (1 - u53) ^ length l) <= fold_left (fun s w => rnd (double_env f pw) (s + w)) l s' <= (s + sumR l) * (b * (1 + u53) ^ length l).
Proof.
  pose proof u53_pos as U0. assert (U1 : u53 < 1) by (apply (bpow_lt radix2 (-53) 0); lia).
  induction l as [|w l IH]; intros Hl s s' a b Hs Ha Hb Hs'; cbn [fold_left length pow sumR fold_right].
  - rewrite Rplus_0_r, !Rmult_1_r. lra.
  - fold (sumR l). assert (Hw : b2 (-400) <= w) by (apply Hl; now left). assert (B0 : 0 < b2 (-400)) by apply bpow_gt_0. assert (B1 : b2 (-1022) <= b2 (-400)) by (apply bpow_le; lia).
    assert (S0 : 0 <= s * a) by (apply Rmult_le_pos; lra).
    pose proof (RN_rel (s' + w) ltac:(lra)) as [R1 R2]. change (rnd (double_env f pw) (s' + w)) with (RN (s' + w)).
    assert (L1 : (s + w) * a <= s' + w). { assert (w * a <= w * 1) by (apply Rmult_le_compat_l; lra). lra. }
    assert (L2 : s' + w <= (s + w) * b). { assert (w * 1 <= w * b) by (apply Rmult_le_compat_l; lra). lra. }
    destruct (IH ltac:(intros; apply Hl; now right) (s + w) (RN (s' + w)) (a * (1 - u53)) (b * (1 + u53))) as [I1 I2].
    + lra.
    + split; [apply Rmult_lt_0_compat; lra|]. assert (a * (1 - u53) <= 1 * 1) by (apply Rmult_le_compat; lra). lra.
    + assert (1 * 1 <= b * (1 + u53)) by (apply Rmult_le_compat; lra). lra.
    + split.
      * eapply Rle_trans; [|exact R1]. rewrite <- Rmult_assoc. apply Rmult_le_compat_r; lra.
      * eapply Rle_trans; [exact R2|]. rewrite <- Rmult_assoc. apply Rmult_le_compat_r; lra.
    + replace (s + (w + sumR l)) with (s + w + sumR l) by ring. rewrite <- !(Rmult_assoc a), <- !(Rmult_assoc b). split; assumption.
Qed.
Lemma sum_elems_err f pw ws : (forall w, In w ws -> b2 (-400) <= w) ->
  sumR ws * (1 - u53) ^ length ws <= sum_elems (double_env f pw) ws <= sumR ws * (1 + u53) ^ length ws.
Proof.
  intros H. pose proof (sum_err f pw ws H 0 0 1 1 ltac:(lra) ltac:(lra) ltac:(lra) ltac:(lra)) as S. rewrite Rplus_0_l, !Rmult_1_l in S. exact S.
Qed.
(** one axis *)
Lemma axis_err f pw x y : 0 <= x < 1 -> 0 <= y < 1 -> Rabs (axis_distance (double_env f pw) x y - axis_distance ideal_env x y) <= b2 (-52).
Proof.
  intros Hx Hy. unfold axis_distance. cbn [rnd double_env ideal_env].
  assert (B : b2 (-52) = 2 * b2 (-53)) by (change (-52)%Z with (1 + -53)%Z; rewrite bpow_plus; reflexivity). pose proof (bpow_gt_0 radix2 (-53)) as B0.
  pose proof (RN_abs (x - y) ltac:(apply Rabs_le; lra)) as E1.
  assert (T1 : Rabs (RN (x - y)) <= 1).
  { assert (ON : RN 1 = 1) by (apply RN_id; apply (b2_double 0); lia). assert (OP : RN (- (1)) = - (1)) by (unfold RN; rewrite round_NE_opp; f_equal; exact ON).
    pose proof (RN_le (- (1)) (x - y) ltac:(lra)). pose proof (RN_le (x - y) 1 ltac:(lra)). apply Rabs_le. lra. }
  set (t := Rabs (RN (x - y))) in *. assert (T0 : 0 <= t) by apply Rabs_pos.
  pose proof (RN_abs (1 - t) ltac:(apply Rabs_le; lra)) as E2.
  assert (E3 : Rabs (t - Rabs (x - y)) <= b2 (-53)). { eapply Rle_trans; [apply Rabs_triang_inv2|exact E1]. }
  apply Rabs_le_inv in E2, E3. apply Rabs_le. unfold Rmin. repeat destruct (Rle_dec _ _); lra.
Qed.
Lemma dist_err f pw : forall xs ys r r', List.Forall (fun x => 0 <= x < 1) xs -> List.Forall (fun x => 0 <= x < 1) ys -> Rabs (r - r') <= b2 (-52) ->
  Rabs (coord_distance (double_env f pw) r xs ys - coord_distance ideal_env r' xs ys) <= b2 (-52).
Proof.
  induction xs as [|x xs IH]; intros ys r r' Hx Hy Hr; [exact Hr|]. destruct ys as [|y ys]; [exact Hr|]. cbn [coord_distance].
  inversion_clear Hx. inversion_clear Hy. apply IH; auto. pose proof (axis_err f pw x y ltac:(assumption) ltac:(assumption)) as A.
  apply Rabs_le_inv in A, Hr. apply Rabs_le. unfold Rmax. repeat destruct (Rle_dec _ _); lra.
Qed.
(** the power: at most D - 1 <= 4 roundings *)
Lemma pow_norm x k : b2 (-100) <= x -> (1 <= k <= 5)%nat -> b2 (-1000) <= x ^ k.
Proof.
  intros Hx Hk. assert (B0 : 0 < b2 (-100)) by apply bpow_gt_0. apply Rle_trans with (b2 (-100) ^ k); [|apply pow_incr; lra].
  assert (Hk' : (k = 1 \/ k = 2 \/ k = 3 \/ k = 4 \/ k = 5)%nat) by lia.
  destruct Hk' as [-> | [-> | [-> | [-> | ->]]]]; cbn [pow]; rewrite Rmult_1_r; rewrite <- ?bpow_plus; apply bpow_le; lia.
Qed.
Lemma RN_rel' x y a b : b2 (-1000) <= x -> 0 < a <= 1 -> 1 <= b -> x * a <= y <= x * b -> 1 / 2 <= a -> x * (a * (1 - u53)) <= RN y <= x * (b * (1 + u53)).
Proof.
  intros Hx Ha Hb Hy Ha2. pose proof u53_pos as U0. assert (U1 : u53 < 1) by (apply (bpow_lt radix2 (-53) 0); lia). assert (B0 : 0 < b2 (-1000)) by apply bpow_gt_0.
  assert (Hy1 : b2 (-1022) <= y). { apply Rle_trans with (b2 (-1000) * (1 / 2)); [|apply Rle_trans with (x * a); [apply Rmult_le_compat; lra|lra]].
    replace (1 / 2) with (b2 (-1)) by (change (b2 (-1)) with (/ 2); lra). rewrite <- bpow_plus. apply bpow_le. lia. }
  destruct (RN_rel y Hy1) as [R1 R2]. split.
  - eapply Rle_trans; [|exact R1]. rewrite <- Rmult_assoc. apply Rmult_le_compat_r; lra.
  - eapply Rle_trans; [exact R2|]. rewrite <- Rmult_assoc. apply Rmult_le_compat_r; lra.
Qed.
Lemma lo_bounds k : (k <= 4)%nat -> 0 < (1 - u53) ^ k <= 1 /\ 1 / 2 <= (1 - u53) ^ k /\ 1 <= (1 + u53) ^ k.
Proof.
  intros Hk. pose proof u53_pos as U0. assert (U1 : u53 <= b2 (-10)) by (apply bpow_le; lia). assert (B10 : b2 (-10) = / 1024) by reflexivity. split; [split|split].
  - apply pow_lt. lra.
  - rewrite <- (pow1 k) at 2. apply pow_incr. lra.
  - assert (Hk' : (k = 0 \/ k = 1 \/ k = 2 \/ k = 3 \/ k = 4)%nat) by lia. destruct Hk' as [-> | [-> | [-> | [-> | ->]]]]; cbn [pow]; nra.
  - apply pow_R1_Rle. lra.
Qed.
Lemma power_err f pw D x : (1 <= D <= 5)%N -> b2 (-100) <= x -> x ^ N.to_nat D * (1 - u53) ^ 4 <= pow_to_the (double_env f pw) D x <= x ^ N.to_nat D * (1 + u53) ^ 4.
Proof.
  intros HD Hx. pose proof u53_pos as U0. assert (U1 : u53 < 1) by (apply (bpow_lt radix2 (-53) 0); lia).
  assert (Px : 0 < x) by (pose proof (bpow_gt_0 radix2 (-100)); lra).
  assert (ST : forall p y i, (1 <= p <= 5)%nat -> (i <= 3)%nat -> x ^ p * (1 - u53) ^ i <= y <= x ^ p * (1 + u53) ^ i -> x ^ p * (1 - u53) ^ (S i) <= RN y <= x ^ p * (1 + u53) ^ (S i)).
  { intros p y i Hp Hi Hy. destruct (lo_bounds i ltac:(lia)) as (L1 & L2 & L3). pose proof (RN_rel' (x ^ p) y _ _ (pow_norm x p Hx Hp) L1 L3 Hy L2) as H.
    cbn [pow]. rewrite (Rmult_comm (1 - u53)), (Rmult_comm (1 + u53)). exact H. }
  assert (MU : forall p i y p' i' y', x ^ p * (1 - u53) ^ i <= y <= x ^ p * (1 + u53) ^ i -> x ^ p' * (1 - u53) ^ i' <= y' <= x ^ p' * (1 + u53) ^ i' ->
    x ^ (p + p') * (1 - u53) ^ (i + i') <= y * y' <= x ^ (p + p') * (1 + u53) ^ (i + i')).
  { intros p i y p' i' y' H H'. rewrite !pow_add. assert (P1 : 0 < x ^ p) by (now apply pow_lt). assert (P2 : 0 < x ^ p') by (now apply pow_lt).
    assert (P3 : 0 < (1 - u53) ^ i) by (apply pow_lt; lra). assert (P4 : 0 < (1 - u53) ^ i') by (apply pow_lt; lra).
    assert (P5 : 0 < x ^ p * (1 - u53) ^ i) by (now apply Rmult_lt_0_compat). assert (P6 : 0 < x ^ p' * (1 - u53) ^ i') by (now apply Rmult_lt_0_compat). split.
    - replace (x ^ p * x ^ p' * ((1 - u53) ^ i * (1 - u53) ^ i')) with (x ^ p * (1 - u53) ^ i * (x ^ p' * (1 - u53) ^ i')) by ring. apply Rmult_le_compat; lra.
    - replace (x ^ p * x ^ p' * ((1 + u53) ^ i * (1 + u53) ^ i')) with (x ^ p * (1 + u53) ^ i * (x ^ p' * (1 + u53) ^ i')) by ring. apply Rmult_le_compat; lra. }
  assert (X1 : x ^ 1 * (1 - u53) ^ 0 <= x <= x ^ 1 * (1 + u53) ^ 0) by (cbn [pow]; lra).
  pose proof (ST 2%nat _ 0%nat ltac:(lia) ltac:(lia) (MU 1%nat 0%nat x 1%nat 0%nat x X1 X1)) as X2.
  pose proof (ST 3%nat _ 1%nat ltac:(lia) ltac:(lia) (MU 1%nat 0%nat x 2%nat 1%nat _ X1 X2)) as X3.
  pose proof (ST 4%nat _ 2%nat ltac:(lia) ltac:(lia) (MU 2%nat 1%nat _ 2%nat 1%nat _ X2 X2)) as X4.
  pose proof (ST 5%nat _ 3%nat ltac:(lia) ltac:(lia) (MU 2%nat 1%nat _ 3%nat 2%nat _ X2 X3)) as X5.
  assert (WK : forall p i y, (i <= 4)%nat -> x ^ p * (1 - u53) ^ i <= y <= x ^ p * (1 + u53) ^ i -> x ^ p * (1 - u53) ^ 4 <= y <= x ^ p * (1 + u53) ^ 4).
  { intros p i y Hi H. assert (P1 : 0 < x ^ p) by (now apply pow_lt). destruct (lo_bounds i Hi) as (L1 & _ & L3). destruct (lo_bounds (4 - i) ltac:(lia)) as (L1' & _ & L3').
    replace 4%nat with (i + (4 - i))%nat by lia. rewrite !pow_add. split.
    - eapply Rle_trans; [|apply H]. apply Rmult_le_compat_l; [lra|]. rewrite <- (Rmult_1_r ((1 - u53) ^ i)) at 2. apply Rmult_le_compat_l; lra.
    - eapply Rle_trans; [apply H|]. apply Rmult_le_compat_l; [lra|]. rewrite <- (Rmult_1_r ((1 + u53) ^ i)) at 1. apply Rmult_le_compat_l; lra. }
  assert (HDc : (D = 1 \/ D = 2 \/ D = 3 \/ D = 4 \/ D = 5)%N) by lia. unfold pow_to_the.
  destruct HDc as [-> | [-> | [-> | [-> | ->]]]].
  - apply (WK 1%nat 0%nat); [lia|exact X1].
  - apply (WK 2%nat 1%nat); [lia|exact X2].
  - apply (WK 3%nat 2%nat); [lia|exact X3].
  - apply (WK 4%nat 3%nat); [lia|exact X4].
  - apply (WK 5%nat 4%nat); [lia|exact X5].
Qed.

(** ** the weight term *)
Lemma one_minus_pow m : 0 <= u53 * INR m <= 1 -> 1 - INR m * u53 <= (1 - u53) ^ m.
Proof.
  pose proof u53_pos as U0. assert (U1 : u53 < 1) by (apply (bpow_lt radix2 (-53) 0); lia).
  induction m as [|m IH]; intros Hm; [cbn; lra|]. rewrite S_INR in *. cbn [pow]. pose proof (pos_INR m) as P.
  assert (Q : 0 <= u53 * INR m) by (apply Rmult_le_pos; lra). specialize (IH ltac:(lra)).
  apply Rle_trans with ((1 - u53) * (1 - INR m * u53)); [|apply Rmult_le_compat_l; lra].
  assert (0 <= u53 * (INR m * u53)) by (apply Rmult_le_pos; lra). lra.
Qed.
Lemma one_plus_pow m : 2 * (u53 * INR m) <= 1 -> (1 + u53) ^ m <= 1 + 2 * (INR m * u53).
Proof.
  pose proof u53_pos as U0. induction m as [|m IH]; intros Hm; [cbn; lra|]. rewrite S_INR in *. cbn [pow]. pose proof (pos_INR m) as P.
  specialize (IH ltac:(lra)). apply Rle_trans with ((1 + u53) * (1 + 2 * (INR m * u53))); [apply Rmult_le_compat_l; lra|].
  assert (u53 * (2 * (INR m * u53)) <= u53 * 1) by (apply Rmult_le_compat_l; lra). lra.
Qed.
Definition eps (n : nat) : R := (INR n + 8) * b2 (-52).
Lemma small_n n : (N.of_nat n < 2 ^ 31)%N -> (INR n + 8) * u53 <= b2 (-20) /\ 1 <= INR n + 1.
Proof.
  intros H. assert (HI : INR n <= b2 31). { rewrite INR_IZR_INZ. apply (IZR_le _ (2 ^ 31)). lia. } pose proof (pos_INR n) as P. split; [|lra].
  apply Rle_trans with (b2 32 * u53); [apply Rmult_le_compat_r; [left; apply u53_pos|]|].
  - assert (b2 32 = 2 * b2 31) by (change 32%Z with (1 + 31)%Z; rewrite bpow_plus; reflexivity). assert (8 <= b2 31) by (apply (bpow_le radix2 3 31); lia). lra.
  - unfold u53. rewrite <- bpow_plus. apply bpow_le. lia.
Qed.
Lemma eps_up n : (N.of_nat n < 2 ^ 31)%N -> (1 + u53) ^ 4 * (1 + u53) ^ n <= (1 + eps n) * ((1 - u53) * (1 - u53)).
Proof.
  intros H. destruct (small_n n H) as [S1 S2]. pose proof u53_pos as U0. rewrite <- pow_add. pose proof (pos_INR n) as P.
  assert (B20 : b2 (-20) <= / 1024) by (change (/ 1024) with (b2 (-10)); apply bpow_le; lia).
  assert (N0 : 0 <= INR n * u53) by (apply Rmult_le_pos; lra).
  eapply Rle_trans; [apply one_plus_pow; rewrite plus_INR; cbn [INR]; lra|]. rewrite plus_INR. cbn [INR]. unfold eps.
  replace (b2 (-52)) with (2 * u53) by (unfold u53; change (-52)%Z with (1 + -53)%Z; rewrite bpow_plus; reflexivity).
  set (v := (INR n + 8) * u53) in *. replace ((1 + 1 + 1 + 1 + INR n) * u53) with (v - 4 * u53) by (unfold v; ring). replace ((INR n + 8) * (2 * u53)) with (2 * v) by (unfold v; ring).
  assert (u53 * v <= u53 * / 1024) by (apply Rmult_le_compat_l; lra). assert (0 <= u53 * u53 * (1 + 2 * v)) by (apply Rmult_le_pos; [nra|unfold v; lra]).
  replace ((1 + 2 * v) * ((1 - u53) * (1 - u53))) with (1 + 2 * v - 2 * u53 - 4 * (u53 * v) + u53 * u53 * (1 + 2 * v)) by ring. lra.
Qed.
Lemma eps_down n : (N.of_nat n < 2 ^ 31)%N -> (1 - eps n) * ((1 + u53) * (1 + u53)) <= (1 - u53) ^ 4 * (1 - u53) ^ n.
Proof.
  intros H. destruct (small_n n H) as [S1 S2]. pose proof u53_pos as U0. rewrite <- pow_add. pose proof (pos_INR n) as P.
  assert (B20 : b2 (-20) <= / 1024) by (change (/ 1024) with (b2 (-10)); apply bpow_le; lia).
  assert (N0 : 0 <= INR n * u53) by (apply Rmult_le_pos; lra).
  eapply Rle_trans; [|apply one_minus_pow; rewrite plus_INR; cbn [INR]; lra]. rewrite plus_INR. cbn [INR]. unfold eps.
  replace (b2 (-52)) with (2 * u53) by (unfold u53; change (-52)%Z with (1 + -53)%Z; rewrite bpow_plus; reflexivity).
  set (v := (INR n + 8) * u53) in *. replace ((1 + 1 + 1 + 1 + INR n) * u53) with (v - 4 * u53) by (unfold v; ring). replace ((INR n + 8) * (2 * u53)) with (2 * v) by (unfold v; ring).
  assert (V8 : 8 * u53 <= v) by (unfold v; lra). assert (0 <= u53 * v) by (apply Rmult_le_pos; lra). assert (0 <= u53 * u53 * v) by (apply Rmult_le_pos; [nra|lra]). assert (u53 * u53 <= u53 * / 1024) by (apply Rmult_le_compat_l; lra).
  replace ((1 - 2 * v) * ((1 + u53) * (1 + u53))) with (1 - 2 * v + 2 * u53 + u53 * u53 - 4 * (u53 * v) - 2 * (u53 * u53 * v)) by ring. lra.
Qed.
Section WTerm.
  Variables (f : R -> R) (pw : R -> R -> R) (ws : list R).
  Hypotheses (HW : double_weights f pw ws) (Hn : (N.of_nat (length ws) < 2 ^ 31)%N).
  Let W := sum_elems (double_env f pw) ws.
  Let n := length ws.
  Lemma W_bounds : 0 < sumR ws /\ sumR ws * (1 - u53) ^ n <= W <= sumR ws * (1 + u53) ^ n /\ 1 / 2 <= (1 - u53) ^ n /\ (1 + u53) ^ n <= 2.
  Proof.
    assert (B0 : 0 < b2 (-400)) by apply bpow_gt_0. pose proof (dw_ne _ _ _ HW) as Hne. pose proof u53_pos as U0.
    assert (P : 0 < sumR ws). { assert (Hw : forall w, In w ws -> b2 (-400) <= w) by (intros w Hw; apply (dw_double _ _ _ HW w Hw)). clear - Hne Hw B0. destruct ws as [|w l]; [congruence|].
      assert (S : forall l, (forall w, In w l -> b2 (-400) <= w) -> 0 <= sumR l). { clear - B0. induction l as [|w l IH]; intros H; cbn; [lra|]. fold (sumR l). specialize (IH ltac:(intros; apply H; now right)). specialize (H w ltac:(now left)). lra. }
      cbn. fold (sumR l). specialize (S l ltac:(intros; apply Hw; now right)). specialize (Hw w ltac:(now left)). lra. }
    destruct (small_n n Hn) as [S1 S2]. assert (B20 : b2 (-20) <= / 1024) by (change (/ 1024) with (b2 (-10)); apply bpow_le; lia).
    assert (N0 : 0 <= INR n * u53) by (apply Rmult_le_pos; [apply pos_INR|lra]).
    split; [exact P|]. split; [apply sum_elems_err; intros w Hw; apply (dw_double _ _ _ HW w Hw)|]. split.
    - eapply Rle_trans; [|apply one_minus_pow; lra]. lra.
    - eapply Rle_trans; [apply one_plus_pow; lra|]. lra.
  Qed.
  Lemma w0_large : exists w0, In w0 ws /\ (forall w, In w ws -> w0 <= w) /\ 0 < w0 /\ b2 (-32) * W < w0 * w0.
  Proof.
    pose proof (dw_ne _ _ _ HW) as Hne. destruct (min_elem_spec ws Hne) as (w0 & E0 & I0 & M0). exists w0. split; [exact I0|]. split; [exact M0|].
    assert (B4 : 0 < b2 (-400)) by apply bpow_gt_0. destruct (dw_double _ _ _ HW w0 I0) as [D0 R0]. assert (P0 : 0 < w0) by lra. split; [exact P0|].
    pose proof u53_pos as U0. assert (U1 : u53 <= / 1024) by (change (/ 1024) with (b2 (-10)); apply bpow_le; lia).
    assert (HW0 : w0 <= W). { apply sum_ge; auto. intros w Hw. split; [destruct (dw_double _ _ _ HW w Hw); lra|apply (dw_double _ _ _ HW w Hw)]. }
    destruct (dw_bits _ _ _ HW w0 I0 M0) as [Q _]. fold W in Q. set (q := RN (RN (W / w0) / w0)) in *.
    assert (A1 : 1 <= W / w0). { apply Rmult_le_reg_r with w0; [exact P0|]. replace (W / w0 * w0) with W by (field; lra). lra. }
    assert (B1 : b2 (-1022) <= 1) by (apply (bpow_le radix2 (-1022) 0); lia).
    destruct (RN_rel (W / w0) ltac:(lra)) as [R1 _].
    assert (A1' : 1 <= RN (W / w0)). { rewrite <- (RN_id 1); [now apply RN_le|]. apply (b2_double 0). lia. }
    assert (A2 : b2 (-400) <= RN (W / w0) / w0).
    { apply Rle_trans with (1 / w0).
      - apply Rmult_le_reg_r with w0; [exact P0|]. replace (1 / w0 * w0) with 1 by (field; lra).
        apply Rle_trans with (b2 (-400) * b2 400); [apply Rmult_le_compat_l; lra|]. rewrite <- bpow_plus. change (b2 (-400 + 400)) with 1. lra.
      - unfold Rdiv. apply Rmult_le_compat_r; [left; now apply Rinv_0_lt_compat|exact A1']. }
    assert (B2 : b2 (-1022) <= b2 (-400)) by (apply bpow_le; lia). destruct (RN_rel (RN (W / w0) / w0) ltac:(lra)) as [R2 _]. fold q in R2.
    assert (L : W * ((1 - u53) * (1 - u53)) <= b2 31 * (w0 * w0)).
    { assert (E1 : W / w0 * (1 - u53) / w0 * (1 - u53) <= b2 31).
      { apply Rle_trans with (RN (W / w0) / w0 * (1 - u53)); [|lra]. apply Rmult_le_compat_r; [lra|]. unfold Rdiv at 1 3. apply Rmult_le_compat_r; [left; now apply Rinv_0_lt_compat|exact R1]. }
      apply (Rmult_le_compat_r (w0 * w0)) in E1; [|apply Rmult_le_pos; lra]. replace (W / w0 * (1 - u53) / w0 * (1 - u53) * (w0 * w0)) with (W * ((1 - u53) * (1 - u53))) in E1 by (field; lra). exact E1. }
    assert (H2 : 1 / 2 < (1 - u53) * (1 - u53)) by nra. assert (L2 : W * (1 / 2) < b2 31 * (w0 * w0)) by (assert (W * (1 / 2) < W * ((1 - u53) * (1 - u53))) by (apply Rmult_lt_compat_l; lra); lra).
    apply (Rmult_lt_compat_l (b2 (-31))) in L2; [|apply bpow_gt_0]. rewrite <- (Rmult_assoc (b2 (-31)) (b2 31)), <- bpow_plus in L2. change (b2 (-31 + 31)) with 1 in L2.
    assert (Rw : b2 (-31) * (W * (1 / 2)) = b2 (-32) * W). { change (-31)%Z with (1 + -32)%Z. rewrite bpow_plus. change (b2 1) with 2. lra. }
    lra.
  Qed.
  Lemma wterm_err w w' : In w ws -> In w' ws -> let wt := RN (RN (w * w') / W) in let ex := w * w' / sumR ws in
    b2 (-33) <= ex /\ ex * ((1 - u53) * (1 - u53)) <= wt * (1 + u53) ^ n /\ wt * (1 - u53) ^ n <= ex * ((1 + u53) * (1 + u53)).
  Proof.
    intros Hw Hw'. cbv zeta. destruct W_bounds as (PS & WB & L1 & L2). destruct w0_large as (w0 & I0 & M0 & P0 & LW). pose proof (M0 w Hw) as G1. pose proof (M0 w' Hw') as G2.
    pose proof u53_pos as U0. assert (U1 : u53 <= / 1024) by (change (/ 1024) with (b2 (-10)); apply bpow_le; lia). pose proof (bpow_gt_0 radix2 (-33)) as B33.
    assert (B32 : b2 (-32) = 2 * b2 (-33)) by (change (-32)%Z with (1 + -33)%Z; rewrite bpow_plus; reflexivity).
    assert (PW : 0 < W). { apply Rlt_le_trans with (sumR ws * (1 / 2)); [lra|]. apply Rle_trans with (sumR ws * (1 - u53) ^ n); [apply Rmult_le_compat_l; lra|apply WB]. }
    assert (P2 : w0 * w0 <= w * w') by (apply Rmult_le_compat; lra). assert (Pp : 0 < w * w') by (apply Rmult_lt_0_compat; lra).
    assert (HP0 : b2 (-1022) <= w * w').
    { apply Rle_trans with (b2 (-400) * b2 (-400)); [rewrite <- bpow_plus; apply bpow_le; lia|]. assert (B0 : 0 < b2 (-400)) by apply bpow_gt_0. destruct (dw_double _ _ _ HW w Hw), (dw_double _ _ _ HW w' Hw'). apply Rmult_le_compat; lra. }
    destruct (RN_rel (w * w') HP0) as [R1 R2]. set (p := RN (w * w')) in *.
    assert (Hq : b2 (-33) <= p / W).
    { apply Rmult_le_reg_r with W; [exact PW|]. replace (p / W * W) with p by (field; lra). apply Rle_trans with (w * w' * (1 - u53)); [|exact R1].
      assert (w * w' * (1 / 2) <= w * w' * (1 - u53)) by (apply Rmult_le_compat_l; lra). rewrite B32 in LW. lra. }
    assert (B22 : b2 (-1022) <= b2 (-33)) by (apply bpow_le; lia). destruct (RN_rel (p / W) ltac:(lra)) as [R3 R4]. set (t := RN (p / W)) in *.
    set (S := sumR ws) in *. set (ex := w * w' / S). assert (EX : ex * S = w * w') by (unfold ex; field; lra). assert (X0 : 0 < ex) by (apply Rdiv_lt_0_compat; assumption).
    split; [|split].
    - apply Rmult_le_reg_r with S; [exact PS|]. rewrite EX. assert (S * (1 / 2) <= W) by (eapply Rle_trans; [|apply WB]; apply Rmult_le_compat_l; lra).
      assert (b2 (-32) * (S * (1 / 2)) <= b2 (-32) * W) by (apply Rmult_le_compat_l; lra). rewrite B32 in *. lra.
    - apply Rmult_le_reg_r with S; [exact PS|]. replace (ex * ((1 - u53) * (1 - u53)) * S) with (w * w' * (1 - u53) * (1 - u53)) by (rewrite <- EX; ring).
      apply Rle_trans with (p * (1 - u53)); [apply Rmult_le_compat_r; lra|]. replace p with (p / W * W) at 1 by (field; lra).
      apply Rle_trans with (t * W). { replace (p / W * W * (1 - u53)) with (p / W * (1 - u53) * W) by ring. apply Rmult_le_compat_r; lra. }
      replace (t * (1 + u53) ^ n * S) with (t * (S * (1 + u53) ^ n)) by ring. apply Rmult_le_compat_l; [|apply WB]. eapply Rle_trans; [|exact R3]. apply Rmult_le_pos; lra.
    - apply Rmult_le_reg_r with S; [exact PS|]. replace (ex * ((1 + u53) * (1 + u53)) * S) with (w * w' * (1 + u53) * (1 + u53)) by (rewrite <- EX; ring).
      apply Rle_trans with (p * (1 + u53)); [|apply Rmult_le_compat_r; lra]. replace p with (p / W * W) at 1 by (field; lra).
      apply Rle_trans with (t * W). 2:{ replace (p / W * W * (1 + u53)) with (p / W * (1 + u53) * W) by ring. apply Rmult_le_compat_r; lra. }
      replace (t * (1 - u53) ^ n * S) with (t * (S * (1 - u53) ^ n)) by ring. apply Rmult_le_compat_l; [|apply WB]. eapply Rle_trans; [|exact R3]. apply Rmult_le_pos; lra.
  Qed.
End WTerm.
(** powers of small numbers are small *)
Lemma RN_le_b2 x z : x <= b2 z -> (-1074 <= z)%Z -> RN x <= b2 z.
Proof. intros H Hz. rewrite <- (RN_id (b2 z)) by (now apply b2_double). now apply RN_le. Qed.
Lemma RN_nonneg x : 0 <= x -> 0 <= RN x.
Proof. intros H. rewrite <- (RN_id 0) by apply generic_format_0. now apply RN_le. Qed.
Lemma power_small f pw D x : (1 <= D <= 5)%N -> 0 <= x <= b2 (-100) -> 0 <= pow_to_the (double_env f pw) D x <= b2 (-100).
Proof.
  intros HD Hx. assert (MM : forall y y', 0 <= y <= b2 (-100) -> 0 <= y' <= b2 (-100) -> 0 <= RN (y * y') <= b2 (-100)).
  { intros y y' H H'. split; [apply RN_nonneg, Rmult_le_pos; lra|]. apply RN_le_b2; [|lia].
    apply Rle_trans with (b2 (-100) * 1); [|lra]. apply Rmult_le_compat; try lra. pose proof (bpow_le radix2 (-100) 0 ltac:(lia)) as B. change (b2 0) with 1 in B. lra. }
  assert (HDc : (D = 1 \/ D = 2 \/ D = 3 \/ D = 4 \/ D = 5)%N) by lia. unfold pow_to_the.
  pose proof (MM x x Hx Hx) as X2. pose proof (MM _ _ Hx X2) as X3.
  destruct HDc as [-> | [-> | [-> | [-> | ->]]]]; [exact Hx|exact X2|exact X3|exact (MM _ _ X2 X2)|exact (MM _ _ X2 X3)].
Qed.
