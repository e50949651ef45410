(** C57: the condition on the computed logarithm is needed. *)
From Coq Require Import Arith NArith ZArith List Bool Reals Permutation Lia Lra Psatz.
From Flocq Require Import Core Relative.
From Coquelicot Require Import Coquelicot.
From Verif Require Import Base Sched Bits_Model Bits_Proofs Coord_Model Coord_Proofs Coord_Geo Coord_Torus IntSort_Model Cover Tree_Model Tree_Proofs Tree_Build Tree_Plan Tree_Run Girg_Model Girg_Proofs Girg_Num
  Prop_Girg Ieee Mean Cost_Touch Prop_Cost Prop_Ieee.
Import ListNotations.
Local Open Scope R_scope.

(** ** pairs compared by a release build without randomness, in any arithmetic *)
Section Touch.
  Variables (E : fenv) (cfg : config) (D : N) (ws : list R) (ps : list (list R)) (P : tparams).
  Hypotheses (HD : dim_ok D) (NO : num_ok E D ws P) (HL : length ws = length ps)
             (VP : List.Forall (valid_pos E D) ps) (Hn : (N.of_nat (length ws) < 2 ^ 31)%N).
  Variables (t : tree) (ord : list nat) (TS : tree_spec E cfg D ws ps P t ord).
  Notation plan0 := (plan cfg D P (N.to_nat (p_levels P - 1)) 0%N 0%N 0%N).
  Lemma compared_close x u v : In x plan0 -> In (u, v) (call_pairs E cfg D ws ps P ord x) -> isI x = true ->
    near (base_level D (p_c P) (lay E ws P u) (lay E ws P v)) (pos ps u) (pos ps v) = true.
  Proof.
    intros Hx Huv HI. pose proof (plan0_ok _ _ _ _ _ _ HD NO HL Hn t ord TS x Hx) as OK. pose proof (levels_eq _ cfg _ _ ps _ NO t ord TS) as HLE.
    destruct (call_pairs_In _ _ _ _ _ _ HL Hn _ _ TS x u v Huv) as [Hu Hv]. destruct x as [A B l i j|A B l i j]; [|discriminate].
    assert (Q : lay E ws P u = i /\ cel cfg D ps l u = A /\ lay E ws P v = j /\ cel cfg D ps l v = B).
    { cbn [call_pairs] in Huv. destruct (N.eqb_spec A B) as [Ee|Ee]; cbn [andb] in Huv; [destruct (Nat.eqb_spec i j) as [E'|E']|].
      - apply uptri_In in Huv as [H1 H2]. apply (V_In _ _ _ _ _ _ HL Hn _ _ TS) in H1, H2. subst. tauto.
      - apply in_prod_iff in Huv as [H1 H2]. apply (V_In _ _ _ _ _ _ HL Hn _ _ TS) in H1, H2. tauto.
      - apply in_prod_iff in Huv as [H1 H2]. apply (V_In _ _ _ _ _ _ HL Hn _ _ TS) in H1, H2. tauto. }
    destruct Q as (<- & <- & <- & <-). destruct OK as (_ & _ & _ & _ & El). set (l0 := base_level D (p_c P) (lay E ws P u) (lay E ws P v)) in *. subst l.
    assert (LB : (l0 < p_levels P)%N) by apply (base_levels E cfg D ws ps P HD NO HL Hn t ord TS). destruct (level_bound D P HD (no_c _ _ _ _ NO) HLE l0 LB) as [B1 B2].
    pose proof (plan_I_touch cfg D P _ _ _ _ _ _ _ _ _ Hx) as T. unfold touchb in T.
    pose proof (pos_valid _ _ _ _ HL VP Hn u Hu) as Vu. pose proof (pos_valid _ _ _ _ HL VP Hn v Hv) as Vv. unfold Tree_Build.cel in T.
    assert (Iu : in_level D l0 (cell_of cfg D l0 (pos ps u))) by (eapply cell_of_in_level; eauto; lia). assert (Iv : in_level D l0 (cell_of cfg D l0 (pos ps v))) by (eapply cell_of_in_level; eauto; lia).
    rewrite touching_eq in T by (auto; lia). unfold ccoords in T. rewrite <- !(cellOfLevel_eq cfg D l0) in T by (auto; lia). rewrite !(extract_cell_of cfg E) in T by (auto; lia).
    unfold coords_touch, coordsR in T. rewrite combine_map_both, forallb_map_c in T. exact T.
  Qed.
End Touch.

(** ** the numbers of the example; e = 2^-53 *)
Notation e := u53.
Lemma e_val : e = / 9007199254740992. Proof. reflexivity. Qed.
Lemma b2_mul_e z : b2 z * e = b2 (z - 53). Proof. unfold u53. rewrite <- bpow_plus. reflexivity. Qed.
Definition bad_w : R := 2 - 2 * e.
Definition bad_W : R := 131072 * (1 - 10 * e).
Definition bad_H : R := bad_W - 5.
Definition bad_x : R := / 32768 * (1 - 2 * e).
Definition bad_y : R := / 16384.
Definition bad_ws : list R := [bad_H; bad_w; bad_w; 1].
Definition bad_ps : list (list R) := [[/ 2]; [bad_x]; [bad_y]; [/ 4]].
Lemma dbl_m x m z : (Z.abs m < 2 ^ 53)%Z -> (-1074 <= z)%Z -> x = IZR m * b2 z -> is_double x.
Proof. intros H1 H2 ->. now apply FLT_double. Qed.
Lemma b2n36 : b2 (-36) = 131072 * e. Proof. change 131072 with (b2 17). rewrite b2_mul_e. reflexivity. Qed.
Lemma b2n52 : b2 (-52) = 2 * e. Proof. change 2 with (b2 1). rewrite b2_mul_e. reflexivity. Qed.
Lemma b2n67 : b2 (-67) = / 32768 * (2 * e). Proof. replace (/ 32768 * (2 * e)) with (b2 (-14) * e) by (change (b2 (-14)) with (/ 16384); field). rewrite b2_mul_e. reflexivity. Qed.
Lemma w_double : is_double bad_w.
Proof. apply (dbl_m _ (2 ^ 53 - 1) (-52)); [lia|lia|]. rewrite b2n52. change (IZR (2 ^ 53 - 1)) with 9007199254740991. unfold bad_w. rewrite e_val. field. Qed.
Lemma WW_double k : (0 <= k <= 5)%Z -> is_double (bad_W - IZR k).
Proof.
  intros Hk. apply (dbl_m _ (2 ^ 53 - 10 - k * 2 ^ 36) (-36)); [lia|lia|]. rewrite b2n36, minus_IZR, mult_IZR. change (IZR (2 ^ 53 - 10)) with 9007199254740982. change (IZR (2 ^ 36)) with 68719476736. unfold bad_W. rewrite e_val. field.
Qed.
Lemma x_double : is_double bad_x.
Proof. apply (dbl_m _ (2 ^ 52 - 1) (-67)); [lia|lia|]. rewrite b2n67. change (IZR (2 ^ 52 - 1)) with 4503599627370495. unfold bad_x. rewrite e_val. field. Qed.
(** rounding a number that is very close to a double *)
Lemma RN_close d x : is_double d -> 0 < d -> d * (1 - e / 4) <= x <= d -> RN x = d.
Proof.
  intros Dd P0 [H1 H2]. apply Rle_antisym; [rewrite <- (RN_id d Dd); now apply RN_le|].
  apply round_N_ge_midp; [typeclasses eauto|exact Dd|]. pose proof u53_pos as U. pose proof e_val as Ev. assert (G : pred radix2 fexp64 d <= d * (1 - e * (3 / 4))).
  { assert (L : pred radix2 fexp64 d < d) by (apply pred_lt_id; lra). assert (Dp : is_double (pred radix2 fexp64 d)) by (apply generic_format_pred; [typeclasses eauto|exact Dd]).
    destruct (Rle_dec 0 (pred radix2 fexp64 d)) as [Hp|Hp]; [|nra]. destruct (double_gap _ _ Dp Dd (conj Hp L)) as [G|G]; [|rewrite G; nra].
    apply Rmult_le_reg_r with (1 + e); [lra|]. apply Rle_trans with d; [lra|]. assert (1 <= (1 - e * (3 / 4)) * (1 + e)) by nra. rewrite Rmult_assoc. rewrite <- (Rmult_1_r d) at 1. apply Rmult_le_compat_l; lra. }
  nra.
Qed.
Lemma bad_sum : float_sum bad_ws = bad_W.
Proof.
  pose proof e_val as Ev. pose proof u53_pos as U. unfold float_sum, bad_ws. cbn [fold_left].
  assert (H5 : is_double (bad_W - 5)) by (apply (WW_double 5); lia). assert (H3 : is_double (bad_W - 3)) by (apply (WW_double 3); lia). assert (H1 : is_double (bad_W - 1)) by (apply (WW_double 1); lia). assert (H0 : is_double bad_W) by (replace bad_W with (bad_W - 0) by ring; apply (WW_double 0); lia).
  rewrite Rplus_0_l. unfold bad_H at 1. rewrite (RN_id (bad_W - 5) H5).
  rewrite (RN_close (bad_W - 3) (bad_W - 5 + bad_w) H3); [|unfold bad_W; rewrite Ev; lra|unfold bad_W, bad_w; rewrite Ev; lra].
  rewrite (RN_close (bad_W - 1) (bad_W - 3 + bad_w) H1); [|unfold bad_W; rewrite Ev; lra|unfold bad_W, bad_w; rewrite Ev; lra].
  replace (bad_W - 1 + 1) with bad_W by ring. now apply RN_id.
Qed.
Lemma ln2_65 : 65 / 100 <= ln 2.
Proof.
  set (y := 65 / 800). assert (Q : exp (- y) >= 1 - y) by (pose proof (exp_ineq1_le (- y)); lra).
  assert (P0 : 0 < exp y) by apply exp_pos. assert (I : exp (- y) * exp y = 1) by (rewrite <- exp_plus; replace (- y + y) with 0 by ring; apply exp_0).
  assert (B : exp y <= 800 / 735). { unfold y in *. nra. }
  assert (C : exp y ^ 8 <= 2). { apply Rle_trans with ((800 / 735) ^ 8); [apply pow_incr; lra|]. lra. }
  assert (EG : forall k, exp y ^ k = exp (INR k * y)). { induction k as [|k IH]; [cbn; now rewrite Rmult_0_l, exp_0|]. rewrite S_INR. cbn [pow]. rewrite IH, <- exp_plus. f_equal. ring. }
  assert (EP : exp y ^ 8 = exp (65 / 100)). { rewrite EG. f_equal. unfold y. cbn [INR]. field. }
  rewrite EP in C. rewrite <- (ln_exp (65 / 100)). destruct C as [C|C]; [left; apply ln_increasing; [apply exp_pos|exact C]|right; now rewrite C].
Qed.
Lemma ln_minus t : 0 < t < 1 -> - t / (1 - t) <= ln (1 - t) <= - t.
Proof.
  intros Ht. split.
  - pose proof (exp_ineq1_le (t / (1 - t))) as Q. assert (E1 : 1 + t / (1 - t) = / (1 - t)) by (field; lra). rewrite E1 in Q. assert (L : ln (/ (1 - t)) <= t / (1 - t)).
    { rewrite <- (ln_exp (t / (1 - t))). destruct Q as [Q|Q]; [left; apply ln_increasing; [apply Rinv_0_lt_compat; lra|exact Q]|right; now rewrite Q]. }
    rewrite ln_Rinv in L by lra. unfold Rdiv in *. lra.
  - pose proof (exp_ineq1_le (- t)) as Q. rewrite <- (ln_exp (- t)). destruct Q as [Q|Q]; [left; apply ln_increasing; lra|right; f_equal; lra].
Qed.
(** the logarithm of the sum is rounded up to 17 *)
Lemma bad_log : log2_double bad_W = 17.
Proof.
  pose proof e_val as Ev. pose proof u53_pos as U. pose proof ln2_65 as L2. unfold log2_double.
  assert (LW : log2R bad_W = 17 + ln (1 - 10 * e) / ln 2).
  { unfold log2R, bad_W. change 131072 with (b2 17). rewrite ln_mult by (try apply bpow_gt_0; rewrite Ev; lra). rewrite ln_b2. field. lra. }
  destruct (ln_minus (10 * e)) as [N1 N2]; [rewrite Ev; lra|].
  apply Rle_antisym.
  - apply Rle_trans with (RN 17); [|right; apply RN_id, (dbl_int 17); lia]. apply RN_le. rewrite LW. assert (ln (1 - 10 * e) / ln 2 <= 0); [|lra]. apply Rmult_le_reg_r with (ln 2); [lra|]. replace (ln (1 - 10 * e) / ln 2 * ln 2) with (ln (1 - 10 * e)) by (field; lra). lra.
  - apply round_N_ge_midp; [typeclasses eauto|apply (dbl_int 17); lia|].
    assert (MG : mag radix2 17 = 5%Z :> Z). { apply mag_unique. rewrite Rabs_right by lra. change (b2 (5 - 1)) with 16. change (b2 5) with 32. lra. }
    assert (PR : pred radix2 fexp64 17 = 17 - b2 (-48)).
    { rewrite pred_eq_pos by lra. unfold pred_pos. rewrite MG. rewrite Req_bool_false by (change (b2 (5 - 1)) with 16; lra). rewrite ulp_neq_0 by lra. unfold cexp. rewrite MG. reflexivity. }
    rewrite PR, LW. change (b2 (-48)) with (/ 281474976710656). assert (K : - (16 * e) < ln (1 - 10 * e) / ln 2).
    { apply Rmult_lt_reg_r with (ln 2); [lra|]. replace (ln (1 - 10 * e) / ln 2 * ln 2) with (ln (1 - 10 * e)) by (field; lra). apply Rlt_le_trans with (- (10 * e) / (1 - 10 * e)); [|exact N1].
      apply Rle_lt_trans with (- (104 / 10 * e)); [nra|]. apply Rmult_lt_reg_r with (1 - 10 * e); [rewrite Ev; lra|]. replace (- (10 * e) / (1 - 10 * e) * (1 - 10 * e)) with (- (10 * e)) by (field; rewrite Ev; lra). rewrite Ev. lra. }
    rewrite Ev in *. lra.
Qed.
Lemma bad_lay_w : 0 <= log2_double bad_w < 1.
Proof.
  pose proof e_val as Ev. pose proof u53_pos as U. pose proof ln2_65 as L2. unfold log2_double.
  assert (L1 : ln 2 < 1). { rewrite <- (ln_exp 1). apply ln_increasing; [lra|]. pose proof (exp_ineq1 1 ltac:(lra)). lra. }
  assert (LW : log2R bad_w = 1 + ln (1 - e) / ln 2). { unfold log2R, bad_w. replace (2 - 2 * e) with (2 * (1 - e)) by ring. rewrite ln_mult by (rewrite ?Ev; lra). field. lra. }
  destruct (ln_minus e) as [N1 N2]; [rewrite Ev; lra|]. rewrite LW. split.
  - apply RN_nonneg. assert (- 1 <= ln (1 - e) / ln 2); [|lra]. apply Rmult_le_reg_r with (ln 2); [lra|]. replace (ln (1 - e) / ln 2 * ln 2) with (ln (1 - e)) by (field; lra). eapply Rle_trans; [|exact N1]. rewrite Ev. lra.
  - assert (DD : is_double (1 - e)). { apply (dbl_m _ (2 ^ 53 - 1) (-53)); [lia|lia|]. change (b2 (-53)) with e. change (IZR (2 ^ 53 - 1)) with 9007199254740991. rewrite Ev. field. }
    apply Rle_lt_trans with (RN (1 - e)); [|rewrite (RN_id _ DD); lra]. apply RN_le. assert (ln (1 - e) / ln 2 <= - e); [|lra]. apply Rmult_le_reg_r with (ln 2); [lra|]. replace (ln (1 - e) / ln 2 * ln 2) with (ln (1 - e)) by (field; lra). nra.
Qed.

(** ** the parameters of the tree for any weights whose sum is below 2^30 times the square of the smallest, whatever the logarithm *)
Lemma double_params f pw D ws w0 : good_log2 f -> dim_ok D -> ws <> [] -> (forall w, In w ws -> is_double w /\ b2 (-400) <= w <= b2 400) ->
  In w0 ws -> (forall w, In w ws -> w0 <= w) -> let q := RN (RN (float_sum ws / w0) / w0) in b2 (-400) <= q <= b2 30 ->
  exists P, num_ok (double_env f pw) D ws P /\ p_c P = Ztrunc (f q) /\ p_w0 P = w0 /\ p_W P = float_sum ws.
Proof.
  intros GL HD Hne DW I0 M0 q Hq. set (E := double_env f pw).
  destruct (min_elem_spec ws Hne) as (w0' & E0 & I0' & M0'). assert (w0' = w0) by (apply Rle_antisym; [now apply M0'|now apply M0]). subst w0'. clear I0' M0'.
  destruct (max_elem_spec ws Hne) as (wn & En & In' & Mn).
  assert (B4 : 0 < b2 (-400)) by apply bpow_gt_0. assert (Hpos : forall w, In w ws -> 0 < w) by (intros w Hw; destruct (DW w Hw); lra).
  pose proof (Hpos w0 I0) as P0. destruct (DW w0 I0) as [D0 R0]. set (W := float_sum ws) in *.
  assert (L1 : IZR (-400) <= f q). { rewrite <- (gl_pow2 f GL (-400)) by lia. apply (gl_mono f GL). lra. }
  assert (L2 : f q <= IZR 30). { rewrite <- (gl_pow2 f GL 30) by lia. apply (gl_mono f GL). lra. }
  set (c := Ztrunc (f q)). pose proof (trunc_bounds (f q) (-400) 30 L1 L2) as Hcb. fold c in Hcb.
  assert (Hrat : forall w, In w ws -> 1 <= RN (w / w0) <= b2 800 /\ RN (w / w0) <= RN (wn / w0)).
  { intros w Hw. pose proof (Hpos w Hw) as Pw. destruct (DW w Hw) as [_ Rw]. repeat split.
    - rewrite <- (RN_id 1) by (apply (b2_double 0); lia). apply RN_le. apply Rmult_le_reg_r with w0; [exact P0|]. replace (w / w0 * w0) with w by (field; lra). rewrite Rmult_1_l. now apply M0.
    - rewrite <- (RN_id (b2 800)) by (apply b2_double; lia). apply RN_le. apply Rmult_le_reg_r with w0; [exact P0|]. replace (w / w0 * w0) with w by (field; lra).
      apply Rle_trans with (b2 800 * b2 (-400)); [|apply Rmult_le_compat_l; [apply bpow_ge_0|lra]]. rewrite <- bpow_plus. change (800 + -400)%Z with 400%Z. lra.
    - apply RN_le. unfold Rdiv. apply Rmult_le_compat_r; [left; now apply Rinv_0_lt_compat|now apply Mn]. }
  assert (Hlog : forall w, In w ws -> 0 <= f (RN (w / w0)) <= IZR 800 /\ f (RN (w / w0)) <= f (RN (wn / w0))).
  { intros w Hw. destruct (Hrat w Hw) as [[H1 H2] H3]. repeat split.
    - change 0 with (IZR 0). rewrite <- (gl_pow2 f GL 0) by lia. apply (gl_mono f GL). change (b2 0) with 1. lra.
    - rewrite <- (gl_pow2 f GL 800) by lia. apply (gl_mono f GL). lra.
    - apply (gl_mono f GL). lra. }
  set (m := Zfloor (f (RN (wn / w0)))).
  assert (Hm : (0 <= m <= 800)%Z).
  { destruct (Hlog wn In') as [[H1 H2] _]. split; [apply Zfloor_lub; exact H1|]. apply le_IZR. pose proof (Zfloor_lb (f (RN (wn / w0)))). unfold m. lra. }
  exists {| p_w0 := w0; p_wn := wn; p_W := W; p_c := c; p_layers := N.to_nat (Z.to_N m + 1); p_levels := base_level D c 0 0 + 1 |}.
  assert (Hli : forall w, In w ws -> layer_index E w0 w = Some (Z.to_nat (Zfloor (f (RN (w / w0)))))).
  { intros w Hw. destruct (Hlog w Hw) as [[H1 H2] _]. unfold layer_index, weight_to_layer. cbn [flog2 rnd double_env E].
    unfold double_to_int. rewrite Ztrunc_floor by exact H1. assert (0 <= Zfloor (f (RN (w / w0))))%Z by (apply Zfloor_lub; exact H1).
    assert (Zfloor (f (RN (w / w0))) <= 800)%Z. { apply le_IZR. pose proof (Zfloor_lb (f (RN (w / w0)))). lra. }
    destruct ((- 2 ^ 31 <=? _) && _)%Z eqn:Eb; [|exfalso; apply andb_false_iff in Eb as [Eb|Eb]; [apply Z.leb_gt in Eb|apply Z.ltb_ge in Eb]; lia].
    cbn [obind]. destruct (Z.ltb_spec (Zfloor (f (RN (w / w0)))) 0); [lia|reflexivity]. }
  split; [constructor; cbn [p_c p_layers p_w0 p_W]|repeat split].
  - unfold tree_params. rewrite E0. cbn [obind]. rewrite En. cbn [obind]. fold E. change (sum_elems E ws) with W. cbn [flog2 rnd double_env E]. fold q.
    unfold double_to_int at 1. fold c.
    destruct ((- 2 ^ 31 <=? c) && (c <? 2 ^ 31))%Z eqn:Eb; [|exfalso; apply andb_false_iff in Eb as [Eb|Eb]; [apply Z.leb_gt in Eb|apply Z.ltb_ge in Eb]; lia].
    cbn [obind]. fold m. unfold double_to_u32. rewrite Ztrunc_IZR.
    destruct ((0 <=? m) && (m <? 2 ^ 32))%Z eqn:Em; [|exfalso; apply andb_false_iff in Em as [Em|Em]; [apply Z.leb_gt in Em|apply Z.ltb_ge in Em]; lia].
    cbn [obind]. rewrite w32_small by (change (2 ^ 32)%N with 4294967296%N; lia). reflexivity.
  - lia.
  - lia.
  - intros w Hw. eexists. split; [apply Hli; exact Hw|]. destruct (Hlog w Hw) as [[H1 _] H2].
    assert (Zfloor (f (RN (w / w0))) <= m)%Z by (now apply Zfloor_le). assert (0 <= Zfloor (f (RN (w / w0))))%Z by (apply Zfloor_lub; exact H1). lia.
Qed.

(** ** the example *)
Lemma bad_doubles : forall w, In w bad_ws -> is_double w /\ 1 <= w <= 131072.
Proof.
  pose proof e_val as Ev. intros w [<-|[<-|[<-|[<-|[]]]]].
  - split; [apply (WW_double 5); lia|]. unfold bad_H, bad_W. rewrite Ev. lra.
  - split; [apply w_double|]. unfold bad_w. rewrite Ev. lra.
  - split; [apply w_double|]. unfold bad_w. rewrite Ev. lra.
  - split; [apply (dbl_int 1); lia|lra].
Qed.
Lemma bad_range : forall w, In w bad_ws -> is_double w /\ b2 (-400) <= w <= b2 400.
Proof.
  intros w Hw. destruct (bad_doubles w Hw) as [H1 H2]. split; [exact H1|]. assert (b2 (-400) <= 1) by (apply (bpow_le radix2 (-400) 0); lia). assert (131072 <= b2 400) by (apply (bpow_le radix2 17 400); lia). lra.
Qed.
Lemma bad_q : RN (RN (float_sum bad_ws / 1) / 1) = bad_W.
Proof.
  assert (H0 : is_double bad_W) by (replace bad_W with (bad_W - 0) by ring; apply (WW_double 0); lia).
  rewrite bad_sum. unfold Rdiv. rewrite Rinv_1, !Rmult_1_r, !(RN_id _ H0). reflexivity.
Qed.
Lemma bad_positions : List.Forall (fun p => length p = N.to_nat 1 /\ List.Forall (fun x => is_double x /\ 0 <= x < 1) p) bad_ps.
Proof.
  pose proof e_val as Ev. repeat apply List.Forall_cons; try apply List.Forall_nil; (split; [reflexivity|]); repeat apply List.Forall_cons; try apply List.Forall_nil.
  - split; [apply (b2_double (-1)); lia|lra].
  - split; [apply x_double|unfold bad_x; rewrite Ev; lra].
  - split; [apply (b2_double (-14)); lia|unfold bad_y; lra].
  - split; [apply (b2_double (-2)); lia|lra].
Qed.
Definition bad_d : R := / 32768 * (1 + 2 * e).
Lemma d_double : is_double bad_d.
Proof. apply (dbl_m _ (2 ^ 52 + 1) (-67)); [lia|lia|]. rewrite b2n67. change (IZR (2 ^ 52 + 1)) with 4503599627370497. unfold bad_d. rewrite e_val. field. Qed.
Lemma bad_axis : float_axis bad_x bad_y = bad_d.
Proof.
  pose proof e_val as Ev. unfold float_axis. replace (bad_x - bad_y) with (- bad_d) by (unfold bad_x, bad_y, bad_d; field).
  assert (NG : RN (- bad_d) = - bad_d) by (unfold RN; rewrite round_NE_opp; f_equal; exact (RN_id _ d_double)). rewrite NG, Rabs_Ropp.
  assert (B : 0 < bad_d < / 4) by (unfold bad_d; rewrite Ev; lra). rewrite Rabs_right by lra. apply Rmin_left. apply Rle_trans with (RN (/ 2)); [rewrite (RN_id (/ 2)) by (apply (b2_double (-1)); lia); destruct B; lra|]. apply RN_le. destruct B; lra.
Qed.
Lemma bad_float_edge : float_edge 1 bad_ws bad_ps 1 2.
Proof.
  pose proof e_val as Ev. exists bad_d. split.
  - split; [intros i Hi|exists 0%nat; split; [cbn; lia|symmetry; exact bad_axis]]. destruct i as [|i]; [|cbn in Hi; lia]. right. exact bad_axis.
  - cbn [nth bad_ws float_pow]. rewrite bad_sum. assert (A : 4 * (1 - 2 * e) <= RN (bad_w * bad_w)).
    { assert (DD : is_double (4 * (1 - 2 * e))). { apply (dbl_m _ (2 ^ 52 - 1) (-50)); [lia|lia|]. replace (b2 (-50)) with (8 * e) by (change 8 with (b2 3); rewrite b2_mul_e; reflexivity). change (IZR (2 ^ 52 - 1)) with 4503599627370495. rewrite Ev. field. }
      rewrite <- (RN_id _ DD). apply RN_le. unfold bad_w. rewrite Ev. lra. }
    assert (DD : is_double (/ 32768 * (1 + 4 * e))). { apply (dbl_m _ (2 ^ 51 + 1) (-66)); [lia|lia|]. replace (b2 (-66)) with (/ 32768 * (4 * e)) by (replace (/ 32768 * (4 * e)) with (b2 (-13) * e) by (change (b2 (-13)) with (/ 8192); field); rewrite b2_mul_e; reflexivity). change (IZR (2 ^ 51 + 1)) with 2251799813685249. rewrite Ev. field. }
    apply Rlt_le_trans with (/ 32768 * (1 + 4 * e)); [unfold bad_d; rewrite Ev; lra|]. rewrite <- (RN_id _ DD) at 1. apply RN_le.
    assert (WP : 0 < bad_W) by (unfold bad_W; rewrite Ev; lra). apply Rmult_le_reg_r with bad_W; [exact WP|]. replace (RN (bad_w * bad_w) / bad_W * bad_W) with (RN (bad_w * bad_w)) by (field; lra).
    eapply Rle_trans; [|exact A]. unfold bad_W. rewrite Ev. lra.
Qed.
Lemma bad_exact_edge : bad_y - bad_x < bad_w * bad_w / sumR bad_ws.
Proof.
  pose proof e_val as Ev. assert (S : sumR bad_ws = bad_W - 4 * e) by (unfold bad_ws, bad_H, bad_w; cbn; ring). rewrite S. assert (WP : 0 < bad_W - 4 * e) by (unfold bad_W; rewrite Ev; lra).
  apply Rmult_lt_reg_r with (bad_W - 4 * e); [exact WP|]. replace (bad_w * bad_w / (bad_W - 4 * e) * (bad_W - 4 * e)) with (bad_w * bad_w) by (field; lra).
  unfold bad_y, bad_x, bad_w, bad_W. rewrite Ev. lra.
Qed.
Lemma bad_torus : is_torus_dist (nth 1 bad_ps []) (nth 2 bad_ps []) (bad_y - bad_x).
Proof.
  pose proof e_val as Ev. assert (X : 0 <= bad_x <= 1) by (unfold bad_x; rewrite Ev; lra). assert (Y : 0 <= bad_y <= 1) by (unfold bad_y; lra).
  assert (U : forall z, 0 <= z <= 1 -> List.Forall (fun z => 0 <= z <= 1) [z]) by (intros z Hz; now constructor).
  pose proof (distance_is_torus_dist [bad_x] [bad_y] (U _ X) (U _ Y) eq_refl) as H. cbn [nth bad_ps]. replace (bad_y - bad_x) with (coord_distance ideal_env 0 [bad_x] [bad_y]); [exact H|].
  cbn [coord_distance]. unfold axis_distance. cbn [rnd ideal_env]. assert (B : 0 < bad_y - bad_x < / 4) by (unfold bad_x, bad_y; rewrite Ev; lra).
  rewrite Rabs_left by lra. rewrite Rmin_left by lra. rewrite Rmax_right by lra. ring.
Qed.
Lemma bad_near : near 15 [bad_x] [bad_y] = false.
Proof.
  pose proof e_val as Ev. unfold near, near1. cbn [combine forallb fst snd]. rewrite andb_true_r.
  assert (P15 : pow2R 15 = 32768) by (unfold pow2R; reflexivity).
  rewrite (coordR_unique 15 bad_x 0), (coordR_unique 15 bad_y 2); [reflexivity|unfold bad_y; lra| |unfold bad_x; rewrite Ev; lra|].
  - rewrite P15. unfold bad_y. cbn. lra.
  - rewrite P15. unfold bad_x. rewrite Ev. cbn. lra.
Qed.

(** The hypothesis ii_bits cannot be dropped: on this input, which satisfies everything else that C57 asks of an input, the correctly rounded logarithm of the sum W is 17
    although W < 2^17.  The two nodes 1 and 2 satisfy the edge rule both in exact arithmetic and in doubles, and no release build ever reports the edge. *)
Theorem C57_log_rounded_up_refuted :
  (good_log2 log2_double /\
   (forall w, In w bad_ws -> is_double w /\ b2 (-400) <= w <= b2 400) /\
   (forall w0, In w0 bad_ws -> (forall w, In w bad_ws -> w0 <= w) -> RN (RN (float_sum bad_ws / w0) / w0) < b2 31) /\
   List.Forall (fun p => length p = N.to_nat 1 /\ List.Forall (fun x => is_double x /\ 0 <= x < 1) p) bad_ps) /\
  float_edge 1 bad_ws bad_ps 1 2 /\
  (exists d, is_torus_dist (nth 1 bad_ps []) (nth 2 bad_ps []) d /\ d ^ 1 < nth 1 bad_ws 0 * nth 2 bad_ws 0 / sumR bad_ws) /\
  forall cfg pw rg seed omp_max team, ndebug cfg = true -> good_rng rg ->
    (1 <= N.of_nat omp_max <= 2 ^ 17)%N -> (1 <= team <= omp_max)%nat -> (seed < 0 \/ seed + Z.of_nat omp_max <= 2 ^ 31)%Z ->
    (exists o, girg_outcome (double_env log2_double pw) cfg rg bad_ws bad_ps AInf seed omp_max team o) /\
    forall o, girg_outcome (double_env log2_double pw) cfg rg bad_ws bad_ps AInf seed omp_max team o ->
      exists edges, o = Some edges /\ ~ In (1%nat, 2%nat) edges /\ ~ In (2%nat, 1%nat) edges.
Proof.
  pose proof e_val as Ev. assert (MIN : forall w0, In w0 bad_ws -> (forall w, In w bad_ws -> w0 <= w) -> w0 = 1).
  { intros w0 I0 M0. destruct (bad_doubles w0 I0) as [_ [H _]]. specialize (M0 1). cbn [In bad_ws] in M0. assert (w0 <= 1) by (apply M0; tauto). lra. }
  assert (WB : 65536 <= bad_W < 131072) by (unfold bad_W; rewrite Ev; lra).
  split; [split; [exact log2_double_good|split; [exact bad_range|split; [|exact bad_positions]]]|split; [exact bad_float_edge|split]].
  - intros w0 I0 M0. rewrite (MIN w0 I0 M0), bad_q. apply Rlt_trans with (b2 17); [change (b2 17) with 131072; lra|apply bpow_lt; lia].
  - exists (bad_y - bad_x). split; [exact bad_torus|]. cbn [nth bad_ws]. rewrite pow_1. exact bad_exact_edge.
  - intros cfg pw rg seed omp_max team REL GG HO HT HS. set (E := double_env log2_double pw).
    assert (HD : dim_ok 1) by (unfold dim_ok; lia). assert (I1 : In 1 bad_ws) by (cbn; tauto). assert (M1 : forall w, In w bad_ws -> 1 <= w) by (intros w Hw; apply (bad_doubles w Hw)).
    assert (QB : b2 (-400) <= RN (RN (float_sum bad_ws / 1) / 1) <= b2 30).
    { rewrite bad_q. split; [apply Rle_trans with (b2 0); [apply bpow_le; lia|change (b2 0) with 1; lra]|]. apply Rle_trans with (b2 17); [change (b2 17) with 131072; lra|apply bpow_le; lia]. }
    destruct (double_params log2_double pw 1 bad_ws 1 log2_double_good HD ltac:(discriminate) bad_range I1 M1 QB) as (P & NO & Pc & Pw0 & PW). fold E in NO.
    rewrite bad_q, bad_log in Pc. change 17 with (IZR 17) in Pc. rewrite Ztrunc_IZR in Pc.
    assert (SD : seeds_defined seed omp_max = true). { unfold seeds_defined. apply orb_true_iff. destruct HS; [left; now apply Z.ltb_lt|right; apply Z.ltb_lt; lia]. }
    pose proof (omp_nat _ HO) as [O1 O2]. assert (HL : length bad_ws = length bad_ps) by reflexivity. assert (Hn : (N.of_nat (length bad_ws) < 2 ^ 31)%N) by (cbn; lia).
    assert (VP : List.Forall (valid_pos E 1) bad_ps).
    { eapply List.Forall_impl; [|exact bad_positions]. intros p [H1 H2]. split; [exact H1|]. eapply List.Forall_impl; [|exact H2]. intros x [Dx Hx]. split; [exact Hx|]. now apply RN_id. }
    destruct (girg_ok E cfg 1 bad_ws bad_ps P (double_good log2_double pw) HD NO HL VP Hn AInf rg seed omp_max team GG O1 (double_fpl_ok log2_double pw 1 omp_max log2_double_good HD O2) HT SD) as [H1 (t & ord & TS & H2)].
    split; [exact H1|]. intros o Ho. destruct (H2 o Ho) as (rs & edges & _ & -> & SA & IL). exists edges. split; [reflexivity|].
    assert (LW : forall u, nth u bad_ws 0 = bad_w -> lay E bad_ws P u = 0%nat).
    { intros u Hu. unfold lay, wt. rewrite Hu, Pw0. unfold layer_index, weight_to_layer. cbn [flog2 rnd double_env E]. unfold Rdiv. rewrite Rinv_1, Rmult_1_r, (RN_id _ w_double).
      pose proof bad_lay_w as [B0 B1]. assert (Z0 : Ztrunc (log2_double bad_w) = 0%Z). { rewrite Ztrunc_floor by exact B0. apply Zfloor_imp. cbn. lra. }
      unfold double_to_int. rewrite Z0. reflexivity. }
    assert (NC : forall u v, (u, v) = (1%nat, 2%nat) \/ (u, v) = (2%nat, 1%nat) -> ~ In (u, v) (flat_map pairs_of rs)).
    { intros u v Huv H. apply (Permutation_in _ (sa_perm _ _ _ _ _ _ _ _ _ _ _ SA)) in H. apply in_flat_map in H as (x & Hx & H). unfold full_plan in Hx. apply filter_In in Hx as [Hx K]. rewrite keep_release in K by exact REL.
      pose proof (compared_close E cfg 1 bad_ws bad_ps P HD NO HL VP Hn t ord TS x u v Hx H K) as N. rewrite Pc in N.
      destruct Huv as [Huv|Huv]; injection Huv as -> ->; rewrite !LW in N by reflexivity; unfold pos in N; cbn [nth bad_ps] in N; change (base_level 1 17 0 0) with 15%N in N; [|rewrite near_sym in N]; rewrite bad_near in N; discriminate. }
    assert (EP : forall u v, In (u, v) edges -> In (u, v) (flat_map pairs_of rs)).
    { intros u v H. apply (edges_In rs edges _ IL) in H. apply (le_count_incl _ _ _ (sa_le _ _ _ _ _ _ _ _ _ _ _ SA)) in H. exact H. }
    split; intros H; apply EP in H; revert H; apply NC; tauto.
Qed.
Print Assumptions C57_log_rounded_up_refuted.
