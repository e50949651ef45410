(** The numeric facts needed by the sampling step, for exact real arithmetic. *)
From Coq Require Import Arith NArith ZArith List Bool Reals Lia Lra.
From Flocq Require Import Core.
From Verif Require Import Base Sched Bits_Model Bits_Proofs Coord_Model Coord_Proofs Coord_Geo
  Tree_Model Cover Tree_Proofs Tree_Build Tree_Plan.
Import ListNotations.
Local Open Scope R_scope.

Notation b2 := (bpow radix2).
Lemma ln2_pos : 0 < ln 2. Proof. rewrite <- ln_1. apply ln_increasing; lra. Qed.
Lemma ln_b2 z : ln (b2 z) = IZR z * ln 2.
Proof. rewrite bpow_exp. cbn [radix_val radix2]. rewrite ln_exp. reflexivity. Qed.
Lemma log2R_b2 z : log2R (b2 z) = IZR z.
Proof. unfold log2R. rewrite ln_b2. field. pose proof ln2_pos. lra. Qed.
Lemma log2R_lt x y : 0 < x -> x < y -> log2R x < log2R y.
Proof.
  intros Hx Hy. unfold log2R. pose proof ln2_pos. pose proof (ln_increasing x y Hx Hy).
  apply Rmult_lt_compat_r; [now apply Rinv_0_lt_compat|assumption].
Qed.
Lemma log2R_le x y : 0 < x -> x <= y -> log2R x <= log2R y.
Proof. intros Hx [H| ->]; [left; now apply log2R_lt|right; reflexivity]. Qed.
Lemma log2R_lt_iff x z : 0 < x -> (log2R x < IZR z <-> x < b2 z).
Proof.
  intros Hx. rewrite <- log2R_b2. split; intros H.
  - destruct (Rlt_dec x (b2 z)); auto. pose proof (log2R_le (b2 z) x (bpow_gt_0 _ _)). lra.
  - now apply log2R_lt.
Qed.
Lemma log2R_ge_iff x z : 0 < x -> (IZR z <= log2R x <-> b2 z <= x).
Proof.
  intros Hx. destruct (log2R_lt_iff x z Hx) as [H1 H2]. split; intros H; apply Rnot_lt_le; intros C.
  - apply H2 in C. lra.
  - apply H1 in C. lra.
Qed.
Lemma pow2R_b2 k : pow2R k = b2 (Z.of_N k).
Proof. unfold pow2R. rewrite N2Z.inj_pow. change (Z.of_N 2) with (radix_val radix2). now rewrite IZR_Zpower by lia. Qed.

(** truncation of a value whose floor is known to be non-negative *)
Lemma trunc_ge0 x z : (0 <= z)%Z -> IZR z <= x < IZR (z + 1) -> Ztrunc x = z.
Proof. intros Hz [H1 H2]. rewrite Ztrunc_floor by (apply IZR_le in Hz; cbn in Hz; lra). now apply Zfloor_imp. Qed.

(** ** minimum, maximum and sum of a list of doubles *)
Lemma fold_min_le l : forall a, fold_left Rmin l a <= a /\ forall x, In x l -> fold_left Rmin l a <= x.
Proof.
  induction l as [|y l IH]; intros a; cbn [fold_left]; [split; [lra|intros x []]|]. destruct (IH (Rmin a y)) as [H1 H2].
  split; [pose proof (Rmin_l a y); lra|]. intros x [<-|Hx]; [pose proof (Rmin_r a y); lra|auto].
Qed.
Lemma fold_min_In l : forall a, fold_left Rmin l a = a \/ In (fold_left Rmin l a) l.
Proof.
  induction l as [|y l IH]; intros a; cbn [fold_left]; auto. destruct (IH (Rmin a y)) as [H|H]; [|right; now right].
  rewrite H. unfold Rmin. destruct (Rle_dec a y); auto. right. now left.
Qed.
Lemma fold_max_ge l : forall a, a <= fold_left Rmax l a /\ forall x, In x l -> x <= fold_left Rmax l a.
Proof.
  induction l as [|y l IH]; intros a; cbn [fold_left]; [split; [lra|intros x []]|]. destruct (IH (Rmax a y)) as [H1 H2].
  split; [pose proof (Rmax_l a y); lra|]. intros x [<-|Hx]; [pose proof (Rmax_r a y); lra|auto].
Qed.
Lemma fold_max_In l : forall a, fold_left Rmax l a = a \/ In (fold_left Rmax l a) l.
Proof.
  induction l as [|y l IH]; intros a; cbn [fold_left]; auto. destruct (IH (Rmax a y)) as [H|H]; [|right; now right].
  rewrite H. unfold Rmax. destruct (Rle_dec a y); auto. right. now left.
Qed.
Lemma min_elem_spec ws : ws <> [] -> exists m, min_elem ws = Some m /\ In m ws /\ forall x, In x ws -> m <= x.
Proof.
  destruct ws as [|w ws]; [congruence|intros _]. cbn [min_elem]. eexists. split; [reflexivity|]. destruct (fold_min_le ws w) as [H1 H2]. split.
  - destruct (fold_min_In ws w) as [H|H]; [rewrite H; now left|now right].
  - intros x [<-|Hx]; auto.
Qed.
Lemma max_elem_spec ws : ws <> [] -> exists m, max_elem ws = Some m /\ In m ws /\ forall x, In x ws -> x <= m.
Proof.
  destruct ws as [|w ws]; [congruence|intros _]. cbn [max_elem]. eexists. split; [reflexivity|]. destruct (fold_max_ge ws w) as [H1 H2]. split.
  - destruct (fold_max_In ws w) as [H|H]; [rewrite H; now left|now right].
  - intros x [<-|Hx]; auto.
Qed.
(** the exact sum *)
Definition sumR (ws : list R) : R := fold_right Rplus 0 ws.
Lemma sum_elems_ideal ws : sum_elems ideal_env ws = sumR ws.
Proof.
  unfold sum_elems, sumR. cbn [rnd ideal_env]. enough (H : forall s, fold_left (fun s w => s + w) ws s = s + fold_right Rplus 0 ws) by (rewrite H; lra).
  induction ws as [|w ws IH]; intros s; cbn [fold_left fold_right]; [lra|]. rewrite IH. lra.
Qed.
Lemma sumR_ge ws x : (forall w, In w ws -> 0 < w) -> In x ws -> x <= sumR ws.
Proof.
  intros Hp Hx. assert (H0 : forall l, (forall w, In w l -> 0 < w) -> 0 <= sumR l).
  { induction l as [|w l IH]; intros H; cbn; [lra|]. specialize (IH ltac:(intros; apply H; now right)). specialize (H w (or_introl eq_refl)). unfold sumR in IH. lra. }
  induction ws as [|w ws IH]; [destruct Hx|]. cbn [sumR fold_right]. fold (sumR ws).
  assert (Hp' : forall y, In y ws -> 0 < y) by (intros; apply Hp; now right).
  specialize (H0 ws Hp'). pose proof (Hp w (or_introl eq_refl)). destruct Hx as [<-|Hx]; [lra|]. specialize (IH Hp' Hx). lra.
Qed.

(** ** what the theorems require of the weights *)
(** the weights are positive and in the range of double, and W / w_min^2 < 2^31 *)
Record weights_ok (ws : list R) : Prop := {
  wo_ne : ws <> [];
  wo_range : forall w, In w ws -> b2 (-1100) <= w <= b2 1100;
  wo_bits : forall w, In w ws -> sumR ws < b2 31 * (w * w) }.

Lemma weights_pos ws w : weights_ok ws -> In w ws -> 0 < w.
Proof. intros H Hw. destruct (wo_range _ H w Hw). pose proof (bpow_gt_0 radix2 (-1100)). lra. Qed.

Lemma IZR_range z x y k m : (IZR z <= x) -> x < IZR y -> (k <= z)%Z -> (y <= m)%Z -> (k <= Ztrunc x <= m)%Z.
Proof.
  intros H1 H2 Hk Hm. split.
  - rewrite <- (Ztrunc_IZR k). apply Ztrunc_le. apply IZR_le in Hk. lra.
  - rewrite <- (Ztrunc_IZR m). apply Ztrunc_le. apply IZR_le in Hm. lra.
Qed.

(** the parameters of the tree, in exact arithmetic *)
Record ideal_params (ws : list R) (P : tparams) : Prop := {
  ip_W : p_W P = sumR ws;
  ip_Wpos : 0 < p_W P;
  ip_min : In (p_w0 P) ws /\ forall w, In w ws -> p_w0 P <= w;
  ip_pos : 0 < p_w0 P;
  ip_layer : forall w i, In w ws -> layer_index ideal_env (p_w0 P) w = Some i <-> b2 (Z.of_nat i) * p_w0 P <= w < b2 (Z.of_nat i + 1) * p_w0 P;
  ip_c : (1 <= p_c P)%Z -> b2 (p_c P) * (p_w0 P * p_w0 P) <= p_W P;
  ip_cu : p_W P < b2 (Z.max (p_c P) 0 + 1) * (p_w0 P * p_w0 P);
  ip_far : far_ok ideal_env ws P }.

Theorem ideal_num_ok D ws : dim_ok D -> weights_ok ws -> exists P, num_ok ideal_env D ws P /\ ideal_params ws P.
Proof.
  intros HD HW. pose proof (wo_ne _ HW) as Hne.
  destruct (min_elem_spec ws Hne) as (w0 & E0 & I0 & M0). destruct (max_elem_spec ws Hne) as (wn & En & In' & Mn).
  assert (Hpos : forall w, In w ws -> 0 < w) by (intros w; now apply weights_pos).
  pose proof (Hpos w0 I0) as P0. pose proof (Hpos wn In') as Pn.
  set (W := sumR ws). assert (HWn : wn <= W) by (apply sumR_ge; auto). assert (HW0 : w0 <= W) by (apply sumR_ge; auto).
  assert (PW : 0 < W) by lra.
  set (q := W / w0 / w0).
  assert (Pq : 0 < q). { unfold q. repeat (apply Rdiv_lt_0_compat; auto). }
  assert (Hq31 : q < b2 31).
  { unfold q. apply Rmult_lt_reg_r with (w0 * w0); [nra|]. pose proof (wo_bits _ HW w0 I0) as H. fold W in H.
    replace (W / w0 / w0 * (w0 * w0)) with W by (field; lra). exact H. }
  assert (Hqlo : b2 (-1100) <= q).
  { unfold q. apply Rle_trans with (w0 / w0 / w0).
    - replace (w0 / w0 / w0) with (/ w0) by (field; lra). replace (-1100)%Z with (- (1100))%Z by lia. rewrite bpow_opp.
      apply Rinv_le_contravar; auto. apply (wo_range _ HW); auto.
    - unfold Rdiv. repeat apply Rmult_le_compat_r; try (left; now apply Rinv_0_lt_compat). exact HW0. }
  assert (Lq1 : log2R q < IZR 31) by (now apply log2R_lt_iff). assert (Lq2 : IZR (-1100) <= log2R q) by (now apply log2R_ge_iff).
  set (c := Ztrunc (log2R q)).
  assert (Hcb : (-1100 <= c <= 30)%Z).
  { split; [rewrite <- (Ztrunc_IZR (-1100)); now apply Ztrunc_le|]. 
    destruct (Rle_dec 0 (log2R q)) as [H|H].
    - unfold c. rewrite Ztrunc_floor by exact H. assert (Zfloor (log2R q) < 31)%Z; [|lia]. apply lt_IZR. pose proof (Zfloor_lb (log2R q)). lra.
    - assert (c <= 0)%Z; [|lia]. unfold c. rewrite <- (Ztrunc_IZR 0). apply Ztrunc_le. cbn. lra. }
  assert (Hcq : (1 <= c)%Z -> b2 c <= q).
  { intros Hc. apply log2R_ge_iff; auto. unfold c in *. destruct (Rle_dec 0 (log2R q)) as [H|H].
    - rewrite Ztrunc_floor by exact H. apply Zfloor_lb.
    - exfalso. assert (Ztrunc (log2R q) <= 0)%Z; [|lia]. rewrite <- (Ztrunc_IZR 0). apply Ztrunc_le. cbn. lra. }
  assert (Hcu : q < b2 (Z.max c 0 + 1)).
  { apply log2R_lt_iff; auto. destruct (Rle_dec 0 (log2R q)) as [H|H].
    - assert (Ec : c = Zfloor (log2R q)) by (unfold c; now rewrite Ztrunc_floor). assert (0 <= c)%Z by (rewrite Ec; now apply Zfloor_lub).
      rewrite Z.max_l by lia. rewrite Ec, plus_IZR. apply Zfloor_ub.
    - apply Rlt_le_trans with 0; [lra|]. apply IZR_le. lia. }
  (* layers *)
  assert (Hlog : forall w, In w ws -> 0 <= log2R (w / w0) < IZR 2201 /\ log2R (w / w0) <= log2R (wn / w0)).
  { intros w Hw. specialize (Hpos w Hw). assert (0 < w / w0) by (now apply Rdiv_lt_0_compat). repeat split.
    - apply (log2R_ge_iff (w / w0) 0); auto. cbn. apply Rmult_le_reg_r with w0; auto. replace (w / w0 * w0) with w by (field; lra). rewrite Rmult_1_l. auto.
    - apply log2R_lt_iff; auto. apply Rmult_lt_reg_r with w0; auto. replace (w / w0 * w0) with w by (field; lra).
      destruct (wo_range _ HW w Hw) as [_ H1]. destruct (wo_range _ HW w0 I0) as [H2 _].
      apply Rle_lt_trans with (b2 1100); auto. apply Rlt_le_trans with (b2 2201 * b2 (-1100)).
      + rewrite <- bpow_plus. apply bpow_lt. lia.
      + apply Rmult_le_compat_l; auto. apply bpow_ge_0.
    - apply log2R_le; auto. unfold Rdiv. apply Rmult_le_compat_r; [left; now apply Rinv_0_lt_compat|auto]. }
  set (m := Zfloor (log2R (wn / w0))).
  assert (Hm : (0 <= m < 2201)%Z).
  { destruct (Hlog wn In') as [[H1 H2] _]. split; [apply Zfloor_lub; exact H1|]. apply lt_IZR. pose proof (Zfloor_lb (log2R (wn / w0))). unfold m. lra. }
  exists {| p_w0 := w0; p_wn := wn; p_W := W; p_c := c; p_layers := N.to_nat (Z.to_N m + 1); p_levels := base_level D c 0 0 + 1 |}.
  assert (Hli : forall w, In w ws -> layer_index ideal_env w0 w = Some (Z.to_nat (Zfloor (log2R (w / w0))))).
  { intros w Hw. destruct (Hlog w Hw) as [[H1 H2] _]. unfold layer_index, weight_to_layer. cbn [flog2 rnd ideal_env].
    unfold double_to_int. rewrite Ztrunc_floor by exact H1. assert (0 <= Zfloor (log2R (w / w0)))%Z by (apply Zfloor_lub; exact H1).
    assert (Zfloor (log2R (w / w0)) < 2201)%Z. { apply lt_IZR. pose proof (Zfloor_lb (log2R (w / w0))). lra. }
    destruct ((- 2 ^ 31 <=? _) && _)%Z eqn:Eb; [|exfalso; apply andb_false_iff in Eb as [Eb|Eb]; [apply Z.leb_gt in Eb|apply Z.ltb_ge in Eb]; lia].
    cbn [obind]. destruct (Z.ltb_spec (Zfloor (log2R (w / w0))) 0); [lia|reflexivity]. }
  assert (Hbr : forall w z, In w ws -> Zfloor (log2R (w / w0)) = z <-> b2 z * w0 <= w < b2 (z + 1) * w0).
  { intros w z Hw. pose proof (Hpos w Hw) as Pw. assert (Pq' : 0 < w / w0) by (now apply Rdiv_lt_0_compat).
    assert (Hx : w / w0 * w0 = w) by (field; lra). split.
    - intros <-. split.
      + rewrite <- Hx at 2. apply Rmult_le_compat_r; [lra|]. apply log2R_ge_iff; auto. apply Zfloor_lb.
      + rewrite <- Hx at 1. apply Rmult_lt_compat_r; [lra|]. apply log2R_lt_iff; auto. rewrite plus_IZR. apply Zfloor_ub.
    - intros [H1 H2]. apply Zfloor_imp. split.
      + apply log2R_ge_iff; auto. apply Rmult_le_reg_r with w0; [lra|]. now rewrite Hx.
      + apply log2R_lt_iff; auto. apply Rmult_lt_reg_r with w0; [lra|]. now rewrite Hx. }
  split; [|constructor; unfold far_ok; cbn [p_c p_layers p_w0 p_W]; auto].
  2:{ intros w i Hw. rewrite Hli by exact Hw. destruct (Hlog w Hw) as [[H1 _] _].
      assert (Hz0 : (0 <= Zfloor (log2R (w / w0)))%Z) by (apply Zfloor_lub; exact H1). rewrite <- Hbr by exact Hw. split; intros H.
      - injection H as <-. now rewrite Z2Nat.id.
      - f_equal. lia. }
  2:{ intros Hc. specialize (Hcq Hc). apply Rle_trans with (q * (w0 * w0)); [apply Rmult_le_compat_r; [nra|exact Hcq]|]. unfold q. right. field. lra. }
  2:{ apply Rle_lt_trans with (q * (w0 * w0)); [unfold q; right; field; lra|]. apply Rmult_lt_compat_r; [nra|exact Hcu]. }
  1: constructor; cbn [p_c p_layers p_w0 p_W].
  - unfold tree_params. rewrite E0. cbn [obind]. rewrite En. cbn [obind]. rewrite sum_elems_ideal. fold W. cbn [flog2 rnd ideal_env]. fold q.
    unfold double_to_int at 1. fold c.
    destruct ((- 2 ^ 31 <=? c) && (c <? 2 ^ 31))%Z eqn:Eb; [|exfalso; apply andb_false_iff in Eb as [Eb|Eb]; [apply Z.leb_gt in Eb|apply Z.ltb_ge in Eb]; lia].
    cbn [obind]. fold m. unfold double_to_u32. rewrite Ztrunc_IZR.
    destruct ((0 <=? m) && (m <? 2 ^ 32))%Z eqn:Em; [|exfalso; apply andb_false_iff in Em as [Em|Em]; [apply Z.leb_gt in Em|apply Z.ltb_ge in Em]; lia].
    cbn [obind]. rewrite w32_small by (change (2 ^ 32)%N with 4294967296%N; lia). reflexivity.
  - lia.
  - lia.
  - intros w Hw. eexists. split; [apply Hli; exact Hw|]. destruct (Hlog w Hw) as [[H1 _] H2].
    assert (Zfloor (log2R (w / w0)) <= m)%Z by (now apply Zfloor_le). assert (0 <= Zfloor (log2R (w / w0)))%Z by (apply Zfloor_lub; exact H1). lia.
  - intros w w' i j k Hw Hw' Hi Hj Hijk. rewrite Hli in Hi, Hj by assumption. injection Hi as <-. injection Hj as <-.
    set (zi := Zfloor (log2R (w / w0))) in *. set (zj := Zfloor (log2R (w' / w0))) in *.
    assert (Hz : forall x, In x ws -> (0 <= Zfloor (log2R (x / w0)))%Z /\ x < b2 (Zfloor (log2R (x / w0)) + 1) * w0).
    { intros x Hx. destruct (Hlog x Hx) as [[H1 _] _]. split; [apply Zfloor_lub; exact H1|].
      apply Rmult_lt_reg_r with (/ w0); [now apply Rinv_0_lt_compat|]. replace (b2 (Zfloor (log2R (x / w0)) + 1) * w0 * / w0) with (b2 (Zfloor (log2R (x / w0)) + 1)) by (field; lra).
      apply (log2R_lt_iff (x / w0)); [apply Rdiv_lt_0_compat; auto|]. rewrite plus_IZR. apply Zfloor_ub. }
    destruct (Hz w Hw) as [Zi Bi]. destruct (Hz w' Hw') as [Zj Bj]. fold zi in Zi, Bi. fold zj in Zj, Bj.
    rewrite !Z2Nat.id in Hijk by assumption. cbn [rnd ideal_env]. rewrite pow2R_b2.
    pose proof (Hpos w Hw). pose proof (Hpos w' Hw'). specialize (Hcq ltac:(lia)).
    assert (HWc : b2 c * (w0 * w0) <= W).
    { apply Rle_trans with (q * (w0 * w0)); [apply Rmult_le_compat_r; [nra|exact Hcq]|]. unfold q. right. field. lra. }
    apply Rmult_le_reg_r with (W * b2 (Z.of_N k)); [apply Rmult_lt_0_compat; [exact PW|apply bpow_gt_0]|].
    replace (w * w' / W * (W * b2 (Z.of_N k))) with (w * w' * b2 (Z.of_N k)) by (field; lra).
    replace (1 / b2 (Z.of_N k) * (W * b2 (Z.of_N k))) with W by (field; pose proof (bpow_gt_0 radix2 (Z.of_N k)); lra).
    eapply Rle_trans; [|exact HWc].
    apply Rle_trans with (b2 (zi + 1) * w0 * (b2 (zj + 1) * w0) * b2 (Z.of_N k)).
    + apply Rmult_le_compat_r; [apply bpow_ge_0|]. apply Rmult_le_compat; lra.
    + replace (b2 (zi + 1) * w0 * (b2 (zj + 1) * w0) * b2 (Z.of_N k)) with (b2 (zi + 1) * b2 (zj + 1) * b2 (Z.of_N k) * (w0 * w0)) by ring.
      rewrite <- !bpow_plus. apply Rmult_le_compat_r; [nra|]. apply bpow_le. lia.
Qed.

Theorem ideal_fpl_ok D T : dim_ok D -> (1 <= T <= N.to_nat (2 ^ 17))%nat -> fpl_ok D ideal_env T.
Proof.
  intros HD HT. unfold fpl_ok. destruct (Nat.eq_dec T 1) as [->|Hne]; [now left|]. right.
  assert (HTN : (2 <= N.of_nat T <= 2 ^ 17)%N) by lia. change (2 ^ 17)%N with 131072%N in HTN.
  unfold first_parallel_level. cbn [rnd flog2 ideal_env].
  assert (HI : 2 <= INR T <= 131072).
  { rewrite INR_IZR_INZ. split; apply IZR_le; lia. }
  assert (L1 : IZR 3 <= log2R (4 * INR T)). { apply log2R_ge_iff; [lra|]. change (b2 3) with 8. lra. }
  assert (L2 : log2R (4 * INR T) <= IZR 19). { rewrite <- (log2R_b2 19). apply log2R_le; [lra|]. change (b2 19) with 524288. lra. }
  assert (HDr : 1 <= IZR (Z.of_N D) <= 5). { unfold dim_ok in HD. split; apply IZR_le; lia. }
  set (x := log2R (4 * INR T) / IZR (Z.of_N D)).
  assert (Hx : x * IZR (Z.of_N D) = log2R (4 * INR T)) by (unfold x; field; lra).
  assert (X0 : 0 < x) by nra. assert (X19 : x <= 19) by nra.
  pose proof (Zceil_ub x) as C1. assert (C2 : IZR (Zceil x) < x + 1).
  { pose proof (Zfloor_lb (- x)) as F. unfold Zceil. rewrite opp_IZR. pose proof (Zfloor_ub (- x)). lra. }
  assert (Z1 : (0 < Zceil x)%Z) by (apply lt_IZR; lra).
  assert (Z2 : (Zceil x < 21)%Z) by (apply lt_IZR; lra).
  assert (Z3 : (Z.of_N D * Zceil x < 25)%Z). { apply lt_IZR. rewrite mult_IZR. nra. }
  exists (Z.to_N (Zceil x)). split; [|lia]. unfold double_to_u32. rewrite Ztrunc_IZR.
  destruct ((0 <=? Zceil x) && (Zceil x <? 2 ^ 32))%Z eqn:Eb; [reflexivity|].
  exfalso. apply andb_false_iff in Eb as [Eb|Eb]; [apply Z.leb_gt in Eb|apply Z.ltb_ge in Eb]; lia.
Qed.
