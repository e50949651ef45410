(** Property C73: the law of the edges for finite alpha, computed in IEEE-754 doubles with ideal randomness (Prob_Spec.v: every thread draws from an independent
    sequence of independent uniform numbers; the draws themselves are real numbers). *)
From Coq Require Import Arith NArith ZArith List Bool Reals Lra Lia Permutation.
From Coquelicot Require Import Coquelicot.
From Flocq Require Import Core.
From Verif Require Import Base Sched Bits_Proofs Coord_Model Coord_Proofs Coord_Geo Coord_Torus Prop_Coord Tree_Model Tree_Proofs Tree_Build Tree_Plan Tree_Run Girg_Model Girg_Proofs
  Girg_Num Prop_Girg Prob_Spec Prob Prob_Events Prob_Girg Prob_Law Prop_Prob ProbE_Girg ProbE_Law Ieee Prop_Ieee.
Import ListNotations.
Local Open Scope R_scope.

(** ** Specification *)
(** std::pow on non-negative bases with a non-negative exponent: non-negative, monotone in the base, and 1 at base 1 *)
Definition good_pow (pw : R -> R -> R) : Prop := forall a, 0 <= a -> pw 1 a = 1 /\ forall x y, 0 <= x -> x <= y -> 0 <= pw x a <= pw y a.
(** the edge probability min(1, (w_u w_v / W / dist^D)^alpha) with every operation rounded; 1 if the power of the distance is 0 *)
Definition float_probability (pw : R -> R -> R) (D : N) (ws : list R) (ps : list (list R)) (alpha : R) (u v : nat) (p : R) : Prop :=
  exists d, is_float_dist (nth u ps []) (nth v ps []) d /\
    (float_pow D d = 0 -> p = 1) /\
    (0 < float_pow D d -> p = Rmin 1 (pw (RN (RN (RN (nth u ws 0 * nth v ws 0) / float_sum ws) / float_pow D d)) alpha)).
(** q is that probability, except that it may be 0 if the probability is below 10^-6 *)
Definition close_float_probability (pw : R -> R -> R) (D : N) (ws : list R) (ps : list (list R)) (alpha : R) (u v : nat) (q : R) : Prop :=
  exists p, float_probability pw D ws ps alpha u v p /\ 0 <= p <= 1 /\ (q = p \/ (q = 0 /\ p < 1 / 1000000)).
(** what a caller may observe: [out] gives a possible result for all values of the draws (whatever the schedule of the threads) *)
Definition possible_double_results (f : R -> R) (pw : R -> R -> R) (cfg : config) (ws : list R) (ps : list (list R)) (a : R) (seed : Z) (omp_max team : nat) (out : list tape -> option (list (nat * nat))) : Prop :=
  forall tapes, length tapes = omp_max -> girg_outcome (double_env f pw) cfg (tape_rng (seeded seed tapes)) ws ps (AFin a) seed omp_max team (out tapes).

(** ** Proofs *)
Lemma RN_scale x k : b2 (-1022) <= x -> (0 <= k)%Z -> RN (x * b2 k) = RN x * b2 k.
Proof.
  intros Hx Hk. assert (P0 : 0 < b2 (-1022)) by apply bpow_gt_0.
  assert (Hx' : b2 (-1022) <= x * b2 k). { apply Rle_trans with (x * 1); [lra|]. apply Rmult_le_compat_l; [lra|]. apply (bpow_le radix2 0 k Hk). }
  unfold RN, fexp64. rewrite !round_FLT_FLX by (rewrite Rabs_pos_eq by lra; assumption).
  unfold round. assert (Hc : cexp radix2 (FLX_exp 53) (x * b2 k) = (cexp radix2 (FLX_exp 53) x + k)%Z).
  { unfold cexp. rewrite mag_mult_bpow by lra. unfold FLX_exp. lia. }
  unfold scaled_mantissa. rewrite Hc. unfold F2R. cbn [Fnum Fexp]. rewrite bpow_plus. replace (x * b2 k * bpow radix2 (- (cexp radix2 (FLX_exp 53) x + k))) with (x * bpow radix2 (- cexp radix2 (FLX_exp 53) x)).
  - ring.
  - rewrite Rmult_assoc, <- bpow_plus. do 2 f_equal. lia.
Qed.
Section Far.
  Variables (f : R -> R) (pw : R -> R -> R) (D : N) (ws : list R) (P : tparams).
  Notation E := (double_env f pw).
  Hypotheses (GL : good_log2 f) (HW : double_weights f pw ws) (Hn : (N.of_nat (length ws) < 2 ^ 31)%N) (NO : num_ok E D ws P).
  Lemma params_w0 : In (p_w0 P) ws /\ (forall w, In w ws -> p_w0 P <= w) /\ p_W P = float_sum ws.
  Proof.
    pose proof (no_params _ _ _ _ NO) as H. unfold tree_params in H. destruct (min_elem_spec ws (dw_ne _ _ _ HW)) as (w0 & E0 & I0 & M0). rewrite E0 in H. cbn [obind] in H.
    destruct (max_elem ws); [|discriminate]. cbn [obind] in H. destruct (double_to_int _); [|discriminate]. cbn [obind] in H. destruct (double_to_u32 _); [|discriminate]. cbn [obind] in H.
    injection H as <-. cbn [p_w0 p_W]. split; [exact I0|]. split; [exact M0|reflexivity].
  Qed.
  Lemma w_range w : In w ws -> is_double w /\ 0 < b2 (-400) <= w /\ w <= b2 400.
  Proof. intros H. destruct (dw_double _ _ _ HW w H). pose proof (bpow_gt_0 radix2 (-400)). repeat split; tauto || lra. Qed.
  Lemma double_wp w w' : In w ws -> In w' ws -> 0 < rnd E (rnd E (w * w') / p_W P).
  Proof.
    intros Hw Hw'. destruct params_w0 as (_ & _ & ->). cbn [rnd double_env].
    destruct (wterm_err f pw ws HW Hn w w' Hw Hw') as (Q & L & _). change (sum_elems E ws) with (float_sum ws) in L.
    pose proof (W_bounds f pw ws HW Hn) as (_ & _ & _ & N2). pose proof u53_pos as U0. assert (U1 : u53 <= / 1024) by (change (/ 1024) with (b2 (-10)); apply bpow_le; lia).
    pose proof (bpow_gt_0 radix2 (-33)). assert (0 < (1 + u53) ^ length ws) by (apply pow_lt; lra).
    apply Rnot_le_lt. intros C. assert (RN (RN (w * w') / float_sum ws) * (1 + u53) ^ length ws <= 0) by nra.
    assert (0 < w * w' / sumR ws * ((1 - u53) * (1 - u53))) by (apply Rmult_lt_0_compat; [lra|apply Rmult_lt_0_compat; lra]). lra.
  Qed.
  (** the layer index bounds the weight *)
  Lemma layer_weight w i : In w ws -> layer_index E (p_w0 P) w = Some i -> w < p_w0 P * b2 (Z.of_nat i + 1).
  Proof.
    intros Hw Hi. destruct params_w0 as (I0 & M0 & _). set (w0 := p_w0 P) in *. destruct (w_range w0 I0) as (_ & [_ L0] & U0). destruct (w_range w Hw) as (_ & [B0 Lw] & Uw).
    unfold layer_index, weight_to_layer in Hi. cbn [flog2 rnd double_env] in Hi. destruct (double_to_int (f (RN (w / w0)))) as [z|] eqn:Ez; [|discriminate]. cbn [obind] in Hi.
    destruct (Z.ltb_spec z 0) as [|Hz0]; [discriminate|]. injection Hi as <-. rewrite Z2Nat.id by lia.
    unfold double_to_int in Ez. destruct ((- 2 ^ 31 <=? _) && _)%Z; [|discriminate]. injection Ez as Ez.
    assert (Q1 : 1 <= RN (w / w0)).
    { rewrite <- (RN_id 1) by (apply (b2_double 0); lia). apply RN_le. apply Rmult_le_reg_r with w0; [lra|]. replace (w / w0 * w0) with w by (field; lra). rewrite Rmult_1_l. now apply M0. }
    assert (F0 : 0 <= f (RN (w / w0))) by (change 0 with (IZR 0); rewrite <- (gl_pow2 f GL 0) by lia; apply (gl_mono f GL); change (b2 0) with 1; lra).
    assert (Hlt : RN (w / w0) < b2 (z + 1)).
    { apply Rnot_le_lt. intros C. assert (Hz : (z <= 799)%Z \/ (800 <= z)%Z) by lia. destruct Hz as [Hz|Hz].
      - assert (F1 : IZR (z + 1) <= f (RN (w / w0))). { rewrite <- (gl_pow2 f GL (z + 1)) by lia. apply (gl_mono f GL). split; [apply bpow_gt_0|exact C]. }
        pose proof (trunc_lt _ _ F0 Ez). lra.
      - assert (b2 801 <= b2 (z + 1)) by (apply bpow_le; lia). assert (RN (w / w0) <= b2 800).
        { apply RN_le_b2; [|lia]. apply Rmult_le_reg_r with w0; [lra|]. replace (w / w0 * w0) with w by (field; lra).
          apply Rle_trans with (b2 800 * b2 (-400)); [|apply Rmult_le_compat_l; [apply bpow_ge_0|lra]]. rewrite <- bpow_plus. change (800 + -400)%Z with 400%Z. lra. }
        assert (b2 800 < b2 801) by (apply bpow_lt; lia). lra. }
    apply RN_lt_double in Hlt; [|apply b2_double; lia]. apply (Rmult_lt_compat_r w0) in Hlt; [|lra]. replace (w / w0 * w0) with w in Hlt by (field; lra). lra.
  Qed.
  Lemma double_wb i j : (i < p_layers P)%nat -> (j < p_layers P)%nat -> (Z.of_nat i + Z.of_nat j + 2 <= p_c P)%Z ->
    exists wub, w_upper_bound E P i j = Some wub /\ forall w w', In w ws -> In w' ws -> layer_index E (p_w0 P) w = Some i -> layer_index E (p_w0 P) w' = Some j -> rnd E (rnd E (w * w') / p_W P) <= wub.
  Proof.
    intros _ _ Hij. pose proof (no_c _ _ _ _ NO) as Hc. destruct params_w0 as (I0 & M0 & EW). destruct (w_range _ I0) as (D0 & [B4 L0] & U0).
    unfold w_upper_bound. rewrite !shl1_i32_Some by lia. cbn [obind]. eexists. split; [reflexivity|]. intros w w' Hw Hw' Li Lj.
    pose proof (layer_weight w i Hw Li) as Ui. pose proof (layer_weight w' j Hw' Lj) as Uj. destruct (w_range w Hw) as (_ & [_ Lw] & _). destruct (w_range w' Hw') as (_ & [_ Lw'] & _).
    set (w0 := p_w0 P) in *. cbn [rnd double_env].
    assert (HZ : forall k, IZR (Z.of_N (2 ^ (N.of_nat k + 1))) = b2 (Z.of_nat k + 1)).
    { intros k. rewrite <- IZR_Zpower by lia. f_equal. rewrite N2Z.inj_pow. cbn [radix_val radix2]. f_equal. lia. }
    rewrite !HZ. assert (DS : forall x k, is_double x -> (0 <= k)%Z -> is_double (x * b2 k)) by (intros x k Dx Hk; rewrite <- (Z2N.id k Hk); now apply double_scale).
    rewrite (RN_id (w0 * b2 (Z.of_nat i + 1))) by (apply DS; [exact D0|lia]).
    rewrite (RN_id (RN _ * b2 (Z.of_nat j + 1))) by (apply DS; [apply RN_double|lia]).
    assert (W0 : 0 < p_W P). { rewrite EW. pose proof (fold_sum_ge ws 0 ltac:(lra) (generic_format_0 _ _) ltac:(intros x Hx; destruct (w_range x Hx) as (X1 & X2 & X3); split; [lra|exact X1])) as [_ S]. specialize (S w Hw). unfold float_sum. lra. }
    apply RN_le. unfold Rdiv. apply Rmult_le_compat_r; [left; now apply Rinv_0_lt_compat|].
    assert (NB : b2 (-1022) <= w0 * b2 (Z.of_nat i + 1) * w0).
    { apply Rle_trans with (b2 (-400) * 1 * b2 (-400)); [rewrite Rmult_1_r, <- bpow_plus; apply bpow_le; lia|]. assert (1 <= b2 (Z.of_nat i + 1)) by (apply (bpow_le radix2 0); lia).
      apply Rmult_le_compat; try lra. }
    rewrite <- RN_scale by (exact NB || lia). apply RN_le.
    replace (w0 * b2 (Z.of_nat i + 1) * w0 * b2 (Z.of_nat j + 1)) with ((w0 * b2 (Z.of_nat i + 1)) * (w0 * b2 (Z.of_nat j + 1))) by ring. apply Rmult_le_compat; lra.
  Qed.
End Far.

Lemma good_pow_at f pw a : good_pow pw -> 0 <= a -> pow_mono_at (double_env f pw) a.
Proof. intros HP Ha x y Hx Hy. now apply (HP a Ha). Qed.
Lemma pe_float_probability f pw D ws ps seed omp_max team cfg P a u v : ieee_input f D ws ps seed omp_max team -> p_W P = float_sum ws -> 0 <= a -> (u < length ws)%nat -> (v < length ws)%nat ->
  float_probability pw D ws ps a u v (ProbE_Girg.pe (double_env f pw) D ws ps cfg P a u v).
Proof.
  intros HI EW Ha Hu Hv. exists (coord_distance (double_env f pw) 0 (nth u ps []) (nth v ps [])). split; [now apply (dist_at HI pw)|].
  unfold ProbE_Girg.pe, ProbE_Girg.pnode, conn_prob, d_term, w_term. rewrite float_pow_eq by apply HI. cbn [rnd double_env weight Tree_Build.mk]. unfold wt. rewrite EW. unfold node_distance. cbn [coord Tree_Build.mk]. unfold pos.
  set (dd := float_pow D _). unfold xdiv. split.
  - intros ->. destruct (Req_EM_T 0 0) as [_|N0]; [|congruence]. cbn [xpow xmin1]. destruct (Rlt_dec 0 a); [reflexivity|]. destruct (Rlt_dec a 0); [lra|]. cbn [xmin1]. apply Rmin_left. lra.
  - intros Hd. destruct (Req_EM_T dd 0) as [Z|_]; [lra|]. cbn [xpow xmin1 fpow double_env rnd]. apply Rmin_comm.
Qed.

(** In doubles: the pairs are decided independently, each with its own probability q; q is the rounded edge probability, except for pairs with a probability below 10^-6,
    whose blocks the code may drop. *)
Theorem C73_law_in_doubles : forall f pw cfg D ws ps seed omp_max team a,
  good_log2 f -> good_pow pw -> ieee_input f D ws ps seed omp_max team -> (0 <= seed)%Z -> 0 <= a ->
  (exists out, possible_double_results f pw cfg ws ps a seed omp_max team out) /\
  exists q : nat -> nat -> R,
    (forall u v, (u < length ws)%nat -> (v < length ws)%nat -> u <> v -> close_float_probability pw D ws ps a u v (q u v)) /\
    forall out, possible_double_results f pw cfg ws ps a seed omp_max team out ->
      (* every product of functions of the single pairs has the product of the means as expected value *)
      (forall phi, expects_n omp_max (fun tapes => match out tapes with
           | Some edges => prodR (all_pairs (length ws)) (fun uv => phi (fst uv) (snd uv) (joinedb edges (fst uv) (snd uv)))
           | None => 0 end)
         (prodR (all_pairs (length ws)) (fun uv => q (fst uv) (snd uv) * phi (fst uv) (snd uv) true + (1 - q (fst uv) (snd uv)) * phi (fst uv) (snd uv) false))) /\
      (* the probability of each graph H *)
      (forall H, probability_n omp_max (fun tapes => is_graph (length ws) H (out tapes))
         (prodR (all_pairs (length ws)) (fun uv => if H (fst uv) (snd uv) then q (fst uv) (snd uv) else 1 - q (fst uv) (snd uv)))) /\
      (* the probability of each edge *)
      (forall u v, (u < v < length ws)%nat -> probability_n omp_max (fun tapes => has_edge u v (out tapes)) (q u v)).
Proof.
  intros f pw cfg D ws ps seed omp_max team a GL HPW HI Hs Ha. pose proof (ii_dim _ _ _ _ _ _ _ HI) as HD. pose proof (ii_weights f pw _ _ _ _ _ _ HI) as HW.
  pose proof (ii_n _ _ _ _ _ _ _ HI) as Hn. pose proof (ii_len _ _ _ _ _ _ _ HI) as HL. pose proof (ii_vp f pw _ _ _ _ _ _ HI) as VP. pose proof (double_good f pw) as GR.
  destruct (double_num_ok f pw D ws GL HD HW) as (P & NO & FO & EW). change (sum_elems (double_env f pw) ws) with (float_sum ws) in EW.
  assert (SD : seeds_defined seed omp_max = true).
  { unfold seeds_defined. apply orb_true_iff. destruct (ii_seed _ _ _ _ _ _ _ HI); [left; now apply Z.ltb_lt|right; apply Z.ltb_lt; lia]. }
  pose proof (omp_nat _ (ii_omp _ _ _ _ _ _ _ HI)) as [O1 O2]. pose proof (double_fpl_ok f pw D omp_max GL HD O2) as FP.
  destruct (build_ok (double_env f pw) cfg D ws ps P GR HD NO HL VP Hn omp_max O1) as (t & ord & TS & T1 & T2).
  pose proof (double_wb f pw D ws P GL HW Hn NO) as WB. pose proof (double_wp f pw D ws P HW Hn NO) as WP. pose proof (good_pow_at f pw a HPW Ha) as PM.
  split.
  - destruct (ProbE_Law.girg_runs (double_env f pw) D ws ps cfg P HD NO HL VP Hn t ord TS a seed omp_max team (ii_team _ _ _ _ _ _ _ HI) SD Hs T1 T2) as [out Hout]. exists out. intros tapes _. apply Hout.
  - exists (ProbE_Law.qpair (double_env f pw) D ws ps cfg P ord a). split.
    + intros u v Hu Hv Hne. exists (ProbE_Girg.pe (double_env f pw) D ws ps cfg P a u v). split; [now apply (pe_float_probability f pw D ws ps seed omp_max team)|]. split.
      * now apply ProbE_Girg.pe_range.
      * now apply (ProbE_Law.qpair_cases (double_env f pw) D ws ps cfg P GR HD NO HL VP Hn WB WP t ord TS a PM).
    + intros out Hout.
      pose proof (ProbE_Law.girg_law (double_env f pw) D ws ps cfg P GR HD NO HL VP Hn WB WP t ord TS a PM seed omp_max team FP (ii_team _ _ _ _ _ _ _ HI) SD Hs T1 T2 out Hout) as L.
      set (q := ProbE_Law.qpair _ _ _ _ _ _ _ _) in *. split; [exact L|]. split.
      * intros H. unfold probability_n. specialize (L (fun u v b => if Bool.eqb b (H u v) then 1 else 0)).
        replace (prodR _ _) with (prodR (all_pairs (length ws)) (fun uv => bern (fun u v b => if Bool.eqb b (H u v) then 1 else 0) (q (fst uv) (snd uv)) (fst uv) (snd uv))).
        { eapply expects_n_ext; [|exact L]. intros tapes Lt. cbn beta. unfold is_graph. destruct (out tapes); [|reflexivity]. now rewrite forallb_prod. }
        apply prodR_ext. intros [u v] _. unfold bern. cbn [fst snd]. destruct (H u v); cbn [Bool.eqb]; ring.
      * intros u v Huv. unfold probability_n. specialize (L (fun x y b => if (x =? u)%nat && (y =? v)%nat then (if b then 1 else 0) else 1)).
        replace (prodR _ _) with (q u v) in L.
        { eapply expects_n_ext; [|exact L]. intros tapes Lt. cbn beta. unfold has_edge. destruct (out tapes) as [edges|]; [|reflexivity].
          rewrite <- (prodR_one (length ws) u v (if joinedb edges u v then 1 else 0) Huv). apply prodR_ext. intros [x y] _. cbn [fst snd].
          destruct (Nat.eqb_spec x u) as [->|]; [|reflexivity]. destruct (Nat.eqb_spec y v) as [->|]; reflexivity. }
        rewrite <- (prodR_one (length ws) u v (q u v) Huv). apply prodR_ext. intros [x y] _. cbn [fst snd]. unfold bern.
        destruct (Nat.eqb_spec x u) as [->|]; cbn [andb]; [|ring]. destruct (Nat.eqb_spec y v) as [->|]; cbn [andb]; ring.
Qed.

(** How far the rounded probability is from the exact one: if pow has the relative error e0 and the absolute error eta, and the nodes are not closer than 2^-51, the
    probability lies between the exact probabilities for weights and distances changed by the rounding errors.  [eps n] = (n + 8) 2^-52 *)
Definition accurate_pow (pw : R -> R -> R) (e0 eta : R) : Prop :=
  forall x a, 0 < x -> 0 <= a -> (1 - e0) * Rpower x a - eta <= pw x a <= (1 + e0) * Rpower x a + eta.
Theorem C73_close_to_exact : forall f pw D ws ps seed omp_max team a e0 eta,
  good_pow pw -> accurate_pow pw e0 eta -> 0 <= e0 <= 1 -> ieee_input f D ws ps seed omp_max team -> 0 <= a ->
  forall u v d p, (u < length ws)%nat -> (v < length ws)%nat -> is_torus_dist (nth u ps []) (nth v ps []) d -> b2 (-51) <= d -> float_probability pw D ws ps a u v p ->
    let q := nth u ws 0 * nth v ws 0 / sumR ws in
    Rmin 1 ((1 - e0) * Rpower (q * (1 - 2 * eps (length ws)) / (d + b2 (-52)) ^ N.to_nat D) a - eta) <= p /\
    p <= Rmin 1 ((1 + e0) * Rpower (q * (1 + 2 * eps (length ws)) / (d - b2 (-52)) ^ N.to_nat D) a + eta).
Proof.
  intros f pw D ws ps seed omp_max team a e0 eta HPW HAC He HI Ha u v d p Hu Hv Hd Hd51 Hp q.
  pose proof (dist_at HI pw u v Hu Hv) as FD. set (d' := coord_distance (double_env f pw) 0 (nth u ps []) (nth v ps [])) in *.
  destruct (pos_at HI u Hu) as [L1 F1]. destruct (pos_at HI v Hv) as [L2 F2].
  assert (ED : Rabs (d' - d) <= b2 (-52)).
  { rewrite (torus_dist_unique _ _ _ _ Hd (distance_is_torus_dist (nth u ps []) (nth v ps []) (unit_closed _ F1) (unit_closed _ F2) ltac:(congruence))).
    apply dist_err; try assumption. rewrite Rminus_0_r, Rabs_R0. apply bpow_ge_0. }
  apply Rabs_le_inv in ED. set (del := b2 (-52)) in *. assert (D0 : 0 < del) by apply bpow_gt_0. assert (D51 : b2 (-51) = 2 * del) by (unfold del; change (-51)%Z with (1 + -52)%Z; rewrite bpow_plus; reflexivity).
  assert (D100 : b2 (-100) <= del) by (apply bpow_le; lia).
  set (wu := nth u ws 0) in *. set (wv := nth v ws 0) in *.
  destruct (wterm_err f pw ws (ii_weights f pw _ _ _ _ _ _ HI) (ii_n _ _ _ _ _ _ _ HI) wu wv (nth_In ws 0 Hu) (nth_In ws 0 Hv)) as (Q33 & T1 & T2).
  change (sum_elems (double_env f pw) ws) with (float_sum ws) in T1, T2. fold q in Q33, T1, T2. set (t := RN (RN (wu * wv) / float_sum ws)) in *.
  set (n := length ws) in *. set (k := N.to_nat D).
  pose proof (W_bounds f pw ws (ii_weights f pw _ _ _ _ _ _ HI) (ii_n _ _ _ _ _ _ _ HI)) as (_ & _ & N1 & N2). fold n in N1, N2.
  pose proof (eps_up n (ii_n _ _ _ _ _ _ _ HI)) as EU. pose proof (eps_down n (ii_n _ _ _ _ _ _ _ HI)) as EL.
  pose proof u53_pos as U0. assert (U1 : u53 <= / 1024) by (change (/ 1024) with (b2 (-10)); apply bpow_le; lia).
  assert (B33 : 0 < b2 (-33)) by apply bpow_gt_0.
  assert (Np : 0 < (1 + u53) ^ n) by (apply pow_lt; lra). assert (Nm : 0 < (1 - u53) ^ n) by (apply pow_lt; lra).
  (* eps *)
  assert (EE : 16 * u53 <= eps n <= / 1024).
  { unfold eps. assert (B : b2 (-52) = 2 * u53) by (unfold u53; change (-52)%Z with (1 + -53)%Z; rewrite bpow_plus; reflexivity). rewrite B.
    destruct (small_n n (ii_n _ _ _ _ _ _ _ HI)) as [S1 _]. pose proof (pos_INR n). assert (B20 : b2 (-20) <= / 2048) by (change (/ 2048) with (b2 (-11)); apply bpow_le; lia). split; nra. }
  set (e := eps n) in *.
  (* the power of the distance *)
  assert (Pd' : b2 (-100) <= d') by lra. pose proof (power_err f pw D d' (ii_dim _ _ _ _ _ _ _ HI) Pd') as [P1 P2]. rewrite float_pow_eq in P1, P2 by apply HI. fold k in P1, P2.
  set (fp := float_pow D d') in *. destruct (lo_bounds 4 ltac:(lia)) as (U4 & U4' & U4''). set (l4 := (1 - u53) ^ 4) in *. set (h4 := (1 + u53) ^ 4) in *.
  assert (P3 : (d - del) ^ k <= d' ^ k) by (apply pow_incr; lra). assert (P4 : d' ^ k <= (d + del) ^ k) by (apply pow_incr; lra).
  set (lo := (d - del) ^ k) in *. set (hi := (d + del) ^ k) in *. assert (Lo : 0 < lo) by (apply pow_lt; lra). assert (Hi : 0 < hi) by lra.
  assert (F1' : lo * l4 <= fp). { eapply Rle_trans; [|exact P1]. apply Rmult_le_compat_r; lra. }
  assert (F2' : fp <= hi * h4). { eapply Rle_trans; [exact P2|]. apply Rmult_le_compat_r; lra. }
  assert (FP : 0 < fp). { assert (0 < lo * l4) by (apply Rmult_lt_0_compat; lra). lra. }
  destruct Hp as (dd & Hdd & _ & Hp). rewrite (float_dist_unique _ _ _ _ Hdd FD) in Hp. fold fp in Hp. specialize (Hp FP). fold wu wv t in Hp. set (x := RN (t / fp)) in *.
  (* the quotient is a normal number *)
  assert (d1 : d' <= 1).
  { destruct FD as [_ (i & Hi' & ->)]. unfold float_axis. eapply Rle_trans; [apply Rmin_l|]. rewrite List.Forall_forall in F1, F2.
    specialize (F1 (nth i (nth u ps []) 0) ltac:(apply nth_In; lia)). specialize (F2 (nth i (nth v ps []) 0) ltac:(apply nth_In; lia)). cbn beta in F1, F2.
    assert (ON : RN 1 = 1) by (apply RN_id; apply (b2_double 0); lia). assert (OP : RN (- (1)) = - (1)) by (unfold RN; rewrite round_NE_opp; f_equal; exact ON).
    set (xx := nth i (nth u ps []) 0) in *. set (yy := nth i (nth v ps []) 0) in *. pose proof (RN_le (- (1)) (xx - yy) ltac:(lra)). pose proof (RN_le (xx - yy) 1 ltac:(lra)). apply Rabs_le; lra. }
  assert (H42 : h4 <= 2). { unfold h4. apply Rle_trans with ((1 + / 1024) ^ 4); [apply pow_incr; lra|]. cbn [pow]. lra. }
  assert (fp2 : fp <= 2). { assert (d' ^ k <= 1 ^ k) by (apply pow_incr; lra). rewrite pow1 in H. assert (0 <= d' ^ k) by (apply pow_le; lra). nra. }
  assert (Q0 : 0 < q) by lra. assert (Pt : q / 4 <= t).
  { assert (1 / 2 <= (1 - u53) * (1 - u53)) by nra. assert (q * (1 / 2) <= t * (1 + u53) ^ n) by nra. assert (0 <= t) by (apply Rnot_lt_le; intros C; nra). nra. }
  assert (Pt0 : 0 < t) by lra.
  assert (NQ : b2 (-1022) <= t / fp).
  { apply Rle_trans with (b2 (-36)); [apply bpow_le; lia|]. assert (B36 : b2 (-33) = 8 * b2 (-36)) by (change (-33)%Z with (3 + -36)%Z; rewrite bpow_plus; reflexivity).
    apply Rmult_le_reg_r with fp; [exact FP|]. replace (t / fp * fp) with t by (field; lra). pose proof (bpow_gt_0 radix2 (-36)). nra. }
  destruct (RN_rel (t / fp) NQ) as [X1 X2]. fold x in X1, X2. assert (Q1 : 0 < t / fp) by (apply Rdiv_lt_0_compat; lra).
  (* bounds on the quotient *)
  assert (XU : x <= q * (1 + 2 * e) / lo).
  { apply Rmult_le_reg_r with lo; [exact Lo|]. replace (q * (1 + 2 * e) / lo * lo) with (q * (1 + 2 * e)) by (field; lra).
    assert (A1 : x * fp <= t * (1 + u53)). { replace (t * (1 + u53)) with (t / fp * (1 + u53) * fp) by (field; lra). apply Rmult_le_compat_r; lra. }
    assert (X0 : 0 < x) by nra.
    assert (A2 : x * lo * l4 <= t * (1 + u53)) by nra.
    assert (A3 : x * lo * (l4 * (1 - u53) ^ n) <= q * ((1 + u53) * (1 + u53)) * (1 + u53)).
    { apply Rle_trans with (t * (1 + u53) * (1 - u53) ^ n); [rewrite <- Rmult_assoc; apply Rmult_le_compat_r; lra|]. replace (t * (1 + u53) * (1 - u53) ^ n) with (t * (1 - u53) ^ n * (1 + u53)) by ring. apply Rmult_le_compat_r; lra. }
    assert (XL : 0 < x * lo) by (apply Rmult_lt_0_compat; lra).
    assert (A4 : x * lo * ((1 - e) * ((1 + u53) * (1 + u53))) <= q * ((1 + u53) * (1 + u53)) * (1 + u53)) by (eapply Rle_trans; [|exact A3]; apply Rmult_le_compat_l; lra).
    assert (S0 : 0 < (1 + u53) * (1 + u53)) by nra.
    assert (A5 : x * lo * (1 - e) <= q * (1 + u53)). { apply Rmult_le_reg_r with ((1 + u53) * (1 + u53)); [exact S0|]. lra. }
    assert (A6 : 1 + u53 <= (1 + 2 * e) * (1 - e)) by nra.
    apply Rmult_le_reg_r with (1 - e); [lra|]. eapply Rle_trans; [exact A5|]. rewrite Rmult_assoc. apply Rmult_le_compat_l; lra. }
  assert (XD : q * (1 - 2 * e) / hi <= x).
  { apply Rmult_le_reg_r with hi; [exact Hi|]. replace (q * (1 - 2 * e) / hi * hi) with (q * (1 - 2 * e)) by (field; lra).
    assert (A1 : t * (1 - u53) <= x * fp). { replace (t * (1 - u53)) with (t / fp * (1 - u53) * fp) by (field; lra). apply Rmult_le_compat_r; lra. }
    assert (X0 : 0 < x) by nra.
    assert (A2 : t * (1 - u53) <= x * hi * h4) by nra.
    assert (A3 : q * ((1 - u53) * (1 - u53)) * (1 - u53) <= x * hi * (h4 * (1 + u53) ^ n)).
    { apply Rle_trans with (t * (1 - u53) * (1 + u53) ^ n); [|rewrite <- Rmult_assoc; apply Rmult_le_compat_r; lra]. replace (t * (1 - u53) * (1 + u53) ^ n) with (t * (1 + u53) ^ n * (1 - u53)) by ring. apply Rmult_le_compat_r; lra. }
    assert (XL : 0 < x * hi) by (apply Rmult_lt_0_compat; lra).
    assert (A4 : q * ((1 - u53) * (1 - u53)) * (1 - u53) <= x * hi * ((1 + e) * ((1 - u53) * (1 - u53)))) by (eapply Rle_trans; [exact A3|]; apply Rmult_le_compat_l; lra).
    assert (S0 : 0 < (1 - u53) * (1 - u53)) by nra.
    assert (A5 : q * (1 - u53) <= x * hi * (1 + e)). { apply Rmult_le_reg_r with ((1 - u53) * (1 - u53)); [exact S0|]. lra. }
    assert (A6 : (1 - 2 * e) * (1 + e) <= 1 - u53) by nra.
    apply Rmult_le_reg_r with (1 + e); [lra|]. eapply Rle_trans; [|exact A5]. rewrite Rmult_assoc. apply Rmult_le_compat_l; lra. }
  set (xl := q * (1 - 2 * e) / hi) in *. set (xh := q * (1 + 2 * e) / lo) in *.
  assert (Xl0 : 0 < xl). { unfold xl. apply Rdiv_lt_0_compat; [|exact Hi]. apply Rmult_lt_0_compat; lra. }
  pose proof (HAC x a ltac:(lra) Ha) as [H1 H2].
  assert (R1 : Rpower xl a <= Rpower x a) by (apply Rle_Rpower_l; [exact Ha|lra]). assert (R2 : Rpower x a <= Rpower xh a) by (apply Rle_Rpower_l; [exact Ha|lra]).
  rewrite Hp. split; apply Rle_min_compat_l; [eapply Rle_trans; [|exact H1]|eapply Rle_trans; [exact H2|]].
  - assert ((1 - e0) * Rpower xl a <= (1 - e0) * Rpower x a) by (apply Rmult_le_compat_l; lra). lra.
  - assert ((1 + e0) * Rpower x a <= (1 + e0) * Rpower xh a) by (apply Rmult_le_compat_l; lra). lra.
Qed.

(** ** A correctly rounded pow meets the assumptions *)
Definition pow_double (x a : R) : R := if Req_EM_T x 0 then (if Req_EM_T a 0 then 1 else 0) else RN (Rpower x a).
Lemma pow_double_good : good_pow pow_double.
Proof.
  intros a Ha. assert (ON : RN 1 = 1) by (apply RN_id; apply (b2_double 0); lia). unfold pow_double. split.
  - destruct (Req_EM_T 1 0); [lra|]. rewrite <- ON at 2. f_equal. unfold Rpower. now rewrite ln_1, Rmult_0_r, exp_0.
  - intros x y Hx Hy. destruct (Req_EM_T x 0) as [->|Nx]; destruct (Req_EM_T y 0) as [->|Ny].
    + destruct (Req_EM_T a 0); lra.
    + destruct (Req_EM_T a 0) as [->|Na]; [rewrite Rpower_O by lra; lra|]. split; [lra|]. apply RN_nonneg. left. apply exp_pos.
    + lra.
    + split; [apply RN_nonneg; left; apply exp_pos|]. apply RN_le. apply Rle_Rpower_l; lra.
Qed.
Lemma pow_double_accurate : accurate_pow pow_double u53 (b2 (-1022)).
Proof.
  intros x a Hx Ha. unfold pow_double. destruct (Req_EM_T x 0); [lra|]. set (y := Rpower x a). assert (Y0 : 0 < y) by apply exp_pos. pose proof u53_pos. pose proof (bpow_gt_0 radix2 (-1022)).
  destruct (Rle_lt_dec (b2 (-1022)) y) as [L|L].
  - destruct (RN_rel y L). lra.
  - pose proof (RN_nonneg y ltac:(lra)). pose proof (RN_le_b2 y (-1022) ltac:(lra) ltac:(lia)). assert (0 <= y * u53) by (apply Rmult_le_pos; lra). lra.
Qed.

(** ** Instance: four nodes in two dimensions, alpha = 1.  The pair {0,2} at distance 1/2 has the probability 4 RN(1/7) *)
Lemma ex_float_probability : float_probability pow_double 2 ex_fw ex_fp 1 0 2 (4 * RN (1 / 7)).
Proof.
  assert (W : float_sum ex_fw = 7).
  { unfold float_sum, ex_fw. cbn [fold_left]. replace (0 + 1) with (IZR 1) by ring. rewrite (RN_id (IZR 1)) by (apply dbl_int; lia). replace (1 + 2) with (IZR 3) by ring. rewrite (RN_id (IZR 3)) by (apply dbl_int; lia).
    replace (3 + 1) with (IZR 4) by ring. rewrite (RN_id (IZR 4)) by (apply dbl_int; lia). replace (4 + 3) with (IZR 7) by ring. apply RN_id, dbl_int. lia. }
  assert (AX : forall z, (Z.abs z <= 8)%Z -> RN (IZR z / 8) = IZR z / 8) by (intros z Hz; apply RN_id, dbl_eighth; lia).
  assert (A0 : float_axis (IZR 2 / 8) (IZR 5 / 8) = 3 / 8).
  { unfold float_axis. replace (IZR 2 / 8 - IZR 5 / 8) with (IZR (-3) / 8) by lra. rewrite AX by lia. replace (Rabs (IZR (-3) / 8)) with (3 / 8) by (rewrite Rabs_left; lra).
    replace (1 - 3 / 8) with (IZR 5 / 8) by lra. rewrite AX by lia. apply Rmin_left. lra. }
  assert (A1 : float_axis (IZR 4 / 8) (IZR 0 / 8) = 1 / 2).
  { unfold float_axis. replace (IZR 4 / 8 - IZR 0 / 8) with (IZR 4 / 8) by lra. rewrite AX by lia. replace (Rabs (IZR 4 / 8)) with (IZR 4 / 8) by (rewrite Rabs_right; lra).
    replace (1 - IZR 4 / 8) with (IZR 4 / 8) by lra. rewrite AX by lia. rewrite Rmin_left; lra. }
  exists (1 / 2). split.
  - split.
    + intros [|[|i]] Hi; [| |cbn in Hi; lia]; cbn [nth ex_fp]; [rewrite A0|rewrite A1]; lra.
    + exists 1%nat. split; [cbn; lia|]. cbn [nth ex_fp]. now rewrite A1.
  - assert (FP : float_pow 2 (1 / 2) = 1 / 4). { cbn [float_pow]. replace (1 / 2 * (1 / 2)) with (IZR 2 / 8) by lra. rewrite AX by lia. lra. }
    rewrite FP, W. split; [lra|]. intros _. cbn [nth ex_fw]. replace (1 * 1) with (IZR 1) by ring. rewrite (RN_id (IZR 1)) by (apply dbl_int; lia).
    set (t := RN (1 / 7)). assert (Dt : is_double t) by apply RN_double. assert (T : 1 / 8 <= t <= 1 / 4).
    { split; [rewrite <- (RN_id (1 / 8)); [apply RN_le; lra|]|rewrite <- (RN_id (1 / 4)); [apply RN_le; lra|]]; [apply (dbl_eighth 1); lia|replace (1 / 4) with (IZR 2 / 8) by lra; apply (dbl_eighth 2); lia]. }
    assert (D4 : is_double (4 * t)). { rewrite Rmult_comm. change 4 with (b2 (Z.of_N 2)). now apply double_scale. }
    replace (t / (1 / 4)) with (4 * t) by lra. rewrite (RN_id _ D4). unfold pow_double. destruct (Req_EM_T (4 * t) 0); [lra|]. rewrite Rpower_1 by lra. rewrite (RN_id _ D4). symmetry. apply Rmin_right. lra.
Qed.
Lemma float_probability_unique pw D ws ps a u v p p' : (forall d, is_float_dist (nth u ps []) (nth v ps []) d -> 0 <= float_pow D d) ->
  float_probability pw D ws ps a u v p -> float_probability pw D ws ps a u v p' -> p = p'.
Proof.
  intros H0 (d & Td & P0 & P1) (d' & Td' & Q0 & Q1). pose proof (float_dist_unique _ _ _ _ Td Td'). subst d'. destruct (H0 d Td) as [Hd|Hd]; [now rewrite P1, Q1|now rewrite P0, Q0].
Qed.
Theorem C73_example : forall cfg, exists out, possible_double_results log2_double pow_double cfg ex_fw ex_fp 1 7 4 3 out /\
  probability_n 4 (fun tapes => has_edge 0 2 (out tapes)) (4 * RN (1 / 7)) /\ 1 / 2 <= 4 * RN (1 / 7) < 1.
Proof.
  intros cfg. destruct C57_example as (GL & HI & _ & _).
  destruct (C73_law_in_doubles log2_double pow_double cfg 2 ex_fw ex_fp 7 4 3 1 GL pow_double_good HI ltac:(lia) ltac:(lra)) as [(out & Hout) (q & Hq & L)]. exists out. split; [exact Hout|].
  destruct (L out Hout) as (_ & _ & L3). specialize (L3 0%nat 2%nat ltac:(cbn; lia)). destruct (Hq 0%nat 2%nat ltac:(cbn; lia) ltac:(cbn; lia) ltac:(lia)) as (p & Ep & Rp & C).
  assert (T : 1 / 8 <= RN (1 / 7) < 1 / 4).
  { split; [rewrite <- (RN_id (1 / 8)); [apply RN_le; lra|apply (dbl_eighth 1); lia]|]. apply Rle_lt_trans with (3 / 16); [|lra].
    rewrite <- (RN_id (3 / 16)); [apply RN_le; lra|]. replace (3 / 16) with (IZR 3 * b2 (-4)) by (change (b2 (-4)) with (/ 16); lra). apply FLT_double; lia. }
  assert (p = 4 * RN (1 / 7)).
  { eapply float_probability_unique; [|exact Ep|exact ex_float_probability]. intros d [_ (i & Hi & ->)]. cbn [float_pow]. apply RN_nonneg. apply Rle_0_sqr. }
  subst p. split; [|lra]. destruct C as [C|[_ C]]; [rewrite C in L3; exact L3|lra].
Qed.

Print Assumptions C73_law_in_doubles.
Print Assumptions C73_close_to_exact.
Print Assumptions C73_example.
