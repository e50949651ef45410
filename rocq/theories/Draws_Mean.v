(** The mean over the positions of the bound on the expected number of draws, and what the draws depend on. *)
From Coq Require Import Arith NArith ZArith List Bool Reals Permutation Lia Lra Psatz.
From Flocq Require Import Core.
From Coquelicot Require Import Coquelicot.
From Verif Require Import Base Sched Bits_Model Bits_Proofs Coord_Model Coord_Proofs Coord_Geo IntSort_Model Cover Tree_Model Tree_Proofs Tree_Build Tree_Plan Tree_Run Girg_Model Girg_Proofs Girg_Num
  Prop_Girg Mean Prop_Mean Cost_Touch GirgCost_Model GirgCost_Proofs GirgCost_Count Prop_Cost Prop_Work Prob_Spec Prob Prob_Events Prob_Girg Prob_Law Mean_Cells Draws_Law Draws_Bound.
Import ListNotations.
Local Open Scope R_scope.

(** ** the number of calls *)
Lemma vis_calls_steps cfg D P alpha v : (length (vis_calls cfg D P alpha v) <= vis_steps cfg D P alpha v)%nat.
Proof.
  destruct v as [[A B] l]. unfold vis_calls, vis_steps. destruct (touching cfg D A B l) as [[|]|]; cbn [length]; [| |lia].
  - unfold near_calls. generalize (layer_pairs D P l) as X. induction X as [|ij X IH]; cbn [flat_map length]; [lia|]. rewrite app_length. destruct (_ || _); cbn [length]; lia.
  - destruct (ndebug cfg && is_inf alpha)%bool; [cbn; lia|]. unfold far_calls. generalize (Nrange l (p_levels P - 1)) as X. induction X as [|k X IH]; cbn [flat_map map length]; [lia|]. rewrite app_length, map_length, list_sum_cons. lia.
Qed.
Lemma calls_steps cfg D P alpha vs : (length (concat (map (flat_map (vis_calls cfg D P alpha)) vs)) <= list_sum (map (vis_steps cfg D P alpha) (concat vs)))%nat.
Proof.
  induction vs as [|v vs IH]; [cbn; lia|]. cbn [map concat]. rewrite app_length, map_app, list_sum_app. apply Nat.add_le_mono; [|exact IH]. clear IH.
  induction v as [|x v IH]; cbn [flat_map map]; [cbn; lia|]. rewrite app_length, list_sum_cons. pose proof (vis_calls_steps cfg D P alpha x). lia.
Qed.
Lemma plan_length cfg d ws seed omp_max team (a : R) lo hi P : cost_input d ws seed omp_max team -> is_smallest ws lo -> is_largest ws hi -> num_ok ideal_env (N.of_nat d) ws P ->
  INR (length (plan cfg (N.of_nat d) P (N.to_nat (p_levels P - 1)) 0%N 0%N 0%N)) <= 6 ^ d * (6 + 2 * (layers_max lo hi) ^ 2 + 4 * density ws lo).
Proof.
  intros CI HLo HHi NO. destruct (C67_work_bound cfg d ws seed omp_max team (AFin a) lo hi CI HLo HHi) as (P' & vs & pushes & EP & _ & EC & _ & _ & B).
  rewrite (no_params _ _ _ _ NO) in EP. injection EP as <-. destruct (cost_ctx _ _ _ _ _ CI cfg) as (P' & NO' & _ & HD & HLE & _). pose proof (no_params _ _ _ _ NO) as E2. rewrite (no_params _ _ _ _ NO') in E2. injection E2 as ->.
  assert (FP : fpl_ok (N.of_nat d) ideal_env omp_max) by (apply ideal_fpl_ok; [exact HD|apply (omp_nat _ (ci_omp _ _ _ _ _ CI))]).
  destruct (thread_calls_ok cfg (N.of_nat d) P (AFin a) HD (no_c _ _ _ _ NO) HLE ideal_env omp_max team FP (ci_team _ _ _ _ _ CI)) as (calls & Ec & _ & HP). rewrite EC in Ec. injection Ec as <-.
  assert (HP0 : Permutation (concat (map (flat_map (vis_calls cfg (N.of_nat d) P (AFin a))) vs)) (plan cfg (N.of_nat d) P (N.to_nat (p_levels P - 1)) 0%N 0%N 0%N)).
  { rewrite HP. unfold full_plan. rewrite filter_true; [reflexivity|]. intros x _. unfold keep. cbn [is_inf]. rewrite andb_false_r. apply orb_true_r. }
  rewrite <- (Permutation_length HP0). eapply Rle_trans; [apply le_INR, calls_steps|exact B].
Qed.

(** ** the mean of the bound of a pair *)
Definition rho (d : nat) (a : R) : R := Rpower 2 (- INR d * (a - 1)).
Lemma rho_range d a : (1 <= d)%nat -> 1 < a -> 0 < rho d a < 1.
Proof.
  intros Hd Ha. split; [apply exp_pos|]. unfold rho. apply Rlt_le_trans with (Rpower 2 0); [|rewrite Rpower_O; lra]. apply Rpower_lt; [lra|]. apply le_INR in Hd. change (INR 1) with 1 in Hd. nra.
Qed.
Lemma Rpower_pow_N x k : 0 < x -> Rpower x (INR k) = x ^ k. Proof. intros H. now apply Rpower_pow. Qed.
Section PairMean.
  Context {d : nat} {ws : list R} {P : tparams} (Hd : (1 <= d <= 5)%nat) (IP : ideal_params ws P) (NO : num_ok ideal_env (N.of_nat d) ws P).
  Variables (a : R) (Ha : 1 < a).
  Notation D := (N.of_nat d).
  Notation n := (length ws).
  Notation lvl := (lvl D ws P).
  Notation lay := (lay ideal_env ws P).
  Notation wterm := (@wterm ws P).
  Notation far_term := (@far_term D ws P a).
  Definition mean_bound (u v : nat) : R := near_prob (lvl u v) ^ d + 5 * sumR (map (fun k => near_prob (N.of_nat k) ^ d * far_term u v k) (seq 0 (N.to_nat (lvl u v)))).
  Lemma pair_mean u v : (u < n)%nat -> (v < n)%nat -> u <> v -> is_points_mean n d (fun ps => @pair_bound D ws ps P a u v) (mean_bound u v).
  Proof.
    intros Hu Hv Huv.
    assert (NM : forall l, is_points_mean n d (fun ps => @nearR ps l u v) (near_prob l ^ d)).
    { intros l. apply (points_mean_two d (fun x y => if near l x y then 1 else 0)); [| |lia|lia|exact Huv].
      - intros x Hx. now apply near_mean.
      - intros x Hx. apply (cube_mean_ext d (fun y => if near l x y then 1 else 0)); [intros y _; now rewrite near_sym|now apply near_mean]. }
    unfold pair_bound, mean_bound. apply points_mean_plus; [apply NM|]. apply points_mean_scal.
    apply (points_mean_sum n d (fun k ps => @nearR ps (N.of_nat k) u v * far_term u v k)). intros k _.
    apply (points_mean_ext d n (fun ps => far_term u v k * @nearR ps (N.of_nat k) u v)); [intros; ring|]. rewrite (Rmult_comm (near_prob _ ^ d)). apply points_mean_scal, NM.
  Qed.
  Notation w u := (nth u ws 0).
  Lemma wterm_le u v : (u < n)%nat -> (v < n)%nat -> wterm u v <= 4 * (w u * w v / p_W P).
  Proof.
    intros Hu Hv. destruct (lay_spec _ _ _ _ NO u Hu) as [Eu _]. destruct (lay_spec _ _ _ _ NO v Hv) as [Ev _].
    apply (ip_layer _ _ IP _ _ (wt_In _ _ Hu)) in Eu as [Lu _]. apply (ip_layer _ _ IP _ _ (wt_In _ _ Hv)) in Ev as [Lv _]. unfold wt in Lu, Lv.
    pose proof (ip_pos _ _ IP) as P0. pose proof (ip_Wpos _ _ IP) as PW. unfold Draws_Bound.wterm, Rdiv. rewrite Rmult_assoc. apply Rmult_le_compat_l; [lra|]. apply Rmult_le_compat_r; [left; now apply Rinv_0_lt_compat|].
    rewrite bpow_plus. replace (b2 (Z.of_nat (lay u)) * b2 (Z.of_nat (lay v)) * (p_w0 P * p_w0 P)) with ((b2 (Z.of_nat (lay u)) * p_w0 P) * (b2 (Z.of_nat (lay v)) * p_w0 P)) by ring.
    apply Rmult_le_compat; try assumption; left; apply Rmult_lt_0_compat; try assumption; apply bpow_gt_0.
  Qed.
  Lemma far_mean u v k : (u < n)%nat -> (v < n)%nat -> (k < N.to_nat (lvl u v))%nat -> near_prob (N.of_nat k) ^ d * far_term u v k <= 6 ^ d * wterm u v * rho d a ^ (N.to_nat (lvl u v) - 1 - k).
  Proof.
    intros Hu Hv Hk. set (m := N.to_nat (lvl u v)) in *. assert (HD : dim_ok D) by (unfold dim_ok; lia).
    pose proof (ip_pos _ _ IP) as P0. pose proof (ip_Wpos _ _ IP) as PW. pose proof (@wterm_pos ws P IP u v) as Y0. set (y := wterm u v) in *.
    assert (HB : (Z.of_N (D * lvl u v) + Z.of_nat (lay u) + Z.of_nat (lay v) + 2 <= p_c P)%Z) by (apply (base_pos D (p_c P) HD); [lia|unfold Cost_Touch.lvl; lia]).
    assert (Y1 : y * b2 (Z.of_N (D * lvl u v)) <= 1).
    { unfold y, Draws_Bound.wterm. apply Rmult_le_reg_r with (p_W P); [exact PW|].
      replace (4 * (b2 (Z.of_nat (lay u) + Z.of_nat (lay v)) * (p_w0 P * p_w0 P)) / p_W P * b2 (Z.of_N (D * lvl u v)) * p_W P) with (b2 2 * b2 (Z.of_nat (lay u) + Z.of_nat (lay v)) * b2 (Z.of_N (D * lvl u v)) * (p_w0 P * p_w0 P)) by (change (b2 2) with 4; field; lra).
      rewrite <- !bpow_plus, Rmult_1_l. eapply Rle_trans; [|apply (ip_c _ _ IP); lia]. apply Rmult_le_compat_r; [nra|]. apply bpow_le. lia. }
    set (x := y * b2 (Z.of_N (D * (N.of_nat k + 1)))) in *. assert (X0 : 0 < x) by (apply Rmult_lt_0_compat; [exact Y0|apply bpow_gt_0]).
    assert (X1 : x <= b2 (- (Z.of_nat d * Z.of_nat (m - 1 - k)))).
    { unfold x. replace (Z.of_N (D * (N.of_nat k + 1))) with (Z.of_N (D * lvl u v) + - (Z.of_nat d * Z.of_nat (m - 1 - k)))%Z.
      - rewrite bpow_plus, <- Rmult_assoc. rewrite <- (Rmult_1_l (b2 (- _))) at 2. apply Rmult_le_compat_r; [apply bpow_ge_0|exact Y1].
      - unfold m in *. rewrite !Nat2Z.inj_sub by lia. rewrite !N2Z.inj_mul, nat_N_Z, N2Z.inj_add, nat_N_Z, N_nat_Z. ring. }
    change (far_term u v k) with (Rpower x a).
    assert (RP : Rpower x a <= x * rho d a ^ (m - 1 - k)).
    { replace a with (1 + (a - 1)) at 1 by ring. rewrite Rpower_plus, Rpower_1 by exact X0. apply Rmult_le_compat_l; [lra|]. eapply Rle_trans; [apply Rpower_mono; [split; [exact X0|exact X1]|lra]|]. right.
      rewrite Rpower_b2. rewrite <- Rpower_pow by (apply exp_pos). unfold rho. rewrite Rpower_mult. f_equal. rewrite opp_IZR, mult_IZR, !INR_IZR_INZ. ring. }
    assert (NP : near_prob (N.of_nat k) ^ d <= 3 ^ d / b2 (Z.of_nat d * Z.of_nat k)).
    { replace (Z.of_nat d * Z.of_nat k)%Z with (Z.of_nat d * Z.of_N (N.of_nat k))%Z by now rewrite nat_N_Z. rewrite <- pow2R_pow. unfold Rdiv. rewrite <- pow_inv, <- Rpow_mult_distr. apply pow_incr. split; [apply near_prob_le1|apply near_prob_le3]. }
    apply Rle_trans with (3 ^ d / b2 (Z.of_nat d * Z.of_nat k) * (x * rho d a ^ (m - 1 - k))).
    - apply Rmult_le_compat; [apply pow_le, near_prob_le1|left; apply exp_pos|exact NP|exact RP].
    - right. unfold x. assert (E63 : 6 ^ d = 3 ^ d * b2 (Z.of_nat d)). { replace 6 with (3 * 2) by lra. rewrite Rpow_mult_distr. f_equal. replace 2 with (pow2R 1) by reflexivity. rewrite pow2R_pow. f_equal. lia. }
      replace (Z.of_N (D * (N.of_nat k + 1))) with (Z.of_nat d * Z.of_nat k + Z.of_nat d)%Z by (rewrite N2Z.inj_mul, nat_N_Z, N2Z.inj_add, nat_N_Z; ring).
      rewrite bpow_plus, E63. field. apply Rgt_not_eq, bpow_gt_0.
  Qed.
  Lemma mean_bound_le u v : (u < n)%nat -> (v < n)%nat -> mean_bound u v <= 6 ^ d * (4 + 20 / (1 - rho d a)) / p_W P * (w u * w v).
  Proof.
    intros Hu Hv. pose proof (rho_range d a (proj1 Hd) Ha) as [R0 R1]. set (r := rho d a) in *. assert (S6 : 0 < 6 ^ d) by (apply pow_lt; lra). pose proof (ip_Wpos _ _ IP) as PW.
    assert (B1 : near_prob (lvl u v) ^ d <= 4 * 6 ^ d * (w u * w v / p_W P)).
    { destruct (lay_spec _ _ _ _ NO u Hu) as [Eu _]. destruct (lay_spec _ _ _ _ NO v Hv) as [Ev _]. apply (near_weight (proj1 Hd) IP); [apply (wt_In _ _ Hu)|apply (wt_In _ _ Hv)|exact Eu|exact Ev]. }
    set (m := N.to_nat (lvl u v)). set (y := wterm u v).
    assert (Y0 : 0 < y) by apply (@wterm_pos ws P IP u v). assert (Y4 : y <= 4 * (w u * w v / p_W P)) by now apply wterm_le.
    assert (B2 : sumR (map (fun k => near_prob (N.of_nat k) ^ d * far_term u v k) (seq 0 m)) <= 6 ^ d * y * / (1 - r)).
    { apply Rle_trans with (sumR (map (fun k => 6 ^ d * y * r ^ (m - 1 - k)) (seq 0 m))).
      - apply sumR_le. intros k Hk. apply in_seq in Hk. apply far_mean; [exact Hu|exact Hv|unfold m in Hk; lia].
      - rewrite sumR_scal. apply Rmult_le_compat_l; [nra|]. apply geo_series. lra. }
    unfold mean_bound. fold m. set (q := w u * w v / p_W P) in *.
    replace (6 ^ d * (4 + 20 / (1 - r)) / p_W P * (w u * w v)) with (4 * 6 ^ d * q + 5 * (6 ^ d * (4 * q) * / (1 - r))) by (unfold q; field; lra).
    assert (B3 : 6 ^ d * y * / (1 - r) <= 6 ^ d * (4 * q) * / (1 - r)). { apply Rmult_le_compat_r; [left; apply Rinv_0_lt_compat; lra|]. apply Rmult_le_compat_l; lra. }
    lra.
  Qed.
  Lemma pairs_bound : sumR (map (fun uv => mean_bound (fst uv) (snd uv)) (all_pairs n)) <= 2 * 6 ^ d * sumR ws + 10 * 6 ^ d * sumR ws / (1 - rho d a).
  Proof.
    pose proof (rho_range d a (proj1 Hd) Ha) as [R0 R1]. set (r := rho d a) in *. assert (S6 : 0 < 6 ^ d) by (apply pow_lt; lra). pose proof (ip_Wpos _ _ IP) as PW. pose proof (ip_W _ _ IP) as EW.
    set (K := 6 ^ d * (4 + 20 / (1 - r)) / p_W P). assert (I0 : 0 < 20 / (1 - r)) by (apply Rdiv_lt_0_compat; lra). assert (K0 : 0 < K) by (apply Rdiv_lt_0_compat; [nra|exact PW]).
    apply Rle_trans with (sumR (map (fun uv => K * (w (fst uv) * w (snd uv))) (all_pairs n))).
    - apply sumR_le. intros [u v] I. unfold all_pairs in I. apply in_flat_map in I as (v' & Hv' & I). apply in_map_iff in I as (u' & E & Hu'). injection E as -> ->. apply in_seq in Hv', Hu'. cbn [fst snd]. apply mean_bound_le; lia.
    - rewrite sumR_scal. pose proof (all_pairs_square (fun u => w u) n) as Q. assert (W0 : forall u, (u < n)%nat -> 0 <= w u). { intros u Hu. pose proof (proj2 (ip_min _ _ IP) _ (nth_In ws 0 Hu)). pose proof (ip_pos _ _ IP). lra. }
      specialize (Q W0). rewrite sumR_nth in Q. rewrite <- EW in *. set (S2 := sumR (map (fun uv : nat * nat => w (fst uv) * w (snd uv)) (all_pairs n))) in *. set (W := p_W P) in *.
      apply Rle_trans with (K * (W * W / 2)); [apply Rmult_le_compat_l; lra|]. right. unfold K. fold W. field. lra.
  Qed.
End PairMean.

(** ** the draws depend on the cells of the points only *)
Lemma coordR_shift x : 0 <= x < 1 -> forall k l, coordR l x = (coordR (l + N.of_nat k) x / 2 ^ N.of_nat k)%N.
Proof.
  intros Hx. induction k as [|k IH]; intros l; [rewrite N.add_0_r; cbn [N.of_nat N.pow]; now rewrite N.div_1_r|].
  rewrite (coordR_half l x Hx), (IH (l + 1)%N). replace (l + N.of_nat (S k))%N with (l + 1 + N.of_nat k)%N by lia. rewrite Nat2N.inj_succ, N.pow_succ_r'. rewrite N.div_div by (try apply N.pow_nonzero; lia). f_equal. apply N.mul_comm.
Qed.
Lemma coords_eq L l d x y : (l <= L)%N -> in_cube d x -> in_cube d y -> map (coordR L) x = map (coordR L) y -> map (coordR l) x = map (coordR l) y.
Proof.
  intros Hl [_ Hx] [_ Hy]. revert y Hy. induction x as [|s x IH]; intros y Hy E; destruct y as [|t y]; try discriminate; [reflexivity|]. cbn [map] in *. injection E as E1 E2. inversion Hx; inversion Hy; subst. f_equal; [|now apply IH].
  rewrite (coordR_shift s ltac:(assumption) (N.to_nat (L - l)) l), (coordR_shift t ltac:(assumption) (N.to_nat (L - l)) l). replace (l + N.of_nat (N.to_nat (L - l)))%N with L by lia. now rewrite E1.
Qed.
Lemma V_perm E cfg D ws ps P o o' i A l : Permutation o o' -> length (V E cfg D ws ps P o i A l) = length (V E cfg D ws ps P o' i A l).
Proof. intros H. unfold V. induction H; cbn [filter]; auto; repeat (destruct (_ && _)%bool; cbn [length]; auto); congruence. Qed.
Lemma uptri_len {T U} (l : list T) (l' : list U) : length l = length l' -> length (uptri l) = length (uptri l').
Proof. intros H. pose proof (uptri_length l). pose proof (uptri_length l'). rewrite H in *. lia. Qed.
Definition call_level (x : call) : N := match x with CallI _ _ l _ _ => l | CallII _ _ l _ _ => l end.
Lemma call_draws_len {D ws ps ps' cfg P o o' a} x : (forall i A l, call_level x = l -> length (V ideal_env cfg D ws ps P o i A l) = length (V ideal_env cfg D ws ps' P o' i A l)) ->
  @call_draws D ws ps cfg P o a x = @call_draws D ws ps' cfg P o' a x.
Proof.
  intros H. destruct x as [A B l i j|A B l i j]; cbn [call_draws call_level] in *.
  - f_equal. unfold pairsL. destruct (_ && _)%bool; [now apply uptri_len, H|]. rewrite !prod_length. now rewrite !(H _ _ l eq_refl).
  - now rewrite !(H _ _ l eq_refl).
Qed.
