(** Property C81: scaleWeights followed by generateEdges yields the requested average degree. *)
From Coq Require Import Arith NArith ZArith List Bool Reals Permutation Lia Lra Psatz.
From Flocq Require Import Core.
From Coquelicot Require Import Coquelicot.
From Verif Require Import Base Sched Bits_Proofs Coord_Model Coord_Torus Prop_Coord Tree_Model Tree_Run Girg_Model Girg_Num Prop_Girg Prob_Spec Prob Prob_Events Prob_Girg Prob_Law Prop_Prob
  Scaling_Model Scaling_Thr Scaling_Inst Scaling_Integral Prop_Scaling Mean Prop_Mean Prop_Cost Prop_Work Draws_Law Draws_Bound Draws_Mean Prop_Draws Law_Any Prop_Loss.
Import ListNotations.
Local Open Scope R_scope.

(** ** Specification *)
(** the average degree of a returned edge list *)
Definition average_degree (n : nat) (o : option (list (nat * nat))) : R := match o with Some edges => 2 * INR (length edges) / INR n | None => 0 end.
(** the deviation of the search of scaleWeights from the desired degree (C32, C63): exact for the degree formula it uses (that of the threshold rule if alpha > 8) up to 2/100 and 1/n *)
Definition in_window (n : nat) (alpha : dbl) (desired m : R) : Prop :=
  desired - 2 / 100 <= m /\
  match alpha with
  | DFin a => if Rle_dec a 8 then m < desired + 2 / 100 + 1 / INR n else m < a / (a - 1) * (desired + 2 / 100 + 1 / INR n)
  | _ => m < desired + 2 / 100 + 1 / INR n
  end.
(** the bound of C80 on the expected number of lost edges *)
Definition lost_edges (d : nat) (ws : list R) (lo hi : R) : R := 1 / 1000000 * (6 ^ d * (6 + 2 * (layers_max lo hi) ^ 2 + 4 * density ws lo)).

(** ** Proofs *)
Lemma ordered_sum (p : nat -> nat -> R) n : (forall u v, (u < v < n)%nat -> p v u = p u v) ->
  sumR (map (fun u => sumR (map (fun v => if (u =? v)%nat then 0 else p u v) (seq 0 n))) (seq 0 n)) = 2 * sumR (map (fun uv => p (fst uv) (snd uv)) (all_pairs n)).
Proof.
  induction n as [|n IH]; intros Sy. { unfold sumR. cbn. ring. }
  unfold all_pairs. rewrite seq_S. cbn [Nat.add]. rewrite flat_map_app. fold (all_pairs n). cbn [flat_map]. rewrite app_nil_r, map_app, sumR_app, map_app, sumR_app, Rmult_plus_distr_l, <- IH by (intros u v H; apply Sy; lia).
  cbn [map]. rewrite map_app, sumR_app. cbn [map]. rewrite Nat.eqb_refl.
  assert (E1 : sumR (map (fun u => sumR (map (fun v => if (u =? v)%nat then 0 else p u v) (seq 0 n ++ [n]))) (seq 0 n)) = sumR (map (fun u => sumR (map (fun v => if (u =? v)%nat then 0 else p u v) (seq 0 n))) (seq 0 n)) + sumR (map (fun u => p u n) (seq 0 n))).
  { rewrite <- (Draws_Bound.sumR_plus (fun u => sumR (map (fun v => if (u =? v)%nat then 0 else p u v) (seq 0 n)))). apply sumR_ext. intros u Hu. apply in_seq in Hu. rewrite map_app, sumR_app. cbn [map]. destruct (Nat.eqb_spec u n); [lia|]. unfold sumR at 2. cbn [fold_right]. ring. }
  rewrite E1, map_map. cbn [fst snd].
  assert (E2 : sumR (map (fun v => if (n =? v)%nat then 0 else p n v) (seq 0 n)) = sumR (map (fun u => p u n) (seq 0 n))).
  { apply sumR_ext. intros v Hv. apply in_seq in Hv. destruct (Nat.eqb_spec n v); [lia|]. apply Sy. lia. }
  assert (S1 : forall x, sumR [x] = x) by (intros x; unfold sumR; cbn [fold_right]; ring). rewrite ?map_app, ?sumR_app. rewrite ?Nat.eqb_refl, ?S1, E2. ring.
Qed.

(** ** Theorems *)
(** finite alpha: F ps is the average degree that the model documents for the positions ps; its mean over uniform positions is in the window around the requested degree;
    wherever the positions are, the mean average degree of the returned graphs over the random draws is F ps up to the lost edges *)
Theorem C81_degree_reached : forall ws desired d a s ws', double_weights ws -> ws <> [] -> scale_weights ws desired d (DFin a) (Returned s) ws' ->
  forall cfg seed omp_max team lo hi, cost_input d ws' seed omp_max team -> (0 <= seed)%Z -> is_smallest ws' lo -> is_largest ws' hi ->
  exists F m, is_points_mean (length ws) d F m /\ in_window (length ws) (DFin a) desired m /\
    forall ps, Mean.points_in (length ws) d ps ->
      degree_given_positions (N.of_nat d) ws' (AFin a) ps (F ps) /\
      forall out, possible_results cfg ws' ps a seed omp_max team out ->
        exists k, expects_n omp_max (fun tapes => average_degree (length ws) (out tapes)) k /\ F ps - 2 * lost_edges d ws' lo hi / INR (length ws) <= k <= F ps.
Proof.
  intros ws desired d a s ws' V Hne H cfg seed omp_max team lo hi CI Hs HLo HHi.
  assert (EL : length ws' = length ws). { rewrite (returned_scaled _ _ _ _ _ _ H). unfold scaled. apply map_length. }
  assert (Hlen : (N.of_nat (length ws) < 2 ^ 31)%N) by (rewrite <- EL; apply (ci_n _ _ _ _ _ CI)).
  assert (Hd : (1 <= d)%nat) by (pose proof (ci_dim _ _ _ _ _ CI); lia).
  assert (A0 : 0 <= a). { inversion H as [s' Hg Hs' E1 E2|b s' Hg Hb Ea Hs' E1 E2|]; subst; cbn in Hg; [apply Rltb_true in Hg; lra|]. injection Ea as <-. apply andb_prop in Hb as [Hb _]. cbn in Hb. apply Rltb_true in Hb. lra. }
  destruct (C63_scaled_degree ws desired d s ws' (DFin a) V Hne Hlen Hd H) as (m & (F & HF & HM) & L & U). rewrite EL in *.
  exists F, m. split; [exact HM|]. split; [split; [exact L|exact U]|]. intros ps Hps. pose proof (HF ps Hps) as HD. split; [exact HD|]. intros out Hout.
  destruct HD as (p & Hp & EF). rewrite EL in *. assert (Hn : (0 < length ws)%nat) by (destruct ws; [congruence|cbn; lia]).
  assert (HP : forall u v, (u < v < length ws')%nat -> edge_probability (N.of_nat d) ws' ps a u v (p u v)). { rewrite EL. intros u v Huv. apply (Hp u v); lia. }
  assert (Hps' : Mean.points_in (length ws') d ps) by (rewrite EL; exact Hps).
  destruct (C80_girg cfg d ws' ps seed omp_max team a lo hi CI Hps' Hs A0 HLo HHi p HP out Hout) as (_ & k & HK & KB). fold (lost_edges d ws' lo hi) in KB. rewrite EL in KB.
  assert (Sy : forall u v, (u < v < length ws)%nat -> p v u = p u v).
  { intros u v Huv. destruct (use_num (cost_girg _ _ _ _ _ _ CI Hps')) as (P & NO & IP).
    assert (Q : forall x y, (x < length ws)%nat -> (y < length ws)%nat -> x <> y -> p x y = @pe (N.of_nat d) ws' ps cfg P a x y).
    { intros x y Hx Hy N. eapply edge_probability_unique; [apply (Hp x y Hx Hy N)|]. apply (pe_probability _ _ _ seed omp_max team); try assumption; try lia. now apply cost_girg. }
    rewrite !Q by lia. apply pe_sym. }
  rewrite (ordered_sum p _ Sy) in EF. set (S := sumR (map (fun uv => p (fst uv) (snd uv)) (all_pairs (length ws)))) in *.
  assert (IN : 0 < / INR (length ws)) by (apply Rinv_0_lt_compat, lt_0_INR; exact Hn).
  exists (2 / INR (length ws) * k). split.
  - eapply expects_n_ext; [|apply (expects_n_scal omp_max (2 / INR (length ws)) _ _ HK)]. intros tapes _. cbv beta. unfold average_degree. destruct (out tapes); unfold Rdiv; ring.
  - rewrite EF. unfold Rdiv. split; nra.
Qed.
(** threshold graphs: every returned graph has exactly the degree F ps *)
Theorem C81_threshold_degree_reached : forall ws desired d s ws', double_weights ws -> ws <> [] -> scale_weights ws desired d (DInf true) (Returned s) ws' ->
  forall cfg rg seed omp_max team, good_rng rg -> cost_input d ws' seed omp_max team ->
  exists F m, is_points_mean (length ws) d F m /\ in_window (length ws) (DInf true) desired m /\
    forall ps, Mean.points_in (length ws) d ps ->
      degree_given_positions (N.of_nat d) ws' AInf ps (F ps) /\
      forall o, girg_outcome ideal_env cfg rg ws' ps AInf seed omp_max team o -> average_degree (length ws) o = F ps.
Proof.
  intros ws desired d s ws' V Hne H cfg rg seed omp_max team GR CI.
  assert (EL : length ws' = length ws). { rewrite (returned_scaled _ _ _ _ _ _ H). unfold scaled. apply map_length. }
  assert (Hlen : (N.of_nat (length ws) < 2 ^ 31)%N) by (rewrite <- EL; apply (ci_n _ _ _ _ _ CI)).
  assert (Hd : (1 <= d)%nat) by (pose proof (ci_dim _ _ _ _ _ CI); lia).
  destruct (C63_scaled_degree ws desired d s ws' (DInf true) V Hne Hlen Hd H) as (m & (F & HF & HM) & L & U). rewrite EL in *.
  exists F, m. split; [exact HM|]. split; [split; [exact L|exact U]|]. intros ps Hps. pose proof (HF ps Hps) as HD. split; [exact HD|]. intros o Ho.
  assert (Hps' : Mean.points_in (length ws') d ps) by (rewrite EL; exact Hps). pose proof (cost_girg _ _ _ _ _ _ CI Hps') as HI.
  destruct (C02_simple_graph _ _ _ _ _ _ _ _ _ HI GR _ Ho) as (edges & -> & _). pose proof (C63_generated cfg rg _ ws' ps seed omp_max team edges HI GR Ho) as (p' & Hp' & E').
  destruct HD as (p & Hp & E). cbn [average_degree]. rewrite <- EL, E', E. f_equal. apply sumR_ext. intros u Hu. apply sumR_ext. intros v Hv. apply in_seq in Hu, Hv. destruct (Nat.eqb_spec u v) as [|N]; [reflexivity|].
  destruct (Hp u v ltac:(lia) ltac:(lia) N) as [X1 X0], (Hp' u v ltac:(lia) ltac:(lia) N) as [Y1 Y0].
  destruct (Classical_Prop.classic (threshold_edge (N.of_nat d) ws' ps u v)) as [T|T]; [now rewrite X1, Y1|now rewrite X0, Y0].
Qed.

(** ** Non-vacuity *)
(** four equal weights, desired degree 1/2: the search returns a factor for which the scaled weights are valid inputs of generateEdges *)
Lemma ex_four_doubles : double_weights [1; 1; 1; 1].
Proof.
  assert (A : bpow radix2 (-1022) <= 1) by (change 1 with (bpow radix2 0); apply bpow_le; lia).
  assert (B : 1 <= (2 - bpow radix2 (-52)) * bpow radix2 1023).
  { assert (bpow radix2 (-52) <= 1) by (change 1 with (bpow radix2 0); apply bpow_le; lia). assert (1 <= bpow radix2 1023) by (change 1 with (bpow radix2 0); apply bpow_le; lia). nra. }
  repeat apply List.Forall_cons; try apply List.Forall_nil; lra.
Qed.
Lemma ex_four_input s : 1 / 8 <= s <= 2 -> cost_input 1 [s; s; s; s] 12 4 4 /\ is_smallest [s; s; s; s] s /\ is_largest [s; s; s; s] s.
Proof.
  intros Hs. split; [|split].
  - constructor; try (cbn [length]; lia); try (left; lia); try (right; lia); try (split; apply N.leb_le; reflexivity).
    constructor; [discriminate| |].
    + intros w I. assert (w = s) by (cbn in I; intuition auto). subst w. assert (b2 (-1100) <= b2 (-3)) by (apply bpow_le; lia). change (b2 (-3)) with (/ 8) in H. assert (b2 1 <= b2 1100) by (apply bpow_le; lia). change (b2 1) with 2 in H0. lra.
    + intros w I. assert (w = s) by (cbn in I; intuition auto). subst w. unfold sumR. cbn [fold_right]. change (b2 31) with 2147483648. nra.
  - split; [now left|]. intros x I. cbn in I. intuition lra.
  - split; [now left|]. intros x I. cbn in I. intuition lra.
Qed.
Example C81_inputs : exists s, double_weights [1; 1; 1; 1] /\ scale_weights [1; 1; 1; 1] (1 / 2) 1 (DFin 2) (Returned s) (scaled s [1; 1; 1; 1]) /\
  cost_input 1 (scaled s [1; 1; 1; 1]) 12 4 4 /\ is_smallest (scaled s [1; 1; 1; 1]) s /\ is_largest (scaled s [1; 1; 1; 1]) s.
Proof.
  destruct (C32_termination [1; 1; 1; 1] (1 / 2) 1 ex_four_doubles ltac:(discriminate) ltac:(cbn; lia) (le_n 1)) as [H _].
  destruct H as (_ & _ & H); [cbn; lra|]. destruct (H (DFin 2)) as [s Hs]; [cbn; lra|]. exists s. split; [apply ex_four_doubles|]. split; [exact Hs|].
  destruct (C32_degree_reached _ _ _ _ _ _ ex_four_doubles ltac:(discriminate) ltac:(cbn; lia) (le_n 1) Hs) as [S0 R]. cbv zeta in R. destruct (Rlt_dec 8 2); [lra|].
  assert (ES : scaled s [1; 1; 1; 1] = [s; s; s; s]) by (unfold scaled; cbn [map]; now rewrite Rmult_1_l). rewrite ES in *.
  apply ex_four_input. unfold expected_degree in R. cbv zeta in R. cbn [length seq map nth Nat.eqb] in R.
  assert (EW : s * s / sumR [s; s; s; s] = s / 4) by (unfold sumR; cbn [fold_right]; field; lra). rewrite EW in R.
  rewrite (is_RInt_unique _ _ _ _ (alpha_closed 2 1 (s / 4) ltac:(lra) ltac:(lra) ltac:(lia) ltac:(lra))) in R. unfold sumR in R. cbn [fold_right INR] in R.
  unfold capped, phi_gen in R. destruct (Rge_dec (2 ^ 1 * (s / 4)) 1) as [G|G]; [lra|]. assert (0 < Rpower (2 ^ 1 * (s / 4)) 2) by apply exp_pos. lra.
Qed.

Print Assumptions C81_degree_reached.
Print Assumptions C81_threshold_degree_reached.
