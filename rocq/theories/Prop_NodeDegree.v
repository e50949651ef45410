(** Property C82: the expected degree of every node follows from its weight. *)
From Coq Require Import Arith NArith ZArith List Bool Reals Permutation Lia Lra Psatz.
From Flocq Require Import Core.
From Coquelicot Require Import Coquelicot.
From Verif Require Import Base Sched Bits_Model Bits_Proofs Coord_Model Coord_Proofs Coord_Geo IntSort_Model Cover Tree_Model Tree_Proofs Tree_Build Tree_Plan Tree_Run Girg_Model Girg_Proofs Girg_Num Prop_Girg Mean Prop_Mean Cost_Touch GirgCost_Model GirgCost_Proofs GirgCost_Count Prop_Cost Prop_Work Prob_Spec Prob Prob_Events Prob_Girg Prob_Law Mean_Cells Draws_Law Draws_Bound Draws_Mean Coord_Torus Prop_Coord Prop_Prob Scaling_Model Scaling_Thr Scaling_Inst Scaling_Integral Prop_Scaling Prop_Draws Law_Any Prop_Loss Prop_EndDegree Mean_Reg Prop_MeanDegree.
Import ListNotations.
Local Open Scope R_scope.

(** ** Specification *)
(** the number of nodes that share an edge with x *)
Definition node_degree (n : nat) (o : option (list (nat * nat))) (x : nat) : R :=
  match o with Some edges => INR (length (filter (fun u => joinedb edges u x) (seq 0 n))) | None => 0 end.
(** z = 2^d w_u w_v / W: the volume of the ball in which the threshold rule connects u and v *)
Definition volume (d : nat) (ws : list R) (u v : nat) : R := 2 ^ d * (nth u ws 0 * nth v ws 0 / sumR ws).
(** the probability of the edge {u,v} for uniform positions, in the threshold model and for finite alpha *)
Definition chance_thr (z : R) : R := Rmin 1 z.
Definition chance (a z : R) : R := if Rge_dec z 1 then 1 else a / (a - 1) * z - Rpower z a / (a - 1).
(** the sum over all nodes u other than x *)
Definition over_others (n x : nat) (c : nat -> R) : R := sumR (map (fun u => if (u =? x)%nat then 0 else c u) (seq 0 n)).

(** ** Proofs *)
Definition inc (x : nat) (uv : nat * nat) : bool := (fst uv =? x)%nat || (snd uv =? x)%nat.
Lemma indep_mean_weight p (g : nat * nat -> R) L : forall c, indep_mean L p (fun G => c + sumR (map g G)) = c + sumR (map (fun uv => p (fst uv) (snd uv) * g uv) L).
Proof.
  induction L as [|[u v] L IH]; intros c; [reflexivity|]. cbn [indep_mean map fst snd].
  replace (indep_mean L p (fun G => c + sumR (g (u, v) :: map g G))) with (indep_mean L p (fun G => (c + g (u, v)) + sumR (map g G))).
  - rewrite !IH. unfold sumR. cbn [fold_right]. ring.
  - assert (EX : forall L f g, (forall G, f G = g G) -> indep_mean L p f = indep_mean L p g).
    { clear. induction L as [|uv L IH]; intros f g H; [apply H|]. cbn [indep_mean]. rewrite (IH (fun G => f (uv :: G)) (fun G => g (uv :: G))), (IH f g); auto. }
    apply EX. intros G. unfold sumR. cbn [map fold_right]. ring.
Qed.
Lemma sumR_filter {A} (f : A -> bool) (g : A -> R) l : sumR (map g (filter f l)) = sumR (map (fun x => if f x then g x else 0) l).
Proof. induction l as [|x l IH]; [reflexivity|]. cbn [filter map]. unfold sumR in *. cbn [fold_right]. destruct (f x); cbn [map fold_right]; rewrite IH; ring. Qed.
Lemma length_filter {A} (f : A -> bool) l : INR (length (filter f l)) = sumR (map (fun x => if f x then 1 else 0) l).
Proof. induction l as [|x l IH]; [reflexivity|]. cbn [filter map]. unfold sumR in *. cbn [fold_right]. destruct (f x); cbn [length]; rewrite ?S_INR, IH; ring. Qed.
Lemma sumR_zero {A} (f : A -> R) l : (forall x, In x l -> f x = 0) -> sumR (map f l) = 0.
Proof. intros H. induction l as [|x l IH]; [reflexivity|]. unfold sumR in *. cbn [map fold_right]. rewrite (H x (or_introl eq_refl)), IH by (intros y Hy; apply H; now right). ring. Qed.
(** the pairs of a node are the other nodes *)
Lemma row_sum (h : nat -> nat -> R) x n : (forall u v, (u < v < n)%nat -> h v u = h u v) ->
  sumR (map (fun uv => if inc x uv then h (fst uv) (snd uv) else 0) (all_pairs n)) = if (x <? n)%nat then over_others n x (fun u => h u x) else 0.
Proof.
  assert (S1 : forall y, sumR [y] = y) by (intros y; unfold sumR; cbn [fold_right]; ring).
  unfold over_others. induction n as [|n IH]; intros Sy; [reflexivity|].
  unfold all_pairs. rewrite seq_S. cbn [Nat.add]. rewrite flat_map_app. fold (all_pairs n). cbn [flat_map]. rewrite app_nil_r, map_app, sumR_app, IH by (intros u v H; apply Sy; lia).
  rewrite map_map, map_app, sumR_app. cbn [fst snd map]. unfold inc. cbn [fst snd].
  destruct (Nat.ltb_spec x n) as [L|L].
  - destruct (Nat.ltb_spec x (S n)) as [_|]; [|lia]. assert (E : sumR (map (fun u => if (u =? x)%nat || (n =? x)%nat then h u n else 0) (seq 0 n)) = h x n).
    { transitivity (sumR (map (fun u => if (u =? x)%nat then h x n else 0) (seq 0 n))); [|now apply sum_ind]. apply sumR_ext. intros u Hu. destruct (Nat.eqb_spec n x); [lia|]. rewrite orb_false_r. destruct (Nat.eqb_spec u x); [congruence|reflexivity]. }
    rewrite E.
    destruct (Nat.eqb_spec n x); [lia|]. rewrite S1, (Sy x n) by lia. reflexivity.
  - destruct (Nat.eqb_spec n x) as [<-|N].
    + rewrite (proj2 (Nat.ltb_lt n (S n))) by lia. rewrite S1. rewrite Rplus_0_l, Rplus_0_r. apply sumR_ext. intros u Hu. apply in_seq in Hu. rewrite orb_true_r. destruct (Nat.eqb_spec u n); [lia|reflexivity].
    + destruct (Nat.ltb_spec x (S n)); [lia|]. rewrite sumR_zero; [ring|]. intros u Hu. apply in_seq in Hu. destruct (Nat.eqb_spec u x); [lia|reflexivity].
Qed.
Lemma degree_pairs n edges x : (x < n)%nat -> (forall u, ~ In (u, u) edges) -> INR (length (filter (fun u => joinedb edges u x) (seq 0 n))) = sumR (map (fun uv => if inc x uv then 1 else 0) (graph_of n edges)).
Proof.
  intros Hx SL. unfold graph_of. rewrite sumR_filter, length_filter.
  rewrite (sumR_ext (fun uv => if joinedb edges (fst uv) (snd uv) then if inc x uv then 1 else 0 else 0) (fun uv => if inc x uv then (fun u v => if joinedb edges u v then 1 else 0) (fst uv) (snd uv) else 0)).
  2:{ intros uv _. cbv beta. destruct (inc x uv), (joinedb _ _ _); reflexivity. }
  rewrite (row_sum (fun u v => if joinedb edges u v then 1 else 0)) by (intros u v _; unfold joinedb; now rewrite orb_comm). rewrite (proj2 (Nat.ltb_lt x n) Hx). unfold over_others. apply sumR_ext. intros u _. destruct (Nat.eqb_spec u x) as [->|]; [|reflexivity].
  destruct (joinedb edges x x) eqn:J; [|reflexivity]. apply joinedb_In in J. exfalso. destruct J as [J|J]; exact (SL x J).
Qed.
Lemma pair_mean_two n d (f : R -> R) c u v : (forall x, in_cube d x -> is_cube_mean d (fun y => f (tdist x y)) c) -> (u < n)%nat -> (v < n)%nat -> u <> v -> is_points_mean n d (fun ps => f (tdist (nth u ps []) (nth v ps []))) c.
Proof.
  intros H Hu Hv Huv. apply (points_mean_two d (fun x y => f (tdist x y))); [exact H| |exact Hu|exact Hv|exact Huv]. intros x Hx. apply (cube_mean_ext d (fun y => f (tdist x y))); [intros y _; now rewrite tdist_sym|now apply H].
Qed.
Lemma chance_mean a d k x : 0 < a -> a <> 1 -> (1 <= d)%nat -> 0 < k -> in_cube d x -> is_cube_mean d (fun y => near_rule a d k (tdist x y)) (chance a (2 ^ d * k)).
Proof.
  intros Ha Ha1 Hd Hk Hx. pose proof (mean_radial d (near_rule a d k) (fun r => near_cont a d k r Ha Hk Hd) x Hx) as M.
  replace (chance a (2 ^ d * k)) with (radial d (near_rule a d k)); [exact M|]. destruct d as [|d]; [lia|].
  transitivity (RInt (fun r => alpha_rule a (S d) k r * distance_density (S d) r) 0 (1 / 2)).
  - apply RInt_ext. rewrite Rmin_left, Rmax_right by lra. intros r Hr. unfold near_rule. destruct (Rle_dec r 0); [lra|reflexivity].
  - rewrite (is_RInt_unique _ _ _ _ (alpha_closed a (S d) k Ha Ha1 ltac:(lia) Hk)). unfold capped, chance, phi_gen. destruct (Rge_dec _ _); [reflexivity|]. field. lra.
Qed.

(** ** Theorems *)
(** finite alpha: K ps is the mean degree of x over the random draws for the positions ps, its mean over uniform positions is the sum of the
    probabilities of the pairs {u,x} up to the lost edges of C80 *)
Theorem C82_node_degree : forall cfg d ws seed omp_max team a lo hi, cost_input d ws seed omp_max team -> (0 <= seed)%Z -> 0 < a -> a <> 1 -> is_smallest ws lo -> is_largest ws hi ->
  forall x, (x < length ws)%nat -> exists K kbar,
    (forall ps, Mean.points_in (length ws) d ps -> forall out, possible_results cfg ws ps a seed omp_max team out -> expects_n omp_max (fun tapes => node_degree (length ws) (out tapes) x) (K ps)) /\
    is_points_mean (length ws) d K kbar /\
    over_others (length ws) x (fun u => chance a (volume d ws u x)) - lost_edges d ws lo hi <= kbar <= over_others (length ws) x (fun u => chance a (volume d ws u x)).
Proof.
  intros cfg d ws seed omp_max team a lo hi CI Hs Ha Ha1 HLo HHi x Hx. destruct (cost_ctx _ _ _ _ _ CI cfg) as (P & NO & IP & HD & HLE & _). set (n := length ws) in *.
  assert (Hd : (1 <= d)%nat) by (pose proof (ci_dim _ _ _ _ _ CI); lia).
  set (K := fun ps => sumR (map (fun uv => if inc x uv then real cfg d ws a P uv ps else 0) (all_pairs n))).
  set (F := fun ps => sumR (map (fun uv => if inc x uv then doc d ws a uv ps else 0) (all_pairs n))).
  exists K, (pval n d K).
  assert (HK : is_points_mean n d K (pval n d K)).
  { apply preg_mean. apply (preg_sum n d (fun uv ps => if inc x uv then real cfg d ws a P uv ps else 0)). intros [u v] I. apply all_pairs_In in I. destruct (inc x (u, v)); [|apply preg_const]. apply (real_regular cfg d ws seed omp_max team a CI Ha P NO IP HLE). exact I. }
  assert (HF : is_points_mean n d F (over_others n x (fun u => chance a (volume d ws u x)))).
  { pose proof (row_sum (fun u v => chance a (volume d ws u v)) x n) as RS. rewrite (proj2 (Nat.ltb_lt x n) Hx) in RS. rewrite <- RS by (intros u v _; unfold volume; do 2 f_equal; now rewrite (Rmult_comm (nth u ws 0))).
    apply (points_mean_sum n d (fun uv ps => if inc x uv then doc d ws a uv ps else 0)). intros [u v] I. apply all_pairs_In in I. destruct (inc x (u, v)); [|apply points_mean_const].
    unfold doc, volume. cbn [fst snd]. apply (pair_mean_two n d (near_rule a d (nth u ws 0 * nth v ws 0 / sumR ws))); [|lia|lia|lia]. intros y Hy. apply chance_mean; try assumption. apply (weight_term cfg d ws P IP); fold n; lia. }
  split; [|split; [exact HK|]].
  - intros ps Hp out Hout. pose proof (cost_girg _ _ _ _ _ _ CI Hp) as HI. destruct (girg_law cfg _ ws ps seed omp_max team a HI Hs ltac:(lra)) as (P' & t & ord & q & NO' & IP' & TS & _ & -> & Hq & LAW).
    assert (P' = P) as -> by (pose proof (no_params _ _ _ _ NO) as X; pose proof (no_params _ _ _ _ NO') as Y; congruence).
    pose proof (any_law omp_max n out _ (LAW out Hout) (fun G => 0 + sumR (map (fun uv => if inc x uv then 1 else 0) G))) as H. rewrite indep_mean_weight, Rplus_0_l in H.
    rewrite (sumR_ext _ (fun uv => if inc x uv then real cfg d ws a P uv ps else 0)) in H.
    2:{ intros [u v] I. apply all_pairs_In in I. cbn [fst snd]. rewrite (real_q cfg d ws seed omp_max team a CI Ha P IP u v ps t ord Hp TS) by (fold n; lia). destruct (inc x (u, v)); ring. }
    eapply expects_n_ext; [|exact H]. intros tapes L. cbv beta. destruct (C02_simple_graph _ _ _ _ _ _ _ _ _ HI (tape_good _) _ (Hout tapes L)) as (edges & -> & ND & SL & AN). cbn [node_degree]. rewrite (degree_pairs n edges x Hx SL). ring.
  - assert (LO : forall ps, Mean.points_in n d ps -> - lost_edges d ws lo hi + F ps <= K ps <= F ps).
    { intros ps Hp. pose proof (loss_sum cfg d ws seed omp_max team a lo hi CI Ha HLo HHi P NO IP HLE ps Hp) as LS. fold n in LS.
      assert (E : F ps = K ps + sumR (map (fun uv => if inc x uv then doc d ws a uv ps - real cfg d ws a P uv ps else 0) (all_pairs n))).
      { unfold F, K. rewrite <- (Draws_Bound.sumR_plus (fun uv => if inc x uv then real cfg d ws a P uv ps else 0)). apply sumR_ext. intros uv _. destruct (inc x uv); ring. }
      assert (B0 : 0 <= sumR (map (fun uv => if inc x uv then doc d ws a uv ps - real cfg d ws a P uv ps else 0) (all_pairs n))).
      { apply sumR_nonneg. intros [u v] I. apply all_pairs_In in I. pose proof (real_doc cfg d ws seed omp_max team a CI Ha P IP HLE u v ps Hp I). destruct (inc x (u, v)); lra. }
      assert (B1 : sumR (map (fun uv => if inc x uv then doc d ws a uv ps - real cfg d ws a P uv ps else 0) (all_pairs n)) <= sumR (map (fun uv => doc d ws a uv ps - real cfg d ws a P uv ps) (all_pairs n))).
      { apply sumR_le. intros [u v] I. apply all_pairs_In in I. pose proof (real_doc cfg d ws seed omp_max team a CI Ha P IP HLE u v ps Hp I). destruct (inc x (u, v)); lra. }
      lra. }
    set (m := over_others _ _ _) in *. assert (HG : is_points_mean n d (fun ps => - lost_edges d ws lo hi + F ps) (- lost_edges d ws lo hi + m)) by (apply points_mean_plus; [apply points_mean_const|exact HF]).
    assert (LE : - lost_edges d ws lo hi + m <= pval n d K). { apply (points_mean_le d n (fun ps => - lost_edges d ws lo hi + F ps) K); [|exact HG|exact HK]. intros ps Hp. apply (LO ps Hp). }
    split; [lra|]. apply (points_mean_le d n K F _ _); [|exact HK|exact HF]. intros ps Hp. apply (LO ps Hp).
Qed.
(** threshold model: F ps is the degree of x in every returned graph *)
Theorem C82_threshold_node_degree : forall cfg rg d ws seed omp_max team, good_rng rg -> cost_input d ws seed omp_max team -> forall x, (x < length ws)%nat ->
  exists F, (forall ps, Mean.points_in (length ws) d ps -> forall o, girg_outcome ideal_env cfg rg ws ps AInf seed omp_max team o -> node_degree (length ws) o x = F ps) /\
    is_points_mean (length ws) d F (over_others (length ws) x (fun u => chance_thr (volume d ws u x))).
Proof.
  intros cfg rg d ws seed omp_max team GR CI x Hx. destruct (cost_ctx _ _ _ _ _ CI cfg) as (P & NO & IP & HD & HLE & _). set (n := length ws) in *.
  assert (Hd : (1 <= d)%nat) by (pose proof (ci_dim _ _ _ _ _ CI); lia).
  exists (fun ps => over_others n x (fun u => threshold_rule d (nth u ws 0 * nth x ws 0 / sumR ws) (tdist (nth u ps []) (nth x ps [])))). split.
  - intros ps Hp o Ho. pose proof (cost_girg _ _ _ _ _ _ CI Hp) as HI. destruct (C01_threshold_graph_is_exact cfg rg _ ws ps seed omp_max team HI GR) as [_ X]. destruct (X _ Ho) as (edges & -> & XE).
    destruct (C02_simple_graph cfg rg _ ws ps AInf seed omp_max team HI GR _ Ho) as (e & E & ND & SL & NR). injection E as <-. cbn [node_degree]. rewrite length_filter. unfold over_others. apply sumR_ext. intros u Hu. apply in_seq in Hu.
    destruct (Nat.eqb_spec u x) as [->|N].
    + destruct (joinedb edges x x) eqn:J; [|reflexivity]. apply joinedb_In in J. exfalso. destruct J as [J|J]; exact (SL x J).
    + specialize (XE u x ltac:(lia) Hx N). pose proof (tdist_is d _ _ (in_points _ _ _ u Hp ltac:(fold n; lia)) (in_points _ _ _ x Hp Hx)) as TD. unfold threshold_rule. destruct (Rlt_dec _ _) as [L|L].
      * replace (joinedb edges u x) with true; [reflexivity|]. symmetry. apply joinedb_In, XE. exists (tdist (nth u ps []) (nth x ps [])). rewrite Nat2N.id. split; [exact TD|exact L].
      * destruct (joinedb edges u x) eqn:J; [|reflexivity]. apply joinedb_In, XE in J. destruct J as (t & T & Lt). rewrite Nat2N.id in Lt. rewrite <- (torus_dist_unique _ _ _ _ TD T) in Lt. contradiction.
  - unfold over_others. apply (points_mean_sum n d (fun u ps => if (u =? x)%nat then 0 else threshold_rule d (nth u ws 0 * nth x ws 0 / sumR ws) (tdist (nth u ps []) (nth x ps [])))). intros u Hu. apply in_seq in Hu.
    destruct (Nat.eqb_spec u x) as [E|N]; [apply points_mean_const|]. set (k := nth u ws 0 * nth x ws 0 / sumR ws). assert (K0 : 0 < k) by (apply (weight_term cfg d ws P IP); fold n; lia).
    apply (pair_mean_two n d (threshold_rule d k)); [|lia|exact Hx|exact N]. intros y Hy. pose proof (threshold_mean d k y Hd K0 Hy) as M. rewrite (is_RInt_unique _ _ _ _ (threshold_closed d k Hd K0)) in M.
    replace (chance_thr (volume d ws u x)) with (capped idR (2 ^ d * k)); [exact M|]. unfold chance_thr, volume, capped, idR. fold k. unfold Rmin. destruct (Rge_dec _ _), (Rle_dec _ _); lra.
Qed.
(** the two sums are those of the weights: at most 2^d w_x for the threshold model, with equality up to the missing loop if no pair is connected with
    certainty; at most a/(a-1) times that for alpha > 1 *)
Lemma others_volume d ws x : (x < length ws)%nat -> sumR ws <> 0 -> over_others (length ws) x (fun u => volume d ws u x) = 2 ^ d * nth x ws 0 * (1 - nth x ws 0 / sumR ws).
Proof.
  intros Hx HW. assert (E : over_others (length ws) x (fun u => volume d ws u x) = sumR (map (fun u => 2 ^ d * (nth x ws 0 / sumR ws) * nth u ws 0) (seq 0 (length ws))) - sumR (map (fun u => if (u =? x)%nat then volume d ws x x else 0) (seq 0 (length ws)))).
  { unfold over_others. assert (Q : forall a b c : R, a + b = c -> a = c - b) by (intros; lra). apply Q. rewrite <- (Draws_Bound.sumR_plus (fun u => if (u =? x)%nat then 0 else volume d ws u x)). apply sumR_ext. intros u _. unfold volume. destruct (Nat.eqb_spec u x) as [->|]; unfold Rdiv; ring. }
  rewrite E, sum_ind by exact Hx. rewrite sumR_scal, sumR_nth. unfold volume. field. exact HW.
Qed.
Lemma others_le n x c c' : (forall u, (u < n)%nat -> u <> x -> c u <= c' u) -> over_others n x c <= over_others n x c'.
Proof. intros H. unfold over_others. apply sumR_le. intros u Hu. apply in_seq in Hu. destruct (Nat.eqb_spec u x); [lra|apply H; [lia|assumption]]. Qed.
Lemma others_scal n x k c : over_others n x (fun u => k * c u) = k * over_others n x c.
Proof. unfold over_others. rewrite <- sumR_scal. apply sumR_ext. intros u _. destruct (u =? x)%nat; ring. Qed.
Lemma chance_bounds a z : 1 < a -> 0 < z -> Rmin 1 z <= chance a z <= a / (a - 1) * z.
Proof.
  intros Ha Hz. unfold chance. assert (D0 : 0 < / (a - 1)) by (apply Rinv_0_lt_compat; lra). assert (E1 : a / (a - 1) = 1 + / (a - 1)) by (field; lra). rewrite E1. unfold Rdiv.
  destruct (Rge_dec z 1) as [G|G]; [rewrite Rmin_left by lra; split; nra|]. rewrite Rmin_right by lra. pose proof (exp_pos (a * ln z)) as PP. fold (Rpower z a) in PP.
  assert (LE : Rpower z a <= z). { rewrite <- (Rpower_1 z Hz) at 2. unfold Rpower. destruct (Req_dec z 1) as [->|N]; [rewrite ln_1, !Rmult_0_r; lra|]. left. apply exp_increasing. assert (ln z < 0) by (rewrite <- ln_1; apply ln_increasing; lra). nra. }
  split; nra.
Qed.
Theorem C82_proportional : forall d ws x, (x < length ws)%nat -> (forall w, In w ws -> 0 < w) ->
  let own := 2 ^ d * nth x ws 0 * (1 - nth x ws 0 / sumR ws) in
  over_others (length ws) x (fun u => chance_thr (volume d ws u x)) <= own /\
  (forall a, 1 < a -> over_others (length ws) x (fun u => chance_thr (volume d ws u x)) <= over_others (length ws) x (fun u => chance a (volume d ws u x)) <= a / (a - 1) * own) /\
  ((forall u, (u < length ws)%nat -> u <> x -> 2 ^ d * nth u ws 0 * nth x ws 0 <= sumR ws) -> over_others (length ws) x (fun u => chance_thr (volume d ws u x)) = own).
Proof.
  intros d ws x Hx HP own.
  assert (W0 : 0 < sumR ws). { rewrite <- (sumR_nth ws). apply Rlt_le_trans with (nth x ws 0); [apply HP, nth_In, Hx|]. rewrite <- (sum_ind (length ws) x Hx (nth x ws 0)). apply sumR_le. intros u Hu. apply in_seq in Hu. assert (0 < nth u ws 0) by (apply HP, nth_In; lia). destruct (Nat.eqb_spec u x) as [->|]; lra. }
  assert (OV : over_others (length ws) x (fun u => volume d ws u x) = own) by (apply others_volume; [exact Hx|lra]).
  assert (P2 : 0 < 2 ^ d) by (apply pow_lt; lra).
  assert (V0 : forall u, (u < length ws)%nat -> 0 < volume d ws u x). { intros u Hu. unfold volume. apply Rmult_lt_0_compat; [exact P2|]. apply Rdiv_lt_0_compat; [|exact W0]. apply Rmult_lt_0_compat; apply HP, nth_In; assumption. }
  split; [|split].
  - rewrite <- OV. apply others_le. intros u _ _. apply Rmin_r.
  - intros a Ha. split; [apply others_le; intros u Hu _; now apply chance_bounds, V0|]. rewrite <- OV, <- others_scal. apply others_le. intros u Hu _. now apply chance_bounds, V0.
  - intros H. rewrite <- OV. unfold over_others. apply sumR_ext. intros u Hu. apply in_seq in Hu. destruct (Nat.eqb_spec u x) as [|N]; [reflexivity|]. unfold chance_thr. apply Rmin_right. specialize (H u ltac:(lia) N). unfold volume.
    apply Rmult_le_reg_r with (sumR ws); [exact W0|]. replace (2 ^ d * (nth u ws 0 * nth x ws 0 / sumR ws) * sumR ws) with (2 ^ d * nth u ws 0 * nth x ws 0) by (field; lra). lra.
Qed.

(** ** Non-vacuity *)
(** four nodes of weight 1/4 in one dimension: every node has the expected degree 3/8 in the threshold model *)
Example C82_four : cost_input 1 [1 / 4; 1 / 4; 1 / 4; 1 / 4] 12 4 4 /\ is_smallest [1 / 4; 1 / 4; 1 / 4; 1 / 4] (1 / 4) /\ is_largest [1 / 4; 1 / 4; 1 / 4; 1 / 4] (1 / 4) /\
  over_others 4 2 (fun u => chance_thr (volume 1 [1 / 4; 1 / 4; 1 / 4; 1 / 4] u 2)) = 3 / 8.
Proof.
  destruct (ex_four_input (1 / 4) ltac:(lra)) as (A & B & C). split; [exact A|]. split; [exact B|]. split; [exact C|].
  destruct (C82_proportional 1 [1 / 4; 1 / 4; 1 / 4; 1 / 4] 2 ltac:(cbn; lia) ltac:(intros w I; cbn in I; intuition lra)) as (_ & _ & H). cbn [length] in H. rewrite H.
  - unfold sumR. cbn [nth fold_right]. field.
  - intros u Hu _. unfold sumR. cbn [fold_right]. destruct u as [|[|[|[|u]]]]; [| | | |lia]; cbn [nth]; lra.
Qed.

Print Assumptions C82_node_degree.
Print Assumptions C82_threshold_node_degree.
Print Assumptions C82_proportional.
