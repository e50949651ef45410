(** Property C70: how many random numbers a graph with finite alpha costs. *)
From Coq Require Import Arith NArith ZArith List Bool Reals Permutation Lia Lra Psatz.
From Flocq Require Import Core.
From Coquelicot Require Import Coquelicot.
From Verif Require Import Base Sched Bits_Model Bits_Proofs Coord_Model Coord_Proofs Coord_Geo IntSort_Model Cover Tree_Model Tree_Proofs Tree_Build Tree_Plan Tree_Run Girg_Model Girg_Proofs Girg_Num
  Prop_Girg Mean Prop_Mean Cost_Touch GirgCost_Model GirgCost_Proofs GirgCost_Count Prop_Cost Prop_Work Prob_Spec Prob Prob_Events Prob_Girg Prob_Law Mean_Cells Draws_Law Draws_Bound Draws_Mean.
Import ListNotations.
Local Open Scope R_scope.

(** ** Specification *)
(** The engines are tapes of independent uniform random numbers ([tape_rng], one tape per thread, as in C08); [counted] adds a counter of the
    numbers taken, [total_draws] sums the counters of all threads at the end of the run. For the positions ps the constructor and generateEdges
    have defined results for all tapes, and whatever the result of the constructor (the schedule of its loops may vary), the mean over all tapes
    of the number of random numbers generateEdges takes is v. *)
Definition expected_draws (cfg : config) (d : nat) (ws : list R) (a : R) (seed : Z) (omp_max team : nat) (ps : list (list R)) (v : R) : Prop :=
  let D := N.of_nat d in
  let run t tapes := edges_outcome ideal_env cfg D t (AFin a) (counted (tape_rng (seeded seed tapes))) seed omp_max team in
  (exists t, tree_outcome ideal_env cfg D ws ps omp_max (Some t)) /\
  forall t, tree_outcome ideal_env cfg D ws ps omp_max (Some t) ->
    (exists out, forall tapes, run t tapes (Some (out tapes))) /\
    forall out, (forall tapes, length tapes = omp_max -> run t tapes (Some (out tapes))) -> expects_n omp_max (fun tapes => INR (total_draws (out tapes))) v.

(** ** Proofs *)
Lemma points_nth n d ps u : points_in n d ps -> (u < n)%nat -> in_cube d (nth u ps []).
Proof. intros [L F] H. rewrite List.Forall_forall in F. apply F, nth_In. lia. Qed.
Section Value.
  Variables (cfg : config) (d : nat) (ws : list R) (P : tparams) (a : R).
  Notation D := (N.of_nat d).
  Notation plan0 := (plan cfg D P (N.to_nat (p_levels P - 1)) 0%N 0%N 0%N).
  Definition mean_draws (ps : list (list R)) : R := sumR (map (@call_draws D ws ps cfg P (seq 0 (length ws)) a) plan0).
End Value.
Section Runs.
  Context {d : nat} {ws : list R} {ps : list (list R)} {seed : Z} {omp_max team : nat} (HI : girg_input (N.of_nat d) ws ps seed omp_max team).
  Variables (cfg : config) (P : tparams) (NO : num_ok ideal_env (N.of_nat d) ws P) (IP : ideal_params ws P) (a : R) (Ha : 1 < a) (Hs : (0 <= seed)%Z).
  Notation D := (N.of_nat d).
  Notation plan0 := (plan cfg D P (N.to_nat (p_levels P - 1)) 0%N 0%N 0%N).
  Lemma mean_draws_eq t ord : tree_spec ideal_env cfg D ws ps P t ord -> mean_draws cfg d ws P a ps = sumR (map (@call_draws D ws ps cfg P ord a) plan0).
  Proof.
    intros TS. unfold mean_draws. apply sumR_ext. intros x _. apply call_draws_len. intros i A l _. apply V_perm. apply Permutation_sym, (ts_perm _ _ _ _ _ _ _ _ TS).
  Qed.
  Lemma draws_value : expected_draws cfg d ws a seed omp_max team ps (mean_draws cfg d ws P a ps).
  Proof.
    destruct (use_build HI cfg P NO) as (t & ord & TS & HT & U). split; [now exists t|]. intros t' HT'. specialize (U _ HT'). injection U as <-. split.
    - apply (edges_runs HI cfg P NO t' ord TS a Hs).
    - intros out Hout. rewrite (mean_draws_eq t' ord TS). apply (edges_count_law HI cfg P NO IP t' ord TS a Hs out Hout).
  Qed.
  Lemma draws_le : mean_draws cfg d ws P a ps <= INR (length plan0) + sumR (map (fun uv => @pair_bound D ws ps P a (fst uv) (snd uv)) (all_pairs (length ws))).
  Proof.
    destruct (use_build HI cfg P NO) as (t & ord & TS & _ & _). rewrite (mean_draws_eq t ord TS). apply (draws_bound HI cfg P NO IP t ord TS a). lra.
  Qed.
End Runs.
Lemma draws_cells cfg d ws P a ps qs : dim_ok (N.of_nat d) -> (p_c P <= 30)%Z -> p_levels P = (base_level (N.of_nat d) (p_c P) 0 0 + 1)%N ->
  (forall x, In x (plan cfg (N.of_nat d) P (N.to_nat (p_levels P - 1)) 0%N 0%N 0%N) -> (call_level x < p_levels P)%N) ->
  points_in (length ws) d ps -> points_in (length ws) d qs -> map (map (coordR (p_levels P))) ps = map (map (coordR (p_levels P))) qs -> mean_draws cfg d ws P a ps = mean_draws cfg d ws P a qs.
Proof.
  intros HD Hc HLE HX Hp Hq E. unfold mean_draws. apply sumR_ext. intros x Hx. apply call_draws_len. intros i A l El. specialize (HX x Hx). rewrite El in HX. f_equal. unfold V. apply filter_ext_in. intros u Hu. apply in_seq in Hu. f_equal. f_equal.
  unfold cel, cell_of, cellR, coordsR, pos. f_equal. f_equal. apply (coords_eq (p_levels P) l d); [lia|apply (points_nth _ _ _ _ Hp); lia|apply (points_nth _ _ _ _ Hq); lia|].
  rewrite <- !(map_nth (map (coordR (p_levels P)))). now rewrite E.
Qed.

(** ** Theorem *)
(** For positions drawn uniformly from the unit cube the expected number of random numbers is linear in the sum of the weights (C67 bounds the
    last term, the number of calls of the samplers): [2 6^d W + 10 6^d W / (1 - 2^(-d (a - 1))) + 6^d (6 + 2 L^2 + 4 W / lo^2)]. *)
Theorem C70_expected_draws : forall cfg d ws seed omp_max team a lo hi, cost_input d ws seed omp_max team -> (0 <= seed)%Z -> 1 < a -> is_smallest ws lo -> is_largest ws hi ->
  exists (F : list (list R) -> R) (m : R), (forall ps, points_in (length ws) d ps -> expected_draws cfg d ws a seed omp_max team ps (F ps)) /\
    is_points_mean (length ws) d F m /\
    m <= 2 * 6 ^ d * sumR ws + 10 * 6 ^ d * sumR ws / (1 - Rpower 2 (- INR d * (a - 1))) + 6 ^ d * (6 + 2 * (layers_max lo hi) ^ 2 + 4 * density ws lo).
Proof.
  intros cfg d ws seed omp_max team a lo hi CI Hs Ha HLo HHi. destruct (cost_ctx _ _ _ _ _ CI cfg) as (P & NO & IP & HD & HLE & _). pose proof (no_c _ _ _ _ NO) as Hc.
  set (F := mean_draws cfg d ws P a). set (p0 := plan cfg (N.of_nat d) P (N.to_nat (p_levels P - 1)) 0%N 0%N 0%N).
  assert (EXP : exists ps, points_in (length ws) d ps).
  { exists (repeat (repeat 0 d) (length ws)). split; [apply repeat_length|]. apply List.Forall_forall. intros x Hx. apply repeat_spec in Hx as ->. split; [apply repeat_length|]. apply List.Forall_forall. intros y Hy. apply repeat_spec in Hy as ->. lra. }
  assert (HX : forall x, In x p0 -> (call_level x < p_levels P)%N).
  { intros x Hx. destruct EXP as (ps & Hp). pose proof (cost_girg _ _ _ _ _ _ CI Hp) as HI. destruct (use_build HI cfg P NO) as (t & ord & TS & _ & _).
    pose proof (plan0_ok ideal_env cfg (N.of_nat d) ws ps P HD NO (gi_len _ _ _ _ _ _ HI) (gi_n _ _ _ _ _ _ HI) t ord TS _ Hx) as Hok. rewrite HLE.
    destruct x as [A B l i j|A B l i j]; [destruct Hok as (_ & _ & _ & _ & Hl)|destruct Hok as (_ & _ & _ & _ & Hl & _)]; cbn [call_level]; pose proof (base_le_00 (N.of_nat d) (p_c P) HD i j); lia. }
  destruct (cells_mean (p_levels P) (length ws) d F) as [m Hm]; [intros ps qs Hp Hq E; now apply draws_cells|].
  exists F, m. split; [|split; [exact Hm|]].
  - intros ps Hp. apply (draws_value (cost_girg _ _ _ _ _ _ CI Hp) cfg P NO IP a Hs).
  - set (G := fun ps => INR (length p0) + sumR (map (fun uv => @pair_bound (N.of_nat d) ws ps P a (fst uv) (snd uv)) (all_pairs (length ws)))).
    set (M := INR (length p0) + sumR (map (fun uv => @mean_bound d ws P a (fst uv) (snd uv)) (all_pairs (length ws)))).
    assert (HG : is_points_mean (length ws) d G M).
    { unfold G, M. apply points_mean_plus; [apply points_mean_const|]. apply (points_mean_sum (length ws) d (fun uv ps => @pair_bound (N.of_nat d) ws ps P a (fst uv) (snd uv))).
      intros [u v] I. unfold all_pairs in I. apply in_flat_map in I as (v' & Hv' & I). apply in_map_iff in I as (u' & E & Hu'). injection E as -> ->. apply in_seq in Hv', Hu'. cbn [fst snd]. apply pair_mean; [apply (ci_dim _ _ _ _ _ CI)|lia|lia|lia]. }
    assert (LE : m <= M). { apply (points_mean_le d (length ws) F G m M); [|exact Hm|exact HG]. intros ps Hp. apply (draws_le (cost_girg _ _ _ _ _ _ CI Hp) cfg P NO IP a Ha). }
    pose proof (pairs_bound (ci_dim _ _ _ _ _ CI) IP NO a Ha) as PB. pose proof (plan_length cfg d ws seed omp_max team a lo hi P CI HLo HHi NO) as PL. fold p0 in PL. unfold rho in PB. unfold M in LE. lra.
Qed.

(** ** Non-vacuity *)
Example C70_inputs : cost_input 2 [1; 3] 12 4 4 /\ is_smallest [1; 3] 1 /\ is_largest [1; 3] 3 /\ cost_input 1 ex_ws 12 4 3 /\ points_in (length ex_ws) 1 ex_ps.
Proof.
  split; [apply C66_inputs|split; [apply C67_inputs|split; [apply C67_inputs|split; [apply C66_inputs|]]]].
  pose proof (ex_input 0 1 1 ltac:(lia) ltac:(lia) ltac:(lia)) as HI. split; [symmetry; apply (gi_len _ _ _ _ _ _ HI)|]. eapply List.Forall_impl; [|apply (gi_pos _ _ _ _ _ _ HI)]. intros x [L F]. split; [lia|exact F].
Qed.
(** two nodes of small weight: wherever they are, one number is drawn *)
Example C70_two_nodes : forall cfg a ps, 1 < a -> points_in 2 2 ps -> expected_draws cfg 2 [1; 3] a 12 4 4 ps 1.
Proof.
  intros cfg a ps Ha Hp. destruct C70_inputs as (CI & HLo & HHi & _). destruct (cost_ctx _ _ _ _ _ CI cfg) as (P & NO & IP & HD & HLE & _). pose proof (cost_girg _ _ _ _ _ _ CI Hp) as HI.
  pose proof (draws_value HI cfg P NO IP a ltac:(lia)) as DV. destruct (use_build HI cfg P NO) as (t & ord & TS & _ & _). rewrite (mean_draws_eq cfg P a t ord TS) in DV.
  destruct (layers_le _ _ P 1 3 (ci_weights _ _ _ _ _ CI) NO HLo HHi) as [E0 _].
  assert (C2 : (p_c P <= 2)%Z).
  { destruct (Z_le_gt_dec (p_c P) 2) as [|G]; [assumption|]. pose proof (ip_c _ _ IP ltac:(lia)) as Q. rewrite E0, (ip_W _ _ IP) in Q. assert (B : b2 3 <= b2 (p_c P)) by (apply bpow_le; lia). change (b2 3) with 8 in B. unfold sumR in Q. cbn [fold_right] in Q. lra. }
  assert (L1 : p_levels P = 1%N).
  { rewrite HLE. unfold base_level. change (Z.of_N (N.of_nat 2)) with 2%Z. assert (Q : (Z.quot (p_c P - Z.of_nat 0 - Z.of_nat 0 - 2) 2 <= 0)%Z). { pose proof (Z.quot_le_mono (p_c P - Z.of_nat 0 - Z.of_nat 0 - 2) 0 2 ltac:(lia) ltac:(lia)) as Q. rewrite Z.quot_0_l in Q by lia. exact Q. } rewrite Z.max_r by exact Q. reflexivity. }
  rewrite L1 in DV. pose proof (root_level _ P HD HLE) as RL.
  assert (TT : touchb cfg (N.of_nat 2) 0 0 0 = true). { unfold touchb. now rewrite (touching_low cfg _ 0 0 0 HD ltac:(lia) ltac:(lia) RL RL). }
  set (p0 := plan cfg (N.of_nat 2) P (N.to_nat (1 - 1)) 0%N 0%N 0%N) in *.
  assert (P0 : forall x, In x p0 -> isI x = true).
  { intros x Hx. unfold p0, plan in Hx. change (N.to_nat (1 - 1)) with 0%nat in Hx. cbn [gplan] in Hx. rewrite TT in Hx. cbn [negb] in Hx. apply in_app_or in Hx as [Hx|[]]. unfold gnear in Hx. apply in_flat_map in Hx as (ij & _ & Hx). destruct (_ || _)%bool; [|destruct Hx]. destruct Hx as [<-|[]]. reflexivity. }
  pose proof (calls_perm HI cfg P NO t ord TS) as PM. rewrite L1 in PM. fold p0 in PM.
  assert (EQ : sumR (map (@call_draws (N.of_nat 2) [1; 3] ps cfg P ord a) p0) = INR (length (flat_map (call_pairs ideal_env cfg (N.of_nat 2) [1; 3] ps P ord) p0))).
  { clear PM DV. revert P0. generalize p0 as X. induction X as [|x X IH]; intros HX; [reflexivity|]. cbn [flat_map map]. rewrite app_length, plus_INR, <- IH by (intros; apply HX; now right). specialize (HX x (or_introl eq_refl)). destruct x; [reflexivity|discriminate]. }
  rewrite EQ in DV. rewrite <- (map_length norm), (Permutation_length PM) in DV. exact DV.
Qed.
Print Assumptions C70_expected_draws.
