(** Property C66: how many pairs of points a threshold graph costs. *)
From Coq Require Import Arith NArith ZArith List Bool Reals Permutation Lia Lra Psatz.
From Flocq Require Import Core.
From Coquelicot Require Import Coquelicot.
From Verif Require Import Base Sched Bits_Proofs Coord_Model Coord_Proofs Coord_Geo Coord_Torus Prop_Coord Tree_Model Tree_Build Tree_Plan Tree_Run Tree_Proofs Girg_Model Girg_Num Girg_Proofs Prop_Girg Scaling_Model Prop_Scaling Mean Prop_Mean Cost_Touch.
Import ListNotations.
Local Open Scope R_scope.

(** ** Specification *)
(** the number of pairs of nodes whose distance a run of generateEdges computes, one by one ([is_comparison]), over all threads *)
Definition comparisons {T} (rs : list (result T)) : nat := length (filter is_comparison (flat_map evs rs)).
(** the inputs of generateEdges apart from the positions *)
Record cost_input (d : nat) (ws : list R) (seed : Z) (omp_max team : nat) : Prop := {
  ci_dim : (1 <= d <= 5)%nat;
  ci_weights : weights_ok ws;
  ci_n : (N.of_nat (length ws) < 2 ^ 31)%N;
  ci_omp : (1 <= N.of_nat omp_max <= 2 ^ 17)%N;
  ci_team : (1 <= team <= omp_max)%nat;
  ci_seed : (seed < 0 \/ seed + Z.of_nat omp_max <= 2 ^ 31)%Z }.
(** every run of the constructor and of generateEdges on the positions ps makes k comparisons, and there is one *)
Definition always_compares (cfg : config) (rg : rng) (d : nat) (ws : list R) (seed : Z) (omp_max team : nat) (ps : list (list R)) (k : nat) : Prop :=
  let D := N.of_nat d in
  (exists t rs, tree_outcome ideal_env cfg D ws ps omp_max (Some t) /\ edges_outcome ideal_env cfg D t AInf rg seed omp_max team (Some rs)) /\
  (forall t rs, tree_outcome ideal_env cfg D ws ps omp_max (Some t) -> edges_outcome ideal_env cfg D t AInf rg seed omp_max team (Some rs) -> comparisons rs = k).

(** ** Proofs *)
Lemma cost_girg d ws seed omp_max team ps : cost_input d ws seed omp_max team -> points_in (length ws) d ps -> girg_input (N.of_nat d) ws ps seed omp_max team.
Proof.
  intros [H1 H2 H3 H4 H5 H6] [L F]. constructor; auto; [lia|]. eapply List.Forall_impl; [|exact F]. intros p [Lp Fp]. split; [lia|exact Fp].
Qed.
Lemma near_prob_le1 l : 0 <= near_prob l <= 1.
Proof.
  unfold near_prob. pose proof (pow2R_pos l) as P. assert (Q : INR (near_cells l) <= pow2R l). { unfold pow2R. rewrite INR_IZR_INZ. apply IZR_le. unfold near_cells. lia. }
  pose proof (pos_INR (near_cells l)). split; [apply Rmult_le_pos; [lra|left; now apply Rinv_0_lt_compat]|]. apply Rmult_le_reg_r with (pow2R l); [exact P|]. replace (INR (near_cells l) / pow2R l * pow2R l) with (INR (near_cells l)) by (field; lra). lra.
Qed.
Lemma near_prob_le3 l : near_prob l <= 3 / pow2R l.
Proof.
  unfold near_prob. pose proof (pow2R_pos l) as P. apply Rmult_le_compat_r; [left; now apply Rinv_0_lt_compat|]. replace 3 with (INR 3) by (cbn; lra). apply le_INR. unfold near_cells. lia.
Qed.
Lemma pow2R_pow l d : pow2R l ^ d = b2 (Z.of_nat d * Z.of_N l).
Proof.
  unfold pow2R. rewrite pow_IZR, <- IZR_Zpower by lia. f_equal. rewrite N2Z.inj_pow. cbn [radix_val radix2]. change (Z.of_N 2) with 2%Z. rewrite <- Z.pow_mul_r by lia. f_equal. lia.
Qed.
Section Bound.
  Context {d : nat} {ws : list R} {P : tparams} (Hd : (1 <= d)%nat) (IP : ideal_params ws P).
  Notation c := (p_c P).
  Lemma near_weight i j wu wv : In wu ws -> In wv ws -> layer_index ideal_env (p_w0 P) wu = Some i -> layer_index ideal_env (p_w0 P) wv = Some j ->
    near_prob (base_level (N.of_nat d) c i j) ^ d <= 4 * 6 ^ d * (wu * wv / p_W P).
  Proof.
    intros Iu Iv Lu Lv. apply (ip_layer _ _ IP _ _ Iu) in Lu as [Lu _]. apply (ip_layer _ _ IP _ _ Iv) in Lv as [Lv _].
    pose proof (ip_pos _ _ IP) as P0. pose proof (ip_Wpos _ _ IP) as PW. pose proof (ip_cu _ _ IP) as CU. set (w0 := p_w0 P) in *. set (W := p_W P) in *.
    assert (B : forall z, 0 < b2 z) by (intros z; apply bpow_gt_0).
    assert (WW : b2 (Z.of_nat i + Z.of_nat j) * (w0 * w0) <= wu * wv).
    { rewrite bpow_plus. replace (b2 (Z.of_nat i) * b2 (Z.of_nat j) * (w0 * w0)) with ((b2 (Z.of_nat i) * w0) * (b2 (Z.of_nat j) * w0)) by ring. apply Rmult_le_compat; try assumption; left; apply Rmult_lt_0_compat; auto. }
    assert (S6 : 1 <= 6 ^ d) by (apply pow_R1_Rle; lra). pose proof (near_prob_le1 (base_level (N.of_nat d) c i j)) as [N0 N1].
    (* from W <= 4 K w0^2 to the claim *)
    assert (FIN : forall K X, 0 < K -> X <= K -> W <= 4 * 6 ^ d * / K * (wu * wv) -> X <= 4 * 6 ^ d * (wu * wv / W)).
    { intros K X HK HX H. apply Rle_trans with K; [exact HX|]. apply Rmult_le_reg_r with (W * / K); [apply Rmult_lt_0_compat; [exact PW|now apply Rinv_0_lt_compat]|].
      replace (K * (W * / K)) with W by (field; lra). replace (4 * 6 ^ d * (wu * wv / W) * (W * / K)) with (4 * 6 ^ d * / K * (wu * wv)) by (field; lra). exact H. }
    set (e := (c - Z.of_nat i - Z.of_nat j - 2)%Z). destruct (Z_lt_le_dec e 0) as [NE|NE].
    - apply (FIN 1); [lra| |].
      + rewrite <- (pow1 d). apply pow_incr. lra.
      + rewrite Rinv_1, Rmult_1_r. apply Rle_trans with (4 * (b2 (Z.of_nat i + Z.of_nat j) * (w0 * w0))).
        * left. eapply Rlt_le_trans; [exact CU|]. replace (4 * (b2 (Z.of_nat i + Z.of_nat j) * (w0 * w0))) with (b2 2 * b2 (Z.of_nat i + Z.of_nat j) * (w0 * w0)) by (change (b2 2) with 4; ring). apply Rmult_le_compat_r; [nra|]. rewrite <- bpow_plus. apply bpow_le. unfold e in NE. lia.
        * apply Rle_trans with (4 * (wu * wv)); [lra|]. assert (0 < wu * wv) by (eapply Rlt_le_trans; [|exact WW]; apply Rmult_lt_0_compat; [apply B|nra]). nra.
    - set (l := base_level (N.of_nat d) c i j) in *.
      assert (EL : (Z.of_nat d * Z.of_N l + Z.of_nat d >= e + 1)%Z).
      { unfold l, base_level. fold e. rewrite Z2N.id by lia. rewrite nat_N_Z. pose proof (Z.quot_rem' e (Z.of_nat d)) as Q. pose proof (Z.rem_bound_pos e (Z.of_nat d) ltac:(lia) ltac:(lia)) as M. pose proof (Z.quot_pos e (Z.of_nat d) ltac:(lia) ltac:(lia)). rewrite Z.max_l by lia. lia. }
      apply (FIN (3 ^ d / b2 (Z.of_nat d * Z.of_N l))).
      + apply Rdiv_lt_0_compat; [apply pow_lt; lra|apply B].
      + rewrite <- pow2R_pow. unfold Rdiv. rewrite <- pow_inv, <- Rpow_mult_distr. apply pow_incr. split; [exact N0|apply near_prob_le3].
      + assert (E63 : 6 ^ d = 3 ^ d * b2 (Z.of_nat d)). { replace 6 with (3 * 2) by lra. rewrite Rpow_mult_distr. f_equal. replace 2 with (pow2R 1) by reflexivity. rewrite pow2R_pow. f_equal. lia. }
        replace (4 * 6 ^ d * / (3 ^ d / b2 (Z.of_nat d * Z.of_N l)) * (wu * wv)) with (b2 2 * b2 (Z.of_nat d) * b2 (Z.of_nat d * Z.of_N l) * (wu * wv)).
        2:{ rewrite E63. change (b2 2) with 4. field. split; [apply Rgt_not_eq, B|apply pow_nonzero; lra]. }
        apply Rle_trans with (b2 2 * b2 (Z.of_nat d) * b2 (Z.of_nat d * Z.of_N l) * (b2 (Z.of_nat i + Z.of_nat j) * (w0 * w0))).
        2:{ apply Rmult_le_compat_l; [|exact WW]. rewrite <- !bpow_plus. apply bpow_ge_0. }
        left. eapply Rlt_le_trans; [exact CU|]. rewrite <- (Rmult_assoc _ _ (w0 * w0)), <- !bpow_plus. apply Rmult_le_compat_r; [nra|]. apply bpow_le. unfold e in *. lia.
  Qed.
End Bound.
Lemma sumR_scal {A} (k : R) (f : A -> R) l : sumR (map (fun x => k * f x) l) = k * sumR (map f l).
Proof. unfold sumR. induction l as [|x l IH]; cbn; [ring|]. rewrite IH. ring. Qed.
Lemma sumR_le {A} (f g : A -> R) l : (forall x, In x l -> f x <= g x) -> sumR (map f l) <= sumR (map g l).
Proof. unfold sumR. induction l as [|x l IH]; intros H; cbn; [lra|]. pose proof (H x (or_introl eq_refl)). specialize (IH (fun y Hy => H y (or_intror Hy))). lra. Qed.
Lemma sumR_nth ws : sumR (map (fun u => nth u ws 0) (seq 0 (length ws))) = sumR ws.
Proof.
  f_equal. apply (nth_ext _ _ (nth 0%nat ws 0) 0); [now rewrite map_length, seq_length|]. intros k Hk. rewrite map_length, seq_length in Hk. rewrite (map_nth (fun u => nth u ws 0)). now rewrite seq_nth.
Qed.
Lemma keep_release cfg x : ndebug cfg = true -> keep cfg AInf x = isI x.
Proof. intros H. unfold keep. rewrite H. cbn. apply orb_false_r. Qed.
Section Runs.
  Context {D : N} {ws : list R} {ps : list (list R)} {seed : Z} {omp_max team : nat} (HI : girg_input D ws ps seed omp_max team).
  Variables (cfg : config) (rg : rng) (P : tparams) (NO : num_ok ideal_env D ws P) (GG : good_rng rg) (REL : ndebug cfg = true).
  Notation n := (length ws).
  Notation ind := (fun u v => if near (lvl D ws P u v) (nth u ps []) (nth v ps []) then 1 else 0).
  Lemma run_count t rs : tree_outcome ideal_env cfg D ws ps omp_max (Some t) -> edges_outcome ideal_env cfg D t AInf rg seed omp_max team (Some rs) ->
    flat_map evs rs = filter is_comparison (flat_map evs rs) /\
    2 * INR (comparisons rs) = sumR (map (fun u => sumR (map (fun v => if (u =? v)%nat then 0 else ind u v) (seq 0 n))) (seq 0 n)).
  Proof.
    intros HT HE. destruct (use_build HI cfg P NO) as (t' & ord & TS & _ & U). specialize (U _ HT). injection U as <-.
    pose proof (omp_nat _ (gi_omp _ _ _ _ _ _ HI)) as OM.
    destruct (edges_ok ideal_env cfg D ws ps P ideal_good (gi_dim _ _ _ _ _ _ HI) NO (gi_len _ _ _ _ _ _ HI) (use_vp HI) (gi_n _ _ _ _ _ _ HI) AInf rg seed omp_max team GG (proj1 OM) (use_fpl HI) (gi_team _ _ _ _ _ _ HI) (use_seed HI) t ord TS) as [_ Q].
    destruct (Q _ HE) as (rs' & E' & SA). injection E' as <-. clear Q.
    pose proof (levels_eq _ cfg _ _ ps _ NO t ord TS) as HLE.
    assert (ALL : forallb is_comparison (flat_map evs rs) = true).
    { unfold edges_outcome in HE. rewrite (use_seed HI) in HE. destruct HE as (gens & _ & HE). rewrite (ts_P _ _ _ _ _ _ _ _ TS) in HE.
      destruct (thread_calls_ok cfg D P AInf (gi_dim _ _ _ _ _ _ HI) (no_c _ _ _ _ NO) HLE ideal_env omp_max team (use_fpl HI) (gi_team _ _ _ _ _ _ HI)) as (calls & Ec & _ & PC). rewrite Ec in HE. cbn [obind] in HE. symmetry in HE.
      apply (threads_pairs ideal_env cfg D t AInf rg calls gens rs); [|exact HE]. intros x Hx. apply (Permutation_in _ PC) in Hx. unfold full_plan in Hx. apply filter_In in Hx as [_ K]. now rewrite keep_release in K. }
    assert (FE : filter is_comparison (flat_map evs rs) = flat_map evs rs). { clear -ALL. revert ALL. generalize (flat_map evs rs) as l. induction l as [|e l IH]; cbn; [reflexivity|]. rewrite andb_true_iff. intros [-> H]. now rewrite IH. }
    split; [now symmetry|]. unfold comparisons. rewrite FE, (comparisons_pairs rs ALL).
    pose proof (sa_perm _ _ _ _ _ _ _ _ _ _ _ SA) as PM. pose proof (sa_once _ _ _ _ _ _ _ _ _ _ _ SA) as ON. pose proof (sa_range _ _ _ _ _ _ _ _ _ _ _ SA) as RG.
    symmetry. apply count_edges.
    - apply (NoDup_count_occ pair_dec). intros [u v]. destruct (in_dec pair_dec (u, v) (flat_map pairs_of rs)) as [I|I]; [|apply (count_occ_not_In pair_dec) in I; lia]. destruct (RG u v I) as (Hu & Hv & Huv). specialize (ON u v Hu Hv Huv). unfold cnt2 in ON. lia.
    - intros u v I. destruct (RG u v I) as (Hu & Hv & _). now split.
    - intros u I. destruct (RG u u I) as (_ & _ & N). now apply N.
    - intros u v I J. destruct (RG u v I) as (Hu & Hv & Huv). specialize (ON u v Hu Hv Huv). unfold cnt2 in ON. apply (count_occ_In pair_dec) in I, J. lia.
    - intros u v Hu Hv Huv. assert (FP : full_plan cfg D P AInf = filter isI (plan cfg D P (N.to_nat (p_levels P - 1)) 0%N 0%N 0%N)). { unfold full_plan. apply filter_ext. intros x. now apply keep_release. }
      rewrite FP in PM. pose proof (compared_iff cfg D ws ps P (gi_dim _ _ _ _ _ _ HI) NO (gi_len _ _ _ _ _ _ HI) (use_vp HI) (gi_n _ _ _ _ _ _ HI) t ord TS u v Hu Hv Huv) as CI.
      assert (EQ : In (u, v) (flat_map pairs_of rs) \/ In (v, u) (flat_map pairs_of rs) <-> near (lvl D ws P u v) (pos ps u) (pos ps v) = true).
      { rewrite <- CI. split; intros [H|H]; [left|right|left|right]; [apply (Permutation_in _ PM)|apply (Permutation_in _ PM)|apply (Permutation_in _ (Permutation_sym PM))|apply (Permutation_in _ (Permutation_sym PM))]; exact H. }
      unfold pos in EQ. destruct (near _ _ _); split; intros H; try reflexivity; exfalso; [apply H; now apply EQ|]. apply EQ in H. discriminate.
  Qed.
End Runs.
Theorem C66_expected_comparisons : forall cfg rg d ws seed omp_max team, cost_input d ws seed omp_max team -> good_rng rg -> ndebug cfg = true ->
  exists (F : list (list R) -> nat) (m : R), (forall ps, points_in (length ws) d ps -> always_compares cfg rg d ws seed omp_max team ps (F ps)) /\
    is_points_mean (length ws) d (fun ps => INR (F ps)) m /\ m <= 2 * 6 ^ d * sumR ws.
Proof.
  intros cfg rg d ws seed omp_max team CI GG REL. set (D := N.of_nat d). set (n := length ws). set (W := sumR ws).
  destruct (ideal_num_ok D ws) as (P & NO & IP); [pose proof (ci_dim _ _ _ _ _ CI); unfold D, dim_ok; lia|apply CI|].
  set (ind := fun (ps : list (list R)) u v => if near (lvl D ws P u v) (nth u ps []) (nth v ps []) then 1 else 0).
  set (T := fun ps : list (list R) => sumR (map (fun u => sumR (map (fun v => if (u =? v)%nat then 0 else ind ps u v) (seq 0 n))) (seq 0 n))).
  set (q := fun u v => near_prob (lvl D ws P u v) ^ d).
  set (M := sumR (map (fun u => sumR (map (fun v => if (u =? v)%nat then 0 else q u v) (seq 0 n))) (seq 0 n))).
  set (F := fun ps => Z.to_nat (Zfloor (T ps / 2))).
  assert (RUN : forall ps, points_in n d ps -> forall t rs, tree_outcome ideal_env cfg D ws ps omp_max (Some t) -> edges_outcome ideal_env cfg D t AInf rg seed omp_max team (Some rs) -> INR (comparisons rs) = T ps / 2).
  { intros ps HP t rs HT HE. destruct (run_count (cost_girg _ _ _ _ _ _ CI HP) cfg rg P NO GG REL t rs HT HE) as [_ E]. fold n in E. change (2 * INR (comparisons rs) = T ps) in E. lra. }
  assert (EX : forall ps, points_in n d ps -> exists t rs, tree_outcome ideal_env cfg D ws ps omp_max (Some t) /\ edges_outcome ideal_env cfg D t AInf rg seed omp_max team (Some rs)).
  { intros ps HP. pose proof (cost_girg _ _ _ _ _ _ CI HP) as HI. destruct (use_build HI cfg P NO) as (t & ord & TS & HT & _). pose proof (omp_nat _ (gi_omp _ _ _ _ _ _ HI)) as OM.
    destruct (edges_ok ideal_env cfg D ws ps P ideal_good (gi_dim _ _ _ _ _ _ HI) NO (gi_len _ _ _ _ _ _ HI) (use_vp HI) (gi_n _ _ _ _ _ _ HI) AInf rg seed omp_max team GG (proj1 OM) (use_fpl HI) (gi_team _ _ _ _ _ _ HI) (use_seed HI) t ord TS) as [[o Ho] Q].
    destruct (Q o Ho) as (rs & -> & _). exists t, rs. now split. }
  assert (FT : forall ps, points_in n d ps -> INR (F ps) = T ps / 2).
  { intros ps HP. destruct (EX ps HP) as (t & rs & HT & HE). pose proof (RUN ps HP t rs HT HE) as E. unfold F. rewrite <- E. rewrite (INR_IZR_INZ (comparisons rs)), Zfloor_IZR, Nat2Z.id. apply INR_IZR_INZ. }
  exists F, (M / 2). split; [|split].
  - intros ps HP. split; [apply EX, HP|]. intros t rs HT HE. apply INR_eq. rewrite FT by exact HP. now apply (RUN ps HP t rs).
  - fold n. replace (M / 2) with (/ 2 * M) by field. apply (points_mean_ext d n (fun ps => / 2 * T ps)); [intros ps HP; rewrite FT by exact HP; field|]. apply points_mean_scal. unfold T, M.
    apply (points_mean_sum n d (fun u ps => sumR (map (fun v => if (u =? v)%nat then 0 else ind ps u v) (seq 0 n)))). intros u Hu. apply in_seq in Hu.
    apply (points_mean_sum n d (fun v ps => if (u =? v)%nat then 0 else ind ps u v)). intros v Hv. apply in_seq in Hv. destruct (Nat.eqb_spec u v) as [E|E]; [apply points_mean_const|]. unfold ind, q.
    apply (points_mean_two d (fun x y => if near (lvl D ws P u v) x y then 1 else 0)); [| |lia|lia|exact E].
    + intros x Hx. now apply near_mean.
    + intros x Hx. apply (cube_mean_ext d (fun y => if near (lvl D ws P u v) x y then 1 else 0)); [intros y _; now rewrite near_sym|now apply near_mean].
  - assert (PW : 0 < W) by (unfold W; rewrite <- (ip_W _ _ IP); apply (ip_Wpos _ _ IP)). set (K := 4 * 6 ^ d / W).
    assert (BM : M <= sumR (map (fun u => sumR (map (fun v => K * nth u ws 0 * nth v ws 0) (seq 0 n))) (seq 0 n))).
    { apply sumR_le. intros u Hu. apply in_seq in Hu. apply sumR_le. intros v Hv. apply in_seq in Hv. assert (Iu : In (nth u ws 0) ws) by (apply nth_In; lia). assert (Iv : In (nth v ws 0) ws) by (apply nth_In; lia).
      pose proof (proj2 (ip_min _ _ IP) _ Iu) as Gu. pose proof (proj2 (ip_min _ _ IP) _ Iv) as Gv. pose proof (ip_pos _ _ IP) as P0. assert (S6 : 0 < 6 ^ d) by (apply pow_lt; lra).
      destruct (u =? v)%nat.
      - unfold K. replace (4 * 6 ^ d / W * nth u ws 0 * nth v ws 0) with ((4 * 6 ^ d) * (nth u ws 0 * nth v ws 0 / W)) by (unfold Rdiv; ring). apply Rmult_le_pos; [lra|]. left. apply Rdiv_lt_0_compat; [apply Rmult_lt_0_compat; lra|exact PW].
      - unfold q, lvl. replace (K * nth u ws 0 * nth v ws 0) with (4 * 6 ^ d * (nth u ws 0 * nth v ws 0 / p_W P)) by (rewrite (ip_W _ _ IP); fold W; unfold K, Rdiv; ring).
        destruct (lay_spec _ _ _ _ NO u ltac:(fold n; lia)) as [Eu _]. destruct (lay_spec _ _ _ _ NO v ltac:(fold n; lia)) as [Ev _]. apply (near_weight (proj1 (ci_dim _ _ _ _ _ CI)) IP); assumption. }
    assert (SM : sumR (map (fun u => sumR (map (fun v => K * nth u ws 0 * nth v ws 0) (seq 0 n))) (seq 0 n)) = K * W * W).
    { transitivity (sumR (map (fun u => K * W * nth u ws 0) (seq 0 n))).
      - apply sumR_ext. intros u _. rewrite (sumR_scal (K * nth u ws 0) (fun v => nth v ws 0)). unfold n. rewrite sumR_nth. fold W. ring.
      - rewrite (sumR_scal (K * W) (fun u => nth u ws 0)). unfold n. rewrite sumR_nth. fold W. reflexivity. }
    rewrite SM in BM. unfold K in BM. replace (4 * 6 ^ d / W * W * W) with (4 * 6 ^ d * W) in BM by (field; lra). lra.
Qed.

(** ** Non-vacuity *)
Example C66_inputs : cost_input 2 [1; 3] 12 4 4 /\ cost_input 1 ex_ws 12 4 3 /\ good_rng ex_rng.
Proof.
  split; [|split; [|exact ex_rng_good]].
  - constructor; try (cbn; lia). exact (gi_weights _ _ _ _ _ _ ex_input2).
  - constructor; try (cbn; lia). exact ex_weights.
Qed.
Print Assumptions C66_expected_comparisons.
