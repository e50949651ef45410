(** Property C67: time and memory of the recursion, whatever the positions. *)
From Coq Require Import Arith NArith ZArith List Bool Reals Permutation Lia Lra Psatz.
From Flocq Require Import Core.
From Verif Require Import Base Sched Bits_Proofs Coord_Model Coord_Proofs Coord_Geo Prop_Prefix Tree_Model Tree_Build Tree_Plan Tree_Run Tree_Proofs Cover Girg_Model Girg_Num Girg_Proofs Prop_Girg Cost_Touch GirgCost_Model GirgCost_Proofs GirgCost_Count Prop_Cost.
Import ListNotations.
Local Open Scope R_scope.

(** ** Specification *)
Definition is_smallest (ws : list R) (w : R) : Prop := In w ws /\ forall x, In x ws -> w <= x.
Definition is_largest (ws : list R) (w : R) : Prop := In w ws /\ forall x, In x ws -> x <= w.
(** number of weight layers of a tree: at most one more than the binary logarithm of the largest quotient of two weights *)
Definition layers_max (lo hi : R) : R := 1 + log2R (hi / lo).
(** the number of cells per minimum weight that the sum of the weights allows *)
Definition density (ws : list R) (lo : R) : R := sumR ws / (lo * lo).

(** ** Proofs *)
Lemma lev_NoDup cfg D P : dim_ok D -> (p_c P <= 30)%Z -> p_levels P = (base_level D (p_c P) 0 0 + 1)%N ->
  forall k l X, (l + N.of_nat k < p_levels P)%N -> proper D l X -> NoDup (lev cfg D k l X).
Proof.
  intros HD Hc HL. assert (GE : forall k l X v, In v (lev cfg D k l X) -> (l <= snd v)%N).
  { induction k as [|k IH]; intros l X v H; cbn [lev] in H; apply in_app_or in H as [H|H]; try (apply in_map_iff in H as (ab & <- & _); cbn [snd]; lia); [destruct H|]. apply IH in H. lia. }
  induction k as [|k IH]; intros l X Hl PX; cbn [lev]; apply NoDup_app_intro.
  1,4: apply FinFun.Injective_map_NoDup; [intros [a b] [a' b'] E; injection E as -> ->; reflexivity|apply PX].
  - constructor.
  - intros v _ [].
  - apply IH; [lia|]. apply (next_proper cfg D P HD Hc HL); [lia|exact PX].
  - intros v H1 H2. apply GE in H2. apply in_map_iff in H1 as (ab & <- & _). cbn [snd] in H2. lia.
Qed.
Lemma fcell_le D c n : dim_ok D -> (N.to_nat (fcell D c n) <= n + (if (c <? 1)%Z then 0 else 2 * 2 ^ Z.to_nat (c - 1)))%nat.
Proof.
  intros HD. assert (G : forall m, N.to_nat (fcell D c m) = list_sum (map (fun k => N.to_nat (2 ^ (D * tl D c k))) (seq 0 m))).
  { induction m as [|m IH]; [reflexivity|]. cbn [fcell]. rewrite seq_S, map_app, list_sum_app, <- IH. cbn [map Nat.add]. rewrite list_sum_cons. change (list_sum []) with 0%nat. lia. }
  rewrite G. etransitivity; [apply (list_sum_le _ (fun k => 1 + (if (c <? 1)%Z then 0 else tri (Z.to_nat (c - 1)) k))%nat)|].
  - intros k _. assert (HB : (Z.of_N (D * tl D c k) <= Z.max 0 (c - Z.of_nat k - 1))%Z).
    { unfold tl, target_level. unfold dim_ok in HD. rewrite N2Z.inj_mul, Z2N.id by lia. set (e := (c - Z.of_nat k - 1)%Z). destruct (Z_lt_le_dec e 0) as [H|H].
      - assert (Z.quot e (Z.of_N D) <= 0)%Z. { pose proof (Z.quot_le_mono e 0 (Z.of_N D) ltac:(lia) ltac:(lia)) as Q. rewrite Z.quot_0_l in Q by lia. exact Q. } rewrite Z.max_r by lia. lia.
      - pose proof (Z.quot_pos e (Z.of_N D) H ltac:(lia)). rewrite Z.max_l by lia. pose proof (Z.mul_quot_le e (Z.of_N D) H ltac:(lia)). lia. }
    rewrite N2Nat.inj_pow. change (N.to_nat 2) with 2%nat. set (x := N.to_nat (D * tl D c k)). assert (HX : (Z.of_nat x <= Z.max 0 (c - Z.of_nat k - 1))%Z) by lia. clearbody x. clear HB.
    destruct (Z.ltb_spec c 1).
    + replace x with 0%nat by lia. cbn. lia.
    + unfold tri. destruct (Nat.leb_spec k (Z.to_nat (c - 1))).
      * assert (2 ^ x <= 2 ^ (Z.to_nat (c - 1) - k))%nat by (apply Nat.pow_le_mono_r; lia). lia.
      * replace x with 0%nat by lia. cbn. lia.
  - rewrite list_sum_plus. assert (E1 : list_sum (map (fun _ => 1%nat) (seq 0 n)) = n). { transitivity (length (seq 0 n)); [|apply seq_length]. generalize (seq 0 n) as X. induction X as [|x X IH]; [reflexivity|]. cbn [map length]. rewrite list_sum_cons, IH. reflexivity. }
    rewrite E1. apply Nat.add_le_mono_l. destruct (c <? 1)%Z; [|apply tri_sum]. rewrite (map_ext _ (fun _ => 0 * 0)%nat) by reflexivity. rewrite list_sum_scal. cbn. lia.
Qed.
Lemma INR_pow2 k : INR (2 ^ k) = b2 (Z.of_nat k).
Proof. rewrite pow_INR. change (INR 2) with 2. replace 2 with (pow2R 1) by reflexivity. rewrite pow2R_pow. f_equal. lia. Qed.
Section Bounds.
  Context {ws : list R} {P : tparams} (IP : ideal_params ws P).
  Lemma density_c k : (1 <= p_c P)%Z -> Z.of_nat k = p_c P -> INR (2 ^ k) <= density ws (p_w0 P).
  Proof.
    intros H E. pose proof (ip_c _ _ IP H) as C. pose proof (ip_pos _ _ IP) as P0. rewrite INR_pow2, E. unfold density. rewrite <- (ip_W _ _ IP). apply Rmult_le_reg_r with (p_w0 P * p_w0 P); [nra|]. replace (p_W P / (p_w0 P * p_w0 P) * (p_w0 P * p_w0 P)) with (p_W P) by (field; lra). exact C.
  Qed.
  Lemma density_pos : 0 <= density ws (p_w0 P).
  Proof. pose proof (ip_Wpos _ _ IP). pose proof (ip_pos _ _ IP). unfold density. rewrite <- (ip_W _ _ IP). left. apply Rdiv_lt_0_compat; nra. Qed.
  Lemma pw_density : INR (pw (p_c P)) <= density ws (p_w0 P).
  Proof.
    unfold pw. destruct (Z.ltb_spec (p_c P) 2); [apply density_pos|]. replace (4 * 2 ^ Z.to_nat (p_c P - 2))%nat with (2 ^ (2 + Z.to_nat (p_c P - 2)))%nat by (rewrite Nat.pow_add_r; reflexivity). apply density_c; lia.
  Qed.
  Lemma fcell_density D n : dim_ok D -> INR (N.to_nat (fcell D (p_c P) n)) <= INR n + density ws (p_w0 P).
  Proof.
    intros HD. pose proof (fcell_le D (p_c P) n HD) as H. apply le_INR in H. rewrite plus_INR in H. eapply Rle_trans; [exact H|]. apply Rplus_le_compat_l. destruct (Z.ltb_spec (p_c P) 1); [apply density_pos|].
    replace (2 * 2 ^ Z.to_nat (p_c P - 1))%nat with (2 ^ (1 + Z.to_nat (p_c P - 1)))%nat by (rewrite Nat.pow_add_r; reflexivity). apply density_c; lia.
  Qed.
End Bounds.
Lemma layers_le D ws P lo hi : weights_ok ws -> num_ok ideal_env D ws P -> is_smallest ws lo -> is_largest ws hi -> p_w0 P = lo /\ INR (p_layers P) <= layers_max lo hi.
Proof.
  intros HW NO [L1 L2] [H1 H2]. pose proof (no_params _ _ _ _ NO) as E. pose proof (wo_ne _ HW) as Hne. unfold tree_params in E.
  destruct (min_elem_spec ws Hne) as (w0 & E0 & I0 & M0). destruct (max_elem_spec ws Hne) as (wn & En & In' & Mn). rewrite E0, En in E. cbn [obind] in E.
  assert (w0 = lo) by (apply Rle_antisym; auto). assert (wn = hi) by (apply Rle_antisym; auto). subst w0 wn.
  destruct (double_to_int _) as [c|]; [|discriminate]. cbn [obind] in E. destruct (double_to_u32 _) as [m|] eqn:EM; [|discriminate]. cbn [obind] in E. injection E as <-. cbn [p_w0 p_layers]. split; [reflexivity|].
  unfold double_to_u32 in EM. rewrite Ztrunc_IZR in EM. destruct (_ && _)%bool eqn:B; [|discriminate]. injection EM as <-. apply andb_true_iff in B as [B1 B2]. apply Z.leb_le in B1.
  cbn [flog2 rnd ideal_env] in *. set (x := log2R (hi / lo)) in *. pose proof (Zfloor_lb x) as F. unfold layers_max. fold x. apply Rle_trans with (INR (N.to_nat (Z.to_N (Zfloor x) + 1))).
  - apply le_INR. unfold w32. rewrite N.land_ones. pose proof (N.mod_le (Z.to_N (Zfloor x) + 1) (2 ^ 32) ltac:(lia)). lia.
  - rewrite N2Nat.inj_add, plus_INR. change (INR (N.to_nat 1)) with 1. rewrite INR_IZR_INZ. replace (Z.of_nat (N.to_nat (Z.to_N (Zfloor x)))) with (Zfloor x) by lia. lra.
Qed.
Lemma first_cells_length D c : forall k l sum r, first_cells D c k l sum = Some r -> length r = S k.
Proof.
  induction k as [|k IH]; intros l sum r H; cbn [first_cells] in H; [now injection H as <-|]. destruct (numCellsInLevel _ _); [|discriminate]. cbn [obind] in H. destruct (first_cells _ _ _ _ _) eqn:E; [|discriminate]. injection H as <-. cbn [length]. f_equal. eapply IH; eauto.
Qed.
Lemma tfcl_length E cfg D ws ps omp t : tree_outcome E cfg D ws ps omp (Some t) -> length (tfcl t) = S (p_layers (tP t)).
Proof.
  unfold tree_outcome. destruct (tree_params E D ws) as [P|]; cbn [obind]; [|discriminate]. destruct (first_cells _ _ _ _ _) as [fcl|] eqn:EF; cbn [obind]; [|discriminate].
  destruct (nth_error fcl _) as [M|]; cbn [obind]; [|discriminate]. destruct (classify_all _ _ _ _ _ _ _) as [nodes|]; cbn [obind]; [|discriminate].
  intros (buf & so & _ & _ & H). destruct so; [|discriminate]. destruct H as (t1 & t2 & io & _ & _ & _ & H). destruct io; [|discriminate]. cbn [obind] in H. injection H as ->. cbn [tfcl tP]. eapply first_cells_length; eauto.
Qed.
Lemma cost_ctx d ws seed omp team : cost_input d ws seed omp team -> forall cfg, exists P, num_ok ideal_env (N.of_nat d) ws P /\ ideal_params ws P /\ dim_ok (N.of_nat d) /\ p_levels P = (base_level (N.of_nat d) (p_c P) 0 0 + 1)%N /\
  exists vs pushes, thread_visits ideal_env cfg (N.of_nat d) P omp team = Some (vs, pushes) /\ Permutation (concat vs) (vplan cfg (N.of_nat d) (N.to_nat (p_levels P - 1)) 0 0 0) /\
    (pushes = [] \/ exists fpl, first_parallel_level ideal_env (N.of_nat d) omp = Some fpl /\ (0 < fpl)%N /\ (N.of_nat d * fpl < 32)%N /\ pushes = snd (sqplan cfg (N.of_nat d) fpl (N.to_nat (p_levels P - 1)) 0 0 0)).
Proof.
  intros CI cfg. assert (HD : dim_ok (N.of_nat d)) by (pose proof (ci_dim _ _ _ _ _ CI); unfold dim_ok; lia).
  destruct (ideal_num_ok (N.of_nat d) ws HD (ci_weights _ _ _ _ _ CI)) as (P & NO & IP). exists P. split; [exact NO|split; [exact IP|split; [exact HD|]]].
  assert (HL : p_levels P = (base_level (N.of_nat d) (p_c P) 0 0 + 1)%N).
  { pose proof (no_params _ _ _ _ NO) as E. unfold tree_params in E. destruct (min_elem ws); [|discriminate]. destruct (max_elem ws); [|discriminate]. cbn [obind] in E. destruct (double_to_int _); [|discriminate]. cbn [obind] in E. destruct (double_to_u32 _); [|discriminate]. cbn [obind] in E. injection E as <-. reflexivity. }
  split; [exact HL|]. apply (thread_visits_ok cfg (N.of_nat d) P HD (no_c _ _ _ _ NO) HL); [|apply CI].
  apply ideal_fpl_ok; [exact HD|]. apply (omp_nat _ (ci_omp _ _ _ _ _ CI)).
Qed.

(** ** Theorems *)
(** the invocations of visitCellPair and their loop iterations: every pair of cells is visited at most once; the numbers of visits and of
    steps are bounded by the sum of the weights, for every alpha, every number of threads and whatever the positions *)
Theorem C67_work_bound : forall cfg d ws seed omp_max team alpha lo hi, cost_input d ws seed omp_max team -> is_smallest ws lo -> is_largest ws hi ->
  let D := N.of_nat d in
  exists P vs pushes, tree_params ideal_env D ws = Some P /\ thread_visits ideal_env cfg D P omp_max team = Some (vs, pushes) /\
    thread_calls ideal_env cfg D P alpha omp_max team = Some (map (flat_map (vis_calls cfg D P alpha)) vs) /\
    NoDup (concat vs) /\
    INR (length (concat vs)) <= 2 * 6 ^ d * (1 + density ws lo / 4) /\
    INR (list_sum (map (vis_steps cfg D P alpha) (concat vs))) <= 6 ^ d * (6 + 2 * (layers_max lo hi) ^ 2 + 4 * density ws lo).
Proof.
  intros cfg d ws seed omp_max team alpha lo hi CI HLo HHi D. destruct (cost_ctx _ _ _ _ _ CI cfg) as (P & NO & IP & HD & HL & vs & pushes & EV & PM & _). fold D in NO, HD, HL, EV, PM.
  destruct (layers_le D ws P lo hi (ci_weights _ _ _ _ _ CI) NO HLo HHi) as [E0 LL]. exists P, vs, pushes. split; [apply NO|split; [exact EV|split; [|split; [|split]]]].
  - rewrite thread_visits_calls, EV. reflexivity.
  - apply (Permutation_NoDup (Permutation_sym PM)). assert (PL : Permutation (vplan cfg D (N.to_nat (p_levels P - 1)) 0 0 0) (lev cfg D (N.to_nat (p_levels P - 1)) 0 [(0, 0)%N])). { rewrite <- vplan_lev. cbn [flat_map fst snd]. now rewrite app_nil_r. }
    apply (Permutation_NoDup (Permutation_sym PL)). apply (lev_NoDup cfg D P HD (no_c _ _ _ _ NO) HL); [lia|]. apply (root_proper D P HD HL).
  - rewrite (Permutation_length PM). pose proof (visits_bound cfg D P HD (no_c _ _ _ _ NO) HL) as B. apply le_INR in B. rewrite !mult_INR, plus_INR, pow_INR in B. unfold D in B at 2. rewrite Nat2N.id in B. pose proof (pw_density IP) as Q. rewrite E0 in Q.
    replace (INR 4) with 4 in B by (cbn; lra). change (INR 2) with 2 in B. replace (INR 6) with 6 in B by (cbn; lra). assert (S6 : 0 < 6 ^ d) by (apply pow_lt; lra). nra.
  - rewrite (list_sum_Permutation _ _ _ PM). pose proof (steps_bound cfg D P alpha HD (no_c _ _ _ _ NO) HL) as B. apply le_INR in B. eapply Rle_trans; [exact B|]. rewrite !mult_INR, !plus_INR, !mult_INR, pow_INR. unfold D. rewrite Nat2N.id. pose proof (pw_density IP) as Q. rewrite E0 in Q.
    replace (INR 4) with 4 by (cbn; lra). change (INR 2) with 2. replace (INR 6) with 6 by (cbn; lra). assert (S6 : 0 < 6 ^ d) by (apply pow_lt; lra). apply Rmult_le_compat_l; [lra|]. pose proof (pos_INR (p_layers P)). assert (INR (p_layers P) * INR (p_layers P) <= layers_max lo hi ^ 2) by (cbn [pow]; rewrite Rmult_1_r; apply Rmult_le_compat; lra). lra.
Qed.
(** the memory of the tree: the nodes, the index of the cells, the layer pairs and the work saved for the parallel phase *)
Theorem C67_memory_bound : forall cfg d ws ps seed omp_max team lo hi, girg_input (N.of_nat d) ws ps seed omp_max team -> is_smallest ws lo -> is_largest ws hi ->
  let D := N.of_nat d in
  forall t, tree_outcome ideal_env cfg D ws ps omp_max (Some t) ->
    length (tnodes t) = length ws /\
    INR (length (tfirst t)) <= 1 + layers_max lo hi + density ws lo /\
    INR (length (tfcl t)) <= 1 + layers_max lo hi /\
    INR (list_sum (map (fun l => length (layer_pairs D (tP t) (N.of_nat l))) (seq 0 (N.to_nat (p_levels (tP t)))))) <= layers_max lo hi ^ 2.
Proof.
  intros cfg d ws ps seed omp_max team lo hi HI HLo HHi D t HT. assert (HD : dim_ok D) by (pose proof (gi_dim _ _ _ _ _ _ HI); unfold dim_ok, D; lia).
  destruct (ideal_num_ok D ws HD (gi_weights _ _ _ _ _ _ HI)) as (P & NO & IP). destruct (use_build HI cfg P NO) as (t' & ord & TS & _ & U). specialize (U _ HT). injection U as <-. pose proof (tfcl_length _ _ _ _ _ _ _ HT) as TL. clear HT.
  destruct (layers_le D ws P lo hi (gi_weights _ _ _ _ _ _ HI) NO HLo HHi) as [E0 LL]. pose proof (levels_eq _ cfg _ _ ps _ NO t ord TS) as HLE.
  split; [|split; [|split]].
  - rewrite (ts_nodes _ _ _ _ _ _ _ _ TS), map_length, (Permutation_length (ts_perm _ _ _ _ _ _ _ _ TS)). apply seq_length.
  - destruct (ts_index _ _ _ _ _ _ _ _ TS) as [LA _]. rewrite LA, plus_INR. change (INR 1) with 1. unfold M. pose proof (fcell_density IP D (p_layers P) HD) as F. rewrite E0 in F. unfold D in F. lra.
  - rewrite TL, (ts_P _ _ _ _ _ _ _ _ TS), S_INR. lra.
  - rewrite (ts_P _ _ _ _ _ _ _ _ TS). pose proof (bucket_sum (fun ij : nat * nat => N.to_nat (base_level D (p_c P) (fst ij) (snd ij))) (fun _ => 1%nat) (N.to_nat (p_levels P)) (list_prod (seq 0 (p_layers P)) (seq 0 (p_layers P)))) as B.
    assert (E1 : forall (X : list (nat * nat)), list_sum (map (fun _ => 1%nat) X) = length X) by (induction X as [|x X IH]; [reflexivity|]; cbn [map length]; rewrite list_sum_cons, IH; reflexivity).
    rewrite E1, prod_length, seq_length in B. erewrite map_ext; [rewrite B|].
    + rewrite mult_INR. cbn [pow]. rewrite Rmult_1_r. pose proof (pos_INR (p_layers P)). apply Rmult_le_compat; lra.
    + intros ij _. pose proof (base_le D P HD HLE (fst ij) (snd ij)). lia.
    + intros l. cbn beta. rewrite Nat.mul_1_l. unfold layer_pairs. f_equal. apply filter_ext. intros ij.
      destruct (N.eqb_spec (base_level D (p_c P) (fst ij) (snd ij)) (N.of_nat l)), (Nat.eqb_spec (N.to_nat (base_level D (p_c P) (fst ij) (snd ij))) l); lia.
Qed.
Lemma fpl_cells d omp fpl : (1 <= d <= 5)%nat -> (1 <= omp)%nat -> first_parallel_level ideal_env (N.of_nat d) omp = Some fpl -> INR (N.to_nat (2 ^ (N.of_nat d * fpl))) <= 4 * 2 ^ d * INR omp.
Proof.
  intros Hd Ho H. unfold first_parallel_level, double_to_u32 in H. cbn [rnd flog2 ideal_env] in H. rewrite Ztrunc_IZR in H. destruct (_ && _)%bool eqn:B; [|discriminate]. injection H as <-. apply andb_true_iff in B as [B1 _]. apply Z.leb_le in B1.
  rewrite nat_N_Z in *. assert (Dp : 1 <= IZR (Z.of_nat d)) by (apply IZR_le; lia). assert (Op : 1 <= INR omp) by (replace 1 with (INR 1) by reflexivity; now apply le_INR).
  set (x := log2R (4 * INR omp) / IZR (Z.of_nat d)) in *. assert (Hx : x * IZR (Z.of_nat d) = log2R (4 * INR omp)) by (unfold x; field; lra).
  assert (C2 : IZR (Zceil x) < x + 1). { unfold Zceil. rewrite opp_IZR. pose proof (Zfloor_ub (- x)). lra. }
  rewrite N2Nat.inj_pow, INR_pow2. replace (Z.of_nat (N.to_nat (N.of_nat d * Z.to_N (Zceil x)))) with (Z.of_nat d * (Zceil x - 1) + Z.of_nat d)%Z by lia.
  rewrite bpow_plus. replace (b2 (Z.of_nat d)) with (2 ^ d) by (replace 2 with (pow2R 1) by reflexivity; rewrite pow2R_pow; f_equal; lia). replace (4 * 2 ^ d * INR omp) with (4 * INR omp * 2 ^ d) by ring.
  apply Rmult_le_compat_r; [apply pow_le; lra|]. apply log2R_ge_iff; [lra|]. rewrite mult_IZR, minus_IZR, <- Hx. nra.
Qed.
(** the work saved for the parallel phase: number of vectors and number of their entries *)
Theorem C67_parallel_memory : forall cfg d ws seed omp_max team, cost_input d ws seed omp_max team -> let D := N.of_nat d in
  exists P vs pushes, tree_params ideal_env D ws = Some P /\ thread_visits ideal_env cfg D P omp_max team = Some (vs, pushes) /\
    INR (length pushes) <= 4 * 12 ^ d * INR omp_max /\
    (forall fpl cells, first_parallel_level ideal_env D omp_max = Some fpl -> numCellsInLevel D fpl = Some cells -> INR (N.to_nat cells) <= 4 * 2 ^ d * INR omp_max).
Proof.
  intros cfg d ws seed omp_max team CI D. destruct (cost_ctx _ _ _ _ _ CI cfg) as (P & NO & IP & HD & HL & vs & pushes & EV & PM & HP). fold D in NO, HD, HL, EV, PM, HP.
  pose proof (ci_dim _ _ _ _ _ CI) as Hd. assert (Ho : (1 <= omp_max)%nat) by (pose proof (ci_team _ _ _ _ _ CI); lia).
  assert (S12 : 0 < 12 ^ d) by (apply pow_lt; lra). assert (Op : 1 <= INR omp_max) by (replace 1 with (INR 1) by reflexivity; now apply le_INR).
  exists P, vs, pushes. split; [apply NO|split; [exact EV|split]].
  - destruct HP as [->|(fpl & EF & F0 & F32 & ->)]; [cbn [length INR]; nra|].
    pose proof (sq_partition cfg D P HL fpl (N.to_nat (p_levels P - 1)) 0 0 0 ltac:(lia) ltac:(lia) ltac:(lia)) as SP. set (pu := snd _) in *.
    set (f := fun v : vis => if (snd v =? fpl)%N then 1%nat else 0%nat).
    pose proof (vplan_sum cfg D P HD (no_c _ _ _ _ NO) HL f (fun l => if (l =? fpl)%N then 1%nat else 0%nat) ltac:(reflexivity)) as B.
    rewrite (list_sum_Permutation _ _ _ SP), map_app, list_sum_app in B.
    assert (LE : (length pu <= list_sum (map f (flat_map (fun ab => vplan cfg D (N.to_nat (p_levels P - 1 - fpl)) (fst ab) (snd ab) fpl) pu)))%nat).
    { generalize (N.to_nat (p_levels P - 1 - fpl)) as k. generalize pu as X. intros X k. induction X as [|ab X IH]; [cbn; lia|]. cbn [flat_map length]. rewrite map_app, list_sum_app. assert (V : exists r, vplan cfg D k (fst ab) (snd ab) fpl = (fst ab, snd ab, fpl) :: r) by (destruct k; cbn [vplan]; eauto). destruct V as [r ->]. cbn [map]. rewrite list_sum_cons. unfold f at 1. cbn [snd]. rewrite N.eqb_refl. lia. }
    assert (BA : (list_sum (map (fun m => av D m * (if (N.of_nat m =? fpl)%N then 1 else 0)) (seq 0 (S (N.to_nat (p_levels P - 1))))) <= N.to_nat (2 ^ (D * fpl)))%nat).
    { generalize (S (N.to_nat (p_levels P - 1))) as k. intros k. replace (N.to_nat (2 ^ (D * fpl))) with (av D (N.to_nat fpl)) by (unfold av; now rewrite N2Nat.id). induction k as [|k IH]; [cbn; lia|]. rewrite seq_S, map_app, list_sum_app. cbn [map Nat.add]. rewrite list_sum_cons. change (list_sum []) with 0%nat.
      destruct (N.eqb_spec (N.of_nat k) fpl) as [E|E]; [|lia]. rewrite <- E, Nat2N.id in *. clear IH.
      assert (Z : list_sum (map (fun m => av D m * (if (N.of_nat m =? N.of_nat k)%N then 1 else 0))%nat (seq 0 k)) = 0%nat). { apply list_sum_zero. intros m Hm. apply in_seq in Hm. destruct (N.eqb_spec (N.of_nat m) (N.of_nat k)); lia. }
      rewrite Z. lia. }
    assert (LE2 : (length pu <= 6 ^ N.to_nat D * N.to_nat (2 ^ (D * fpl)))%nat). { etransitivity; [exact LE|]. etransitivity; [|apply Nat.mul_le_mono_l, BA]. lia. }
    apply le_INR in LE2. rewrite mult_INR, pow_INR in LE2. unfold D in LE2 at 1. rewrite Nat2N.id in LE2. replace (INR 6) with 6 in LE2 by (cbn; lra). pose proof (fpl_cells d omp_max fpl Hd Ho EF) as FC. fold D in FC.
    eapply Rle_trans; [exact LE2|]. replace (4 * 12 ^ d * INR omp_max) with (6 ^ d * (4 * 2 ^ d * INR omp_max)) by (replace 12 with (6 * 2) by lra; rewrite Rpow_mult_distr; ring). apply Rmult_le_compat_l; [apply pow_le; lra|exact FC].
  - intros fpl cells EF EC. assert (C2 : cells = (2 ^ (D * fpl))%N). { unfold numCellsInLevel, shl1_u32 in EC. destruct (_ <? _)%N; [|discriminate]. rewrite N.shiftl_1_l in EC. congruence. } rewrite C2. now apply fpl_cells.
Qed.
Example C67_inputs : cost_input 2 [1; 3] 12 4 4 /\ is_smallest [1; 3] 1 /\ is_largest [1; 3] 3 /\ girg_input (N.of_nat 2) [1; 3] [[0; 1/2]; [3/4; 7/8]] 12 4 4.
Proof.
  split; [apply C66_inputs|]. split; [|split; [|exact ex_input2]]; (split; [now (left + (right; left))|]); intros x [<-|[<-|[]]]; lra.
Qed.
(** a tree with several levels: 16 unit weights in one dimension *)
Lemma ex_visits E cfg w0 wn W : exists vs, thread_visits E cfg 1 {| p_w0 := w0; p_wn := wn; p_W := W; p_c := 4; p_layers := 1; p_levels := 3 |} 1 1 = Some ([vs], []) /\
  map snd vs = [0; 1; 2; 2; 2; 1; 2; 2; 2; 2; 1; 2; 2; 2]%N.
Proof. destruct cfg as [[|] [|] [|]]; eexists; (split; [vm_compute; reflexivity|reflexivity]). Qed.
Example C67_visits : forall cfg, exists P vs, tree_params ideal_env 1 ex_ws = Some P /\ thread_visits ideal_env cfg 1 P 1 1 = Some ([vs], []) /\
  map snd vs = [0; 1; 2; 2; 2; 1; 2; 2; 2; 2; 1; 2; 2; 2]%N.
Proof.
  intros cfg. destruct ex_params as [wn E]. eexists. destruct (ex_visits ideal_env cfg 1 wn 16) as (vs & E1 & E2). exists vs. split; [exact E|split; [exact E1|exact E2]].
Qed.
Print Assumptions C67_work_bound.
Print Assumptions C67_memory_bound.
Print Assumptions C67_parallel_memory.
