(** Property C57: the threshold generator computed in IEEE-754 doubles (round to nearest, ties to even). *)
From Coq Require Import Arith NArith ZArith List Bool Reals Permutation Lia Lra.
From Flocq Require Import Core.
From Verif Require Import Base Sched Bits_Proofs Coord_Model Coord_Proofs Coord_Geo Coord_Torus Prop_Coord Tree_Model Tree_Proofs Tree_Build Tree_Plan Tree_Run Girg_Model Girg_Proofs
  Girg_Num Prop_Girg Ieee.
Import ListNotations.
Local Open Scope R_scope.

(** ** Specification.  [RN x] is the double nearest to x (ties to even), [is_double] says that x is a double; both from Flocq (Ieee.v, lines 9-12) *)
(** the rounded sum of the weights, from the left *)
Definition float_sum (ws : list R) : R := fold_left (fun s w => RN (s + w)) ws 0.
(** the distance on one axis: |x - y| or 1 - |x - y| *)
Definition float_axis (x y : R) : R := let t := Rabs (RN (x - y)) in Rmin t (RN (1 - t)).
(** the largest of them *)
Definition is_float_dist (xs ys : list R) (d : R) : Prop :=
  (forall i, (i < length xs)%nat -> float_axis (nth i xs 0) (nth i ys 0) <= d) /\ exists i, (i < length xs)%nat /\ d = float_axis (nth i xs 0) (nth i ys 0).
(** d^D by repeated multiplication *)
Definition float_pow (D : N) (d : R) : R :=
  let d2 := RN (d * d) in let d3 := RN (d * d2) in
  match D with 1%N => d | 2%N => d2 | 3%N => d3 | 4%N => RN (d2 * d2) | 5%N => RN (d2 * d3) | _ => 1 end.
(** the edge rule d^D < w_u w_v / W, every operation rounded *)
Definition float_edge (D : N) (ws : list R) (ps : list (list R)) (u v : nat) : Prop :=
  exists d, is_float_dist (nth u ps []) (nth v ps []) d /\ float_pow D d < RN (RN (nth u ws 0 * nth v ws 0) / float_sum ws).

(** Valid inputs.  Weights are doubles in [2^-400, 2^400]; with w0 the smallest, q = W/w0/w0 (rounded) is below 2^31 and its computed logarithm is not rounded up to or
    beyond an integer z unless q >= 2^z; the coordinates are doubles in [0,1). *)
Record ieee_input (f : R -> R) (D : N) (ws : list R) (ps : list (list R)) (seed : Z) (omp_max team : nat) : Prop := {
  ii_dim : (1 <= D <= 5)%N;
  ii_ne : ws <> [];
  ii_double : forall w, In w ws -> is_double w /\ b2 (-400) <= w <= b2 400;
  ii_bits : forall w0, In w0 ws -> (forall w, In w ws -> w0 <= w) ->
    let q := RN (RN (float_sum ws / w0) / w0) in q < b2 31 /\ forall z, (1 <= z)%Z -> IZR z <= f q -> b2 z <= q;
  ii_len : length ws = length ps;
  ii_n : (N.of_nat (length ws) < 2 ^ 31)%N;
  ii_pos : List.Forall (fun p => length p = N.to_nat D /\ List.Forall (fun x => is_double x /\ 0 <= x < 1) p) ps;
  ii_omp : (1 <= N.of_nat omp_max <= 2 ^ 17)%N;
  ii_team : (1 <= team <= omp_max)%nat;
  ii_seed : (seed < 0 \/ seed + Z.of_nat omp_max <= 2 ^ 31)%Z }.

(** ** Proofs *)
Lemma ii_weights f pw D ws ps seed omp_max team : ieee_input f D ws ps seed omp_max team -> double_weights f pw ws.
Proof. intros H. constructor; [apply H|apply H|]. exact (ii_bits _ _ _ _ _ _ _ H). Qed.
Lemma ii_vp f pw D ws ps seed omp_max team : ieee_input f D ws ps seed omp_max team -> List.Forall (valid_pos (double_env f pw) D) ps.
Proof.
  intros H. eapply List.Forall_impl; [|apply (ii_pos _ _ _ _ _ _ _ H)]. intros p [H1 H2]. split; [exact H1|]. eapply List.Forall_impl; [|exact H2].
  intros x [Dx Hx]. split; [exact Hx|]. now apply RN_id.
Qed.
Lemma ii_main f pw cfg rg alpha D ws ps seed omp_max team : good_log2 f -> good_rng rg -> ieee_input f D ws ps seed omp_max team ->
  (exists o, girg_outcome (double_env f pw) cfg rg ws ps alpha seed omp_max team o) /\
  exists P ord, p_W P = float_sum ws /\ far_ok (double_env f pw) ws P /\
  forall o, girg_outcome (double_env f pw) cfg rg ws ps alpha seed omp_max team o ->
    exists rs edges, o = Some edges /\ sampled (double_env f pw) cfg D ws ps P alpha rg omp_max ord rs /\ interleaving (map edges_of rs) edges.
Proof.
  intros GL GG HI. destruct (double_num_ok f pw D ws GL (ii_dim _ _ _ _ _ _ _ HI) (ii_weights f pw _ _ _ _ _ _ HI)) as (P & NO & FO & EW).
  assert (SD : seeds_defined seed omp_max = true).
  { unfold seeds_defined. apply orb_true_iff. destruct (ii_seed _ _ _ _ _ _ _ HI); [left; now apply Z.ltb_lt|right; apply Z.ltb_lt; lia]. }
  pose proof (omp_nat _ (ii_omp _ _ _ _ _ _ _ HI)) as [O1 O2].
  destruct (girg_ok (double_env f pw) cfg D ws ps P (double_good f pw) (ii_dim _ _ _ _ _ _ _ HI) NO (ii_len _ _ _ _ _ _ _ HI) (ii_vp f pw _ _ _ _ _ _ HI) (ii_n _ _ _ _ _ _ _ HI)
    alpha rg seed omp_max team GG O1 (double_fpl_ok f pw D omp_max GL (ii_dim _ _ _ _ _ _ _ HI) O2) (ii_team _ _ _ _ _ _ _ HI) SD) as [H1 (t & ord & _ & H2)].
  split; [exact H1|]. exists P, ord. split; [exact EW|]. split; [exact FO|]. intros o Ho. destruct (H2 o Ho) as (rs & edges & _ & E & SA & IL). eauto 6.
Qed.
Lemma coord_dist_max E : forall xs ys r, length xs = length ys ->
  r <= coord_distance E r xs ys /\ (forall i, (i < length xs)%nat -> axis_distance E (nth i xs 0) (nth i ys 0) <= coord_distance E r xs ys) /\
  (coord_distance E r xs ys = r \/ exists i, (i < length xs)%nat /\ coord_distance E r xs ys = axis_distance E (nth i xs 0) (nth i ys 0)).
Proof.
  induction xs as [|x xs IH]; intros [|y ys] r L; try discriminate; cbn [coord_distance].
  - split; [lra|]. split; [intros i Hi; cbn in Hi; lia|now left].
  - injection L as L. destruct (IH ys (Rmax r (axis_distance E x y)) L) as (I1 & I2 & I3). pose proof (Rmax_l r (axis_distance E x y)). pose proof (Rmax_r r (axis_distance E x y)).
    split; [lra|]. split; [intros [|i] Hi; cbn in *; [lra|apply I2; lia]|].
    destruct I3 as [I3|(i & Hi & I3)]; [|right; exists (S i); split; [cbn; lia|exact I3]].
    rewrite I3. unfold Rmax. destruct (Rle_dec _ _); [right; exists 0%nat; split; [cbn; lia|reflexivity]|now left].
Qed.
Lemma float_axis_nonneg x y : 0 <= x < 1 -> 0 <= y < 1 -> 0 <= float_axis x y.
Proof.
  intros Hx Hy. unfold float_axis. assert (ON : RN 1 = 1) by (apply RN_id; apply (b2_double 0); lia). assert (OP : RN (- (1)) = - (1)) by (unfold RN; rewrite round_NE_opp; f_equal; exact ON).
  pose proof (RN_le (- (1)) (x - y) ltac:(lra)). pose proof (RN_le (x - y) 1 ltac:(lra)). assert (T1 : Rabs (RN (x - y)) <= 1) by (apply Rabs_le; lra).
  apply Rmin_glb; [apply Rabs_pos|]. apply RN_nonneg. lra.
Qed.
Lemma float_dist_is f pw xs ys : (0 < length xs)%nat -> length xs = length ys -> List.Forall (fun x => 0 <= x < 1) xs -> List.Forall (fun x => 0 <= x < 1) ys ->
  is_float_dist xs ys (coord_distance (double_env f pw) 0 xs ys).
Proof.
  intros L0 L Hx Hy. destruct (coord_dist_max (double_env f pw) xs ys 0 L) as (I1 & I2 & I3). split; [exact I2|]. destruct I3 as [I3|I3]; [|exact I3].
  exists 0%nat. split; [exact L0|]. assert (N : 0 <= float_axis (nth 0 xs 0) (nth 0 ys 0)).
  { rewrite List.Forall_forall in Hx, Hy. apply float_axis_nonneg; [apply Hx|apply Hy]; apply nth_In; lia. }
  specialize (I2 0%nat L0). change (axis_distance (double_env f pw) (nth 0 xs 0) (nth 0 ys 0)) with (float_axis (nth 0 xs 0) (nth 0 ys 0)) in I2. lra.
Qed.
Lemma float_dist_unique xs ys d d' : is_float_dist xs ys d -> is_float_dist xs ys d' -> d = d'.
Proof. intros [A (i & Hi & Ei)] [B (j & Hj & Ej)]. specialize (A j Hj). specialize (B i Hi). lra. Qed.
Lemma float_pow_eq f pw D d : (1 <= D <= 5)%N -> pow_to_the (double_env f pw) D d = float_pow D d.
Proof.
  intros HD. assert (HDc : (D = 1 \/ D = 2 \/ D = 3 \/ D = 4 \/ D = 5)%N) by lia. destruct HDc as [-> | [-> | [-> | [-> | ->]]]]; reflexivity.
Qed.
Section Hit.
  Context {f : R -> R} {D : N} {ws : list R} {ps : list (list R)} {seed : Z} {omp_max team : nat} (HI : ieee_input f D ws ps seed omp_max team).
  Lemma pos_at u : (u < length ws)%nat -> length (nth u ps []) = N.to_nat D /\ List.Forall (fun x => 0 <= x < 1) (nth u ps []).
  Proof.
    intros Hu. rewrite (ii_len _ _ _ _ _ _ _ HI) in Hu. pose proof (ii_pos _ _ _ _ _ _ _ HI) as H. rewrite List.Forall_forall in H. destruct (H _ (nth_In ps [] Hu)) as [H1 H2].
    split; [exact H1|]. eapply List.Forall_impl; [|exact H2]. cbn. tauto.
  Qed.
  Lemma dist_at pw u v : (u < length ws)%nat -> (v < length ws)%nat -> is_float_dist (nth u ps []) (nth v ps []) (coord_distance (double_env f pw) 0 (nth u ps []) (nth v ps [])).
  Proof.
    intros Hu Hv. destruct (pos_at u Hu) as [L1 F1]. destruct (pos_at v Hv) as [L2 F2]. pose proof (ii_dim _ _ _ _ _ _ _ HI). apply float_dist_is; try assumption; [lia|congruence].
  Qed.
  Lemma float_hit pw cfg P u v : p_W P = float_sum ws -> (u < length ws)%nat -> (v < length ws)%nat -> (hitw (double_env f pw) cfg D ws ps P u v = true <-> float_edge D ws ps u v).
  Proof.
    intros EW Hu Hv. unfold hitw, d_term, w_term. rewrite Rltb_true, float_pow_eq by apply HI. cbn [rnd double_env weight Tree_Build.mk]. unfold wt. rewrite EW.
    unfold node_distance. cbn [coord Tree_Build.mk]. unfold pos. pose proof (dist_at pw u v Hu Hv) as T. split.
    - intros H. eexists. split; [exact T|exact H].
    - intros (d & Td & H). now rewrite (float_dist_unique _ _ _ _ T Td).
  Qed.
End Hit.

(** In doubles, with any monotone log2 that is exact at powers of two, any pow, any generator, any number of threads and any schedule: the graph consists of exactly the
    pairs that satisfy the rounded edge rule. *)
Theorem C57_threshold_exact_in_doubles : forall f pw cfg rg D ws ps seed omp_max team,
  good_log2 f -> good_rng rg -> ieee_input f D ws ps seed omp_max team ->
  (exists o, girg_outcome (double_env f pw) cfg rg ws ps AInf seed omp_max team o) /\
  forall o, girg_outcome (double_env f pw) cfg rg ws ps AInf seed omp_max team o ->
    exists edges, o = Some edges /\
    forall u v, (u < length ws)%nat -> (v < length ws)%nat -> u <> v -> (In (u, v) edges \/ In (v, u) edges <-> float_edge D ws ps u v).
Proof.
  intros f pw cfg rg D ws ps seed omp_max team GL GG HI. destruct (ii_main f pw cfg rg AInf D ws ps seed omp_max team GL GG HI) as [H1 (P & ord & EW & FO & H2)]. split; [exact H1|].
  intros o Ho. destruct (H2 o Ho) as (rs & edges & -> & SA & IL). exists edges. split; [reflexivity|].
  intros u v Hu Hv Hne. rewrite !(edges_In rs edges _ IL), (sa_inf _ _ _ _ _ _ _ _ _ _ _ SA FO eq_refl u v Hu Hv Hne). now apply (float_hit HI pw cfg P).
Qed.
(** and for every alpha the result is a simple graph on the nodes *)
Theorem C57_simple_graph_in_doubles : forall f pw cfg rg D ws ps alpha seed omp_max team,
  good_log2 f -> good_rng rg -> ieee_input f D ws ps seed omp_max team ->
  forall o, girg_outcome (double_env f pw) cfg rg ws ps alpha seed omp_max team o ->
    exists edges, o = Some edges /\ NoDup edges /\ (forall u v, In (u, v) edges -> (u < length ws)%nat /\ (v < length ws)%nat /\ u <> v /\ ~ In (v, u) edges).
Proof.
  intros f pw cfg rg D ws ps alpha seed omp_max team GL GG HI. destruct (ii_main f pw cfg rg alpha D ws ps seed omp_max team GL GG HI) as [_ (P & ord & EW & FO & H2)].
  intros o Ho. destruct (H2 o Ho) as (rs & edges & -> & SA & IL). exists edges. split; [reflexivity|].
  assert (Hin : forall u v, In (u, v) edges -> (u < length ws)%nat /\ (v < length ws)%nat /\ u <> v).
  { intros u v H. apply (edges_In rs edges _ IL) in H. apply (le_count_incl _ _ _ (sa_le _ _ _ _ _ _ _ _ _ _ _ SA)) in H.
    now apply (sa_range _ _ _ _ _ _ _ _ _ _ _ SA). }
  assert (Hc : forall u v, (u < length ws)%nat -> (v < length ws)%nat -> u <> v -> (cnt2 edges u v <= 1)%nat).
  { intros u v Hu Hv Hne. rewrite (cnt2_perm _ _ u v (edges_perm rs edges IL)).
    pose proof (sa_once _ _ _ _ _ _ _ _ _ _ _ SA u v Hu Hv Hne) as Ho1. unfold cnt2 in *.
    pose proof (sa_le _ _ _ _ _ _ _ _ _ _ _ SA (u, v)). pose proof (sa_le _ _ _ _ _ _ _ _ _ _ _ SA (v, u)). lia. }
  split.
  - apply (NoDup_count_occ pair_dec). intros [u v]. destruct (in_dec pair_dec (u, v) edges) as [H|H].
    + destruct (Hin u v H) as (Hu & Hv & Hne). specialize (Hc u v Hu Hv Hne). unfold cnt2 in Hc. lia.
    + apply (count_occ_not_In pair_dec) in H. lia.
  - intros u v H. destruct (Hin u v H) as (Hu & Hv & Hne). repeat (split; [assumption|]). intros H'. specialize (Hc u v Hu Hv Hne). unfold cnt2 in Hc.
    apply (count_occ_In pair_dec) in H, H'. lia.
Qed.
(** How far this is from the exact rule dist^D < w_u w_v / sum of the weights: a pair whose distance and weight quotient are not within the rounding errors of each other
    is decided as in exact arithmetic.  [eps n] = (n + 8) 2^-52 *)
Theorem C57_close_to_exact : forall f pw cfg rg D ws ps seed omp_max team,
  good_log2 f -> good_rng rg -> ieee_input f D ws ps seed omp_max team ->
  forall o, girg_outcome (double_env f pw) cfg rg ws ps AInf seed omp_max team o ->
    exists edges, o = Some edges /\
    forall u v d, (u < length ws)%nat -> (v < length ws)%nat -> u <> v -> is_torus_dist (nth u ps []) (nth v ps []) d ->
      let q := nth u ws 0 * nth v ws 0 / sumR ws in
      ((d + b2 (-52)) ^ N.to_nat D * (1 + eps (length ws)) < q -> In (u, v) edges \/ In (v, u) edges) /\
      (In (u, v) edges \/ In (v, u) edges -> b2 (-52) < d -> (d - b2 (-52)) ^ N.to_nat D * (1 - eps (length ws)) < q).
Proof.
  intros f pw cfg rg D ws ps seed omp_max team GL GG HI o Ho.
  destruct (C57_threshold_exact_in_doubles f pw cfg rg D ws ps seed omp_max team GL GG HI) as [_ HE]. destruct (HE o Ho) as (edges & -> & HX). exists edges. split; [reflexivity|].
  intros u v d Hu Hv Hne Hd q. specialize (HX u v Hu Hv Hne). rewrite HX. clear HX.
  pose proof (dist_at HI pw u v Hu Hv) as FD. set (d' := coord_distance (double_env f pw) 0 (nth u ps []) (nth v ps [])) in *.
  destruct (pos_at HI u Hu) as [L1 F1]. destruct (pos_at HI v Hv) as [L2 F2].
  assert (ED : Rabs (d' - d) <= b2 (-52)).
  { rewrite (torus_dist_unique _ _ _ _ Hd (distance_is_torus_dist (nth u ps []) (nth v ps []) (unit_closed _ F1) (unit_closed _ F2) ltac:(congruence))).
    apply dist_err; try assumption. rewrite Rminus_0_r, Rabs_R0. apply bpow_ge_0. }
  apply Rabs_le_inv in ED. set (del := b2 (-52)) in *. assert (D0 : 0 < del) by apply bpow_gt_0.
  assert (P0 : 0 <= d'). { destruct FD as [_ (i & Hi & ->)]. rewrite List.Forall_forall in F1, F2. apply float_axis_nonneg; [apply F1|apply F2]; apply nth_In; lia. }
  set (wu := nth u ws 0) in *. set (wv := nth v ws 0) in *.
  destruct (wterm_err f pw ws (ii_weights f pw _ _ _ _ _ _ HI) (ii_n _ _ _ _ _ _ _ HI) wu wv (nth_In ws 0 Hu) (nth_In ws 0 Hv)) as (Q33 & T1 & T2).
  change (sum_elems (double_env f pw) ws) with (float_sum ws) in T1, T2. fold q in Q33, T1, T2. set (t := RN (RN (wu * wv) / float_sum ws)) in *.
  set (n := length ws) in *. set (k := N.to_nat D).
  pose proof (W_bounds f pw ws (ii_weights f pw _ _ _ _ _ _ HI) (ii_n _ _ _ _ _ _ _ HI)) as (_ & _ & N1 & N2). fold n in N1, N2.
  pose proof (eps_up n (ii_n _ _ _ _ _ _ _ HI)) as EU. pose proof (eps_down n (ii_n _ _ _ _ _ _ _ HI)) as EL.
  pose proof u53_pos as U0. assert (U1 : u53 <= / 1024) by (change (/ 1024) with (b2 (-10)); apply bpow_le; lia).
  assert (B33 : 0 < b2 (-33)) by apply bpow_gt_0. assert (B100 : b2 (-100) < b2 (-33) * (1 / 4)). { replace (1 / 4) with (b2 (-2)) by (change (b2 (-2)) with (/ 4); lra). rewrite <- bpow_plus. apply bpow_lt. lia. }
  assert (Np : 0 < (1 + u53) ^ n) by (apply pow_lt; lra). assert (Nm : 0 < (1 - u53) ^ n) by (apply pow_lt; lra).
  assert (Tlow : b2 (-33) * (1 / 4) <= t).
  { assert (A : q * (1 / 2) <= q * ((1 - u53) * (1 - u53))) by (apply Rmult_le_compat_l; [lra|nra]). apply Rnot_lt_le. intros C.
    assert (T0 : 0 <= t \/ t < 0) by lra. destruct T0 as [T0|T0].
    - assert (t * (1 + u53) ^ n <= t * 2) by (apply Rmult_le_compat_l; lra). lra.
    - assert (0 <= - t * (1 + u53) ^ n) by (apply Rmult_le_pos; lra). lra. }
  destruct (Rle_dec (b2 (-100)) d') as [Big|Small].
  - pose proof (power_err f pw D d' (ii_dim _ _ _ _ _ _ _ HI) Big) as [PE1 PE2]. rewrite float_pow_eq in PE1, PE2 by apply HI. fold k in PE1, PE2. split.
    + intros H. exists d'. split; [exact FD|]. fold wu wv t.
      assert (M : d' ^ k <= (d + del) ^ k) by (apply pow_incr; lra). assert (M0 : 0 <= (d + del) ^ k) by (apply pow_le; lra).
      apply Rmult_lt_reg_r with ((1 + u53) ^ n); [exact Np|].
      apply Rle_lt_trans with ((d + del) ^ k * ((1 + u53) ^ 4 * (1 + u53) ^ n)).
      { rewrite <- Rmult_assoc. apply Rmult_le_compat_r; [lra|]. eapply Rle_trans; [exact PE2|]. apply Rmult_le_compat_r; [apply pow_le; lra|exact M]. }
      apply Rle_lt_trans with ((d + del) ^ k * ((1 + eps n) * ((1 - u53) * (1 - u53)))); [apply Rmult_le_compat_l; assumption|].
      apply Rlt_le_trans with (q * ((1 - u53) * (1 - u53))); [|exact T1]. rewrite <- Rmult_assoc. apply Rmult_lt_compat_r; [nra|exact H].
    + intros (d2 & F2' & H) Hdd. rewrite (float_dist_unique _ _ _ _ F2' FD) in H. clear F2' d2. fold wu wv t in H.
      assert (M : (d - del) ^ k <= d' ^ k) by (apply pow_incr; lra). assert (M0 : 0 <= (d - del) ^ k) by (apply pow_le; lra).
      apply Rmult_lt_reg_r with ((1 + u53) * (1 + u53)); [nra|].
      apply Rle_lt_trans with ((d - del) ^ k * ((1 - u53) ^ 4 * (1 - u53) ^ n)); [rewrite Rmult_assoc; apply Rmult_le_compat_l; assumption|].
      apply Rle_lt_trans with (float_pow D d' * (1 - u53) ^ n).
      { rewrite <- Rmult_assoc. apply Rmult_le_compat_r; [lra|]. eapply Rle_trans; [|exact PE1]. apply Rmult_le_compat_r; [apply pow_le; lra|exact M]. }
      apply Rlt_le_trans with (t * (1 - u53) ^ n); [apply Rmult_lt_compat_r; assumption|exact T2].
  - apply Rnot_le_lt in Small. split.
    + intros _. exists d'. split; [exact FD|]. fold wu wv t. pose proof (power_small f pw D d' (ii_dim _ _ _ _ _ _ _ HI) ltac:(lra)) as PS. rewrite float_pow_eq in PS by apply HI. lra.
    + intros _ Hdd. assert (E0 : 0 <= eps n) by (apply Rmult_le_pos; [pose proof (pos_INR n); lra|apply bpow_ge_0]).
      assert (B1 : b2 (-100) < 1) by (apply (bpow_lt radix2 (-100) 0); lia). pose proof (ii_dim _ _ _ _ _ _ _ HI) as HD.
      assert (M1 : (d - del) ^ k <= d - del).
      { unfold k. destruct (N.to_nat D) as [|j] eqn:Ej; [lia|]. cbn [pow]. rewrite <- (Rmult_1_r (d - del)) at 3. apply Rmult_le_compat_l; [lra|]. rewrite <- (pow1 j). apply pow_incr. lra. }
      assert (M0 : 0 <= (d - del) ^ k) by (apply pow_le; lra). assert ((d - del) ^ k * eps n >= 0) by (apply Rle_ge, Rmult_le_pos; lra).
      rewrite Rmult_minus_distr_l, Rmult_1_r. lra.
Qed.

(** No operation of the tree's parameters or of the edge rule overflows (doubles reach almost 2^1024) *)
Lemma fold_sum_le l : forall s k, 0 <= s <= INR k * b2 401 -> (forall w, In w l -> 0 <= w <= b2 400) -> (N.of_nat (k + length l) <= 2 ^ 31)%N ->
  0 <= fold_left (fun s w => RN (s + w)) l s <= INR (k + length l) * b2 401.
Proof.
  induction l as [|w l IH]; intros s k Hs Hl Hk; cbn [fold_left length].
  - rewrite Nat.add_0_r. exact Hs.
  - specialize (Hl w ltac:(now left)) as Hw. cbn [length] in Hk. replace (k + S (length l))%nat with (S k + length l)%nat in * by lia. apply IH; [|intros; apply Hl; now right|exact Hk].
    split; [apply RN_nonneg; lra|]. assert (DB : is_double (INR (S k) * b2 401)). { rewrite INR_IZR_INZ. apply FLT_double; lia. }
    rewrite <- (RN_id _ DB). apply RN_le. rewrite S_INR. assert (b2 400 <= b2 401) by (apply bpow_le; lia). lra.
Qed.
Lemma fold_sum_ge l : forall s, 0 <= s -> is_double s -> (forall w, In w l -> 0 <= w /\ is_double w) ->
  let S := fold_left (fun s w => RN (s + w)) l s in s <= S /\ forall w, In w l -> w <= S.
Proof.
  induction l as [|w l IH]; intros s Hs Ds Hl; cbn [fold_left].
  - split; [lra|intros w []].
  - destruct (Hl w ltac:(now left)) as [Hw Dw]. assert (S1 : s <= RN (s + w)) by (rewrite <- (RN_id s Ds) at 1; apply RN_le; lra).
    assert (S2 : w <= RN (s + w)) by (rewrite <- (RN_id w Dw) at 1; apply RN_le; lra).
    destruct (IH (RN (s + w)) ltac:(lra) (RN_double _) ltac:(intros; apply Hl; now right)) as [I1 I2]. cbv zeta. split; [lra|]. intros x [<-|Hx]; [lra|now apply I2].
Qed.
Theorem C57_no_overflow : forall f D ws ps seed omp_max team, ieee_input f D ws ps seed omp_max team ->
  (forall pre post, ws = pre ++ post -> 0 <= float_sum pre <= b2 432) /\
  forall w0 w w', In w0 ws -> (forall w, In w ws -> w0 <= w) -> In w ws -> In w' ws ->
    0 <= RN (w / w0) <= b2 800 /\ 0 <= RN (float_sum ws / w0) <= b2 832 /\ 0 <= RN (w * w') <= b2 800 /\ 0 <= RN (RN (w * w') / float_sum ws) <= b2 402.
Proof.
  intros f D ws ps seed omp_max team HI. assert (HP : forall w, In w ws -> 0 < b2 (-400) <= w /\ w <= b2 400).
  { intros w Hw. destruct (ii_double _ _ _ _ _ _ _ HI w Hw) as [_ H]. pose proof (bpow_gt_0 radix2 (-400)). lra. }
  assert (HS : forall pre post, ws = pre ++ post -> 0 <= float_sum pre <= b2 432).
  { intros pre post E. pose proof (ii_n _ _ _ _ _ _ _ HI) as Hn. rewrite E, app_length in Hn.
    destruct (fold_sum_le pre 0 0%nat) as [S1 S2]; [cbn; lra|intros w Hw; destruct (HP w); [rewrite E; apply in_or_app; now left|lra]|lia|].
    split; [exact S1|]. eapply Rle_trans; [exact S2|]. cbn [Nat.add]. apply Rle_trans with (b2 31 * b2 401).
    - apply Rmult_le_compat_r; [apply bpow_ge_0|]. rewrite INR_IZR_INZ. apply (IZR_le _ (2 ^ 31)). lia.
    - rewrite <- bpow_plus. apply bpow_le. lia. }
  split; [exact HS|]. intros w0 w w' I0 M0 Hw Hw'. destruct (HP w0 I0) as [[B0 L0] U0]. destruct (HP w Hw) as [[_ Lw] Uw]. destruct (HP w' Hw') as [[_ Lw'] Uw']. destruct (HS ws [] (eq_sym (app_nil_r ws))) as [S1 S2].
  assert (SG : w' <= float_sum ws).
  { apply (proj2 (fold_sum_ge ws 0 ltac:(lra) (generic_format_0 _ _) ltac:(intros x Hx; split; [destruct (HP x Hx); lra|apply (ii_double _ _ _ _ _ _ _ HI x Hx)]))). exact Hw'. }
  assert (INV : 0 < / w0 <= b2 400). { split; [apply Rinv_0_lt_compat; lra|]. replace (b2 400) with (/ b2 (-400)) by (rewrite <- bpow_opp; reflexivity). apply Rinv_le; lra. }
  assert (MB : forall x y a b c, 0 <= x <= b2 a -> 0 <= y <= b2 b -> c = (a + b)%Z -> (-1074 <= c)%Z -> 0 <= RN (x * y) <= b2 c).
  { intros x y a b c Hx Hy -> Hc. split; [apply RN_nonneg, Rmult_le_pos; lra|]. apply RN_le_b2; [|exact Hc]. rewrite bpow_plus. apply Rmult_le_compat; lra. }
  split; [|split; [|split]].
  - apply (MB w (/ w0) 400%Z 400%Z 800%Z); [lra|lra|lia|lia].
  - apply (MB (float_sum ws) (/ w0) 432%Z 400%Z 832%Z); [lra|lra|lia|lia].
  - apply (MB w w' 400%Z 400%Z 800%Z); [lra|lra|lia|lia].
  - assert (HP0 : b2 (-1022) <= w * w'). { apply Rle_trans with (b2 (-400) * b2 (-400)); [rewrite <- bpow_plus; apply bpow_le; lia|apply Rmult_le_compat; lra]. }
    destruct (RN_rel (w * w') HP0) as [_ R2]. assert (U : u53 <= 1) by (apply (bpow_le radix2 (-53) 0); lia). pose proof u53_pos.
    assert (N0 : 0 <= RN (w * w')) by (apply RN_nonneg, Rmult_le_pos; lra).
    split; [apply RN_nonneg; apply Rmult_le_pos; [exact N0|left; apply Rinv_0_lt_compat; lra]|]. apply RN_le_b2; [|lia].
    apply Rmult_le_reg_r with (float_sum ws); [lra|]. replace (RN (w * w') / float_sum ws * float_sum ws) with (RN (w * w')) by (field; lra).
    assert (P : 0 <= w * w') by (apply Rmult_le_pos; lra). assert (w * w' * u53 <= w * w' * 1) by (apply Rmult_le_compat_l; lra).
    apply Rle_trans with (b2 401 * w').
    + assert (w * w' <= b2 400 * w') by (apply Rmult_le_compat_r; lra). replace (b2 401) with (2 * b2 400) by (change 401%Z with (1 + 400)%Z; rewrite bpow_plus; reflexivity). lra.
    + apply Rmult_le_compat; [apply bpow_ge_0|lra|apply bpow_le; lia|exact SG].
Qed.

(** ** a correctly rounded log2 satisfies the assumptions *)
Definition log2_double (x : R) : R := RN (log2R x).
Lemma log2_double_good : good_log2 log2_double.
Proof.
  constructor.
  - intros x y H. apply RN_le, log2R_le; lra.
  - intros z Hz. unfold log2_double. rewrite log2R_b2. apply RN_id. replace (IZR z) with (IZR z * b2 0) by (change (b2 0) with 1; ring). apply FLT_double; lia.
Qed.
(** and the logarithm of q is not rounded up to an integer if q is not within 2^-47 (relatively) below a power of two *)
Theorem C57_logarithm_criterion : forall q, 0 < q -> q < b2 31 -> (forall z, (1 <= z <= 31)%Z -> q < b2 z -> q <= b2 z * (1 - b2 (-47))) ->
  forall z, (1 <= z)%Z -> IZR z <= log2_double q -> b2 z <= q.
Proof.
  intros q Q0 Q31 HQ z Hz HL. apply Rnot_lt_le. intros C. unfold log2_double in HL.
  assert (Hz31 : (z <= 31)%Z).
  { destruct (Z.le_gt_cases z 31) as [H|H]; [exact H|exfalso]. assert (L : log2R q <= IZR 31) by (left; now apply log2R_lt_iff).
    apply RN_le in L. rewrite (RN_id (IZR 31)) in L by (replace (IZR 31) with (IZR 31 * b2 0) by (change (b2 0) with 1; ring); apply FLT_double; lia). assert (H32 : (32 <= z)%Z) by lia. apply IZR_le in H32. lra. }
  specialize (HQ z ltac:(lia) C). set (d := b2 (-47)) in *. assert (D0 : 0 < d) by apply bpow_gt_0. assert (D1 : d <= / 1024) by (change (/ 1024) with (b2 (-10)); apply bpow_le; lia).
  assert (L : log2R q <= IZR z - d).
  { apply Rle_trans with (log2R (b2 z * (1 - d))); [apply log2R_le; lra|]. unfold log2R. rewrite ln_mult by (try apply bpow_gt_0; lra). unfold Rdiv. rewrite Rmult_plus_distr_r.
    fold (ln (b2 z) / ln 2). change (ln (b2 z) / ln 2) with (log2R (b2 z)). rewrite log2R_b2. assert (LN : ln (1 - d) <= - d). { left. rewrite <- (ln_exp (- d)). apply ln_increasing; [lra|]. assert (X : - d <> 0) by lra. pose proof (exp_ineq1 (- d) X). lra. }
    assert (L2 : 0 < ln 2 < 1). { split; [rewrite <- ln_1; apply ln_increasing; lra|]. rewrite <- (ln_exp 1). apply ln_increasing; [lra|]. pose proof (exp_ineq1 1 ltac:(lra)). lra. }
    assert (I : 1 <= / ln 2) by (rewrite <- Rinv_1; apply Rinv_le; lra).
    assert (ln (1 - d) * / ln 2 <= - d * / ln 2) by (apply Rmult_le_compat_r; lra). assert (- d * / ln 2 <= - d * 1) by (apply Rmult_le_compat_neg_l; lra). lra. }
  apply RN_le in L. rewrite (RN_id (IZR z - d)) in L; [lra|].
  replace (IZR z - d) with (IZR (z * 2 ^ 47 - 1) * b2 (-47)).
  - apply FLT_double; lia.
  - unfold d. rewrite minus_IZR, mult_IZR. change (IZR (2 ^ 47)) with (b2 47). rewrite Rmult_minus_distr_r, Rmult_assoc, <- bpow_plus. change (b2 (47 + -47)) with 1. ring.
Qed.

(** ** the hypotheses are met by a concrete input *)
Lemma dbl_int z : (Z.abs z < 2 ^ 53)%Z -> is_double (IZR z).
Proof. intros H. replace (IZR z) with (IZR z * b2 0) by (change (b2 0) with 1; ring). apply FLT_double; lia. Qed.
Lemma dbl_eighth z : (Z.abs z < 2 ^ 53)%Z -> is_double (IZR z / 8).
Proof. intros H. replace (IZR z / 8) with (IZR z * b2 (-3)) by (change (b2 (-3)) with (/ 8); lra). apply FLT_double; lia. Qed.
Definition ex_fw : list R := [1; 2; 1; 3].
Definition ex_fp : list (list R) := [[IZR 2 / 8; IZR 4 / 8]; [IZR 3 / 8; IZR 4 / 8]; [IZR 5 / 8; IZR 0 / 8]; [IZR 0 / 8; IZR 6 / 8]].
Theorem C57_example : good_log2 log2_double /\ ieee_input log2_double 2 ex_fw ex_fp 7 4 3 /\ float_edge 2 ex_fw ex_fp 0 1 /\ ~ float_edge 2 ex_fw ex_fp 0 2.
Proof.
  assert (R1 : RN (0 + 1) = 1) by (replace (0 + 1) with (IZR 1) by ring; apply RN_id, dbl_int; lia).
  assert (R2 : RN (1 + 2) = 3) by (replace (1 + 2) with (IZR 3) by ring; apply RN_id, dbl_int; lia).
  assert (R3 : RN (3 + 1) = 4) by (replace (3 + 1) with (IZR 4) by ring; apply RN_id, dbl_int; lia).
  assert (R4 : RN (4 + 3) = 7) by (replace (4 + 3) with (IZR 7) by ring; apply RN_id, dbl_int; lia).
  assert (W : float_sum ex_fw = 7) by (unfold float_sum, ex_fw; cbn [fold_left]; rewrite R1, R2, R3, R4; reflexivity).
  assert (Lo : b2 (-400) <= 1) by (apply (bpow_le radix2 (-400) 0); lia). assert (Hi : 4 <= b2 400) by (apply (bpow_le radix2 2 400); lia).
  assert (B31 : b2 31 = IZR 2147483648) by reflexivity.
  split; [exact log2_double_good|]. split; [|split].
  - constructor.
    + lia.
    + discriminate.
    + intros w [<-|[<-|[<-|[<-|[]]]]]; (split; [apply dbl_int; lia|lra]).
    + intros w0 I0 M0. assert (w0 = 1). { pose proof (M0 1 ltac:(left; reflexivity)). destruct I0 as [<-|[<-|[<-|[<-|[]]]]]; lra. } subst w0. rewrite W.
      assert (Q : RN (RN (7 / 1) / 1) = 7) by (unfold Rdiv; rewrite Rinv_1, !Rmult_1_r, !(RN_id 7); [reflexivity| |]; apply dbl_int; lia). rewrite Q. cbv zeta. split; [rewrite B31; lra|].
      apply C57_logarithm_criterion; [lra|rewrite B31; lra|]. intros z Hz Hlt.
      assert (Z3 : (3 <= z)%Z). { destruct (Z.le_gt_cases 3 z) as [H|H]; [exact H|exfalso]. assert (b2 z <= b2 2) by (apply bpow_le; lia). change (b2 2) with 4 in H0. lra. }
      pose proof (bpow_le radix2 3 z Z3) as B3. change (b2 3) with 8 in B3. assert (B47 : b2 (-47) <= / 1024) by (change (/ 1024) with (b2 (-10)); apply bpow_le; lia).
      apply Rle_trans with (8 * (1 - / 1024)); [lra|]. apply Rmult_le_compat; lra.
    + reflexivity.
    + reflexivity.
    + repeat apply List.Forall_cons; try apply List.Forall_nil; (split; [reflexivity|]); repeat apply List.Forall_cons; try apply List.Forall_nil; (split; [apply dbl_eighth; lia|lra]).
    + change (2 ^ 17)%N with 131072%N. lia.
    + lia.
    + right. change (2 ^ 31)%Z with 2147483648%Z. lia.
  - assert (AX : forall a b, (0 <= a < 8)%Z -> (0 <= b < 8)%Z -> float_axis (IZR a / 8) (IZR b / 8) = IZR (Z.min (Z.abs (a - b)) (8 - Z.abs (a - b))) / 8).
    { intros a b Ha Hb. unfold float_axis. replace (IZR a / 8 - IZR b / 8) with (IZR (a - b) / 8) by (rewrite minus_IZR; lra). rewrite RN_id by (apply dbl_eighth; lia).
      replace (Rabs (IZR (a - b) / 8)) with (IZR (Z.abs (a - b)) / 8) by (rewrite abs_IZR; unfold Rdiv; rewrite Rabs_mult, (Rabs_pos_eq (/ 8)) by lra; reflexivity).
      replace (1 - IZR (Z.abs (a - b)) / 8) with (IZR (8 - Z.abs (a - b)) / 8) by (rewrite minus_IZR; lra). rewrite RN_id by (apply dbl_eighth; lia).
      unfold Rmin. destruct (Rle_dec _ _) as [L|L]; unfold Rdiv in *.
      - rewrite Z.min_l; [reflexivity|]. apply le_IZR. lra.
      - apply Rnot_le_lt in L. rewrite Z.min_r; [reflexivity|]. apply le_IZR. lra. }
    exists (IZR 1 / 8). split.
    + split.
      * intros [|[|i]] Hi'; [| |cbn in Hi'; lia]; cbn [nth ex_fp]; rewrite AX by lia; cbn; lra.
      * exists 0%nat. split; [cbn; lia|]. cbn [nth ex_fp]. rewrite AX by lia. reflexivity.
    + cbn [nth ex_fw float_pow]. rewrite W, (RN_id (1 * 2)) by (rewrite Rmult_1_l; apply dbl_int; lia).
      apply Rle_lt_trans with (b2 (-6)); [apply RN_le_b2; [change (b2 (-6)) with (/ 64); lra|lia]|]. apply Rlt_le_trans with (b2 (-2)); [apply bpow_lt; lia|].
      rewrite <- (RN_id (b2 (-2))) by (apply b2_double; lia). apply RN_le. change (b2 (-2)) with (/ 4). lra.
  - intros (d & [HA _] & H). revert H. apply Rle_not_lt. specialize (HA 1%nat ltac:(cbn; lia)). cbn [nth ex_fp] in HA. unfold float_axis in HA.
    replace (IZR 4 / 8 - IZR 0 / 8) with (IZR 4 / 8) in HA by lra. rewrite RN_id in HA by (apply dbl_eighth; lia). replace (Rabs (IZR 4 / 8)) with (4 / 8) in HA by (rewrite Rabs_right; lra).
    replace (1 - 4 / 8) with (IZR 4 / 8) in HA by lra. rewrite RN_id in HA by (apply dbl_eighth; lia). rewrite Rmin_left in HA by lra.
    cbn [nth ex_fw float_pow]. rewrite W, (RN_id (1 * 1)) by (rewrite Rmult_1_l; apply (dbl_int 1); lia).
    apply RN_le. replace (1 * 1 / 7) with (1 / 7) by lra. apply Rle_trans with (/ 2 * / 2); [lra|]. apply Rmult_le_compat; lra.
Qed.

Print Assumptions C57_threshold_exact_in_doubles.
Print Assumptions C57_simple_graph_in_doubles.
Print Assumptions C57_close_to_exact.
Print Assumptions C57_no_overflow.
Print Assumptions C57_logarithm_criterion.
Print Assumptions C57_example.
