(** The expected number of draws for given positions, bounded pair by pair. *)
From Coq Require Import Arith NArith ZArith List Bool Reals Permutation Lia Lra Psatz.
From Flocq Require Import Core.
From Coquelicot Require Import Coquelicot.
From Verif Require Import Base Sched Bits_Model Bits_Proofs Coord_Model Coord_Proofs Coord_Geo IntSort_Model Cover Tree_Model Tree_Proofs Tree_Build Tree_Plan Tree_Run Girg_Model Girg_Proofs Girg_Num
  Prop_Girg Mean Prop_Mean Cost_Touch GirgCost_Model GirgCost_Proofs GirgCost_Count Prop_Cost Prop_Work Prob_Spec Prob Prob_Events Prob_Girg Prob_Law Mean_Cells Draws_Law.
Import ListNotations.
Local Open Scope R_scope.

Lemma sumR_flat {A B} (f : B -> R) (g : A -> list B) l : sumR (map f (flat_map g l)) = sumR (map (fun x => sumR (map f (g x))) l).
Proof. induction l as [|x l IH]; [reflexivity|]. cbn [flat_map map]. rewrite map_app, sumR_app, IH. reflexivity. Qed.
Lemma sumR_perm l l' : Permutation l l' -> sumR l = sumR l'.
Proof. unfold sumR. induction 1; cbn [fold_right]; lra. Qed.
Lemma sumR_const {A} (c : R) (l : list A) : sumR (map (fun _ => c) l) = c * INR (length l).
Proof. induction l as [|x l IH]; [unfold sumR; cbn; ring|]. unfold sumR in *. cbn [map fold_right length]. rewrite IH, S_INR. ring. Qed.
Lemma sumR_plus {A} (f g : A -> R) l : sumR (map (fun x => f x + g x) l) = sumR (map f l) + sumR (map g l).
Proof. unfold sumR. induction l as [|x l IH]; cbn [map fold_right]; [ring|]. rewrite IH. ring. Qed.
Lemma sumR_nonneg {A} (f : A -> R) l : (forall x, In x l -> 0 <= f x) -> 0 <= sumR (map f l).
Proof. intros H. apply Rle_trans with (sumR (map (fun _ => 0) l)); [rewrite sumR_const; lra|]. now apply sumR_le. Qed.
Lemma sumR_one {A} (f : A -> R) l x : In x l -> (forall y, In y l -> 0 <= f y) -> f x <= sumR (map f l).
Proof.
  intros I H. apply in_split in I as (l1 & l2 & ->). rewrite map_app, sumR_app. cbn [map]. unfold sumR at 2. cbn [fold_right].
  pose proof (sumR_nonneg f l1 ltac:(intros y Hy; apply H; apply in_or_app; now left)). pose proof (sumR_nonneg f l2 ltac:(intros y Hy; apply H; apply in_or_app; right; now right)) as Q. unfold sumR in *. lra.
Qed.
Lemma all_pairs_sum f n : sumR (map f (all_pairs (S n))) = sumR (map f (all_pairs n)) + sumR (map (fun u => f (u, n)) (seq 0 n)).
Proof. unfold all_pairs. rewrite seq_S, flat_map_app, map_app, sumR_app. cbn [Nat.add flat_map]. rewrite app_nil_r, map_map. reflexivity. Qed.
Lemma all_pairs_square (w : nat -> R) n : (forall u, (u < n)%nat -> 0 <= w u) -> 2 * sumR (map (fun uv => w (fst uv) * w (snd uv)) (all_pairs n)) <= sumR (map w (seq 0 n)) * sumR (map w (seq 0 n)).
Proof.
  induction n as [|n IH]; intros H; [unfold sumR; cbn; lra|]. specialize (IH (fun u Hu => H u (Nat.lt_lt_succ_r _ _ Hu))). rewrite all_pairs_sum. cbn [fst snd].
  rewrite (sumR_ext (fun u => w u * w n) (fun u => w n * w u)) by (intros; ring). rewrite sumR_scal. rewrite seq_S, map_app, sumR_app. cbn [Nat.add map]. unfold sumR at 4 6. cbn [fold_right]. pose proof (H n ltac:(lia)). nra.
Qed.
(** geometric series *)
Lemma geo_series r m : 0 <= r < 1 -> sumR (map (fun k => r ^ (m - 1 - k)) (seq 0 m)) <= / (1 - r).
Proof.
  intros Hr. assert (G : sumR (map (fun k => r ^ (m - 1 - k)) (seq 0 m)) * (1 - r) <= 1).
  { induction m as [|m IH]; [unfold sumR; cbn; lra|]. rewrite seq_S, map_app, sumR_app. cbn [Nat.add map]. replace (S m - 1 - m)%nat with 0%nat by lia. unfold sumR at 2. cbn [fold_right pow].
    rewrite (sumR_ext _ (fun k => r * r ^ (m - 1 - k))); [|intros k Hk; apply in_seq in Hk; replace (S m - 1 - k)%nat with (S (m - 1 - k)) by lia; reflexivity].
    rewrite sumR_scal. set (S0 := sumR _) in *. nra. }
  apply Rmult_le_reg_r with (1 - r); [lra|]. replace (/ (1 - r) * (1 - r)) with 1 by (field; lra). exact G.
Qed.
Lemma Rpower_mono x y a : 0 < x <= y -> 0 <= a -> Rpower x a <= Rpower y a.
Proof.
  intros [H0 H1] Ha. unfold Rpower. assert (M : ln x <= ln y) by (destruct H1 as [H1| ->]; [left; now apply ln_increasing|lra]).
  assert (M' : a * ln x <= a * ln y) by (apply Rmult_le_compat_l; lra). destruct M' as [M'|M']; [left; now apply exp_increasing|right; now rewrite M'].
Qed.
Lemma Rpower_b2 z a : Rpower (b2 z) a = Rpower 2 (a * IZR z).
Proof. rewrite bpow_powerRZ. cbn [radix_val radix2 IZR]. change (IZR (Zpos 2)) with 2. rewrite powerRZ_Rpower by lra. rewrite Rpower_mult. f_equal. ring. Qed.

(** blocks of the second type: the cells that contain the two cells touch *)
Lemma plan_II_parent cfg D P : dim_ok D -> (p_c P <= 30)%Z -> p_levels P = (base_level D (p_c P) 0 0 + 1)%N ->
  forall k A B l X Y m i j, (l + N.of_nat k < p_levels P)%N -> in_level D l A -> in_level D l B -> In (CallII X Y m i j) (plan cfg D P k A B l) ->
  (X = A /\ Y = B /\ m = l /\ touchb cfg D A B l = false) \/ (1 <= m)%N /\ exists A' B', in_level D (m - 1) A' /\ in_level D (m - 1) B' /\ touchb cfg D A' B' (m - 1) = true /\ is_child D A' X /\ is_child D B' Y.
Proof.
  intros HD Hc HL.
  assert (F : forall A B l X Y m i j, In (CallII X Y m i j) (gfar (p_layers P) (p_levels P) (base_level D (p_c P)) A B l) -> X = A /\ Y = B /\ m = l).
  { intros A B l X Y m i j H. unfold gfar in H. apply in_flat_map in H as (l' & _ & H). apply in_map_iff in H as (ij & E & _). injection E. auto. }
  assert (Nr : forall A B l X Y m i j, ~ In (CallII X Y m i j) (gnear (p_layers P) (base_level D (p_c P)) A B l)).
  { intros A B l X Y m i j H. unfold gnear in H. apply in_flat_map in H as (ij & _ & H). destruct (_ || _); [|destruct H]. destruct H as [H|[]]. discriminate. }
  induction k as [|k IH]; intros A B l X Y m i j Hl HA HB; unfold plan; cbn [gplan]; destruct (touchb cfg D A B l) eqn:T; cbn [negb]; intros H.
  - apply in_app_or in H as [H|[]]. exfalso. revert H. apply Nr.
  - left. destruct (F _ _ _ _ _ _ _ _ H) as (-> & -> & ->). auto.
  - right. apply in_app_or in H as [H|H]; [exfalso; revert H; apply Nr|]. apply in_flat_map in H as (ab & Hab & H).
    destruct (child_pairs_In D P HD Hc HL A B l ab ltac:(lia) HA HB Hab) as [La Lb]. destruct (cp_parent D P HD Hc HL A B l ab ltac:(lia) HA HB Hab) as [Ca Cb].
    specialize (IH (fst ab) (snd ab) (l + 1)%N X Y m i j ltac:(lia) La Lb H). destruct IH as [(-> & -> & -> & _)|IH]; [|exact IH].
    split; [lia|]. exists A, B. replace (l + 1 - 1)%N with l by lia. auto.
  - left. destruct (F _ _ _ _ _ _ _ _ H) as (-> & -> & ->). auto.
Qed.
Section Bound.
  Context {D : N} {ws : list R} {ps : list (list R)} {seed : Z} {omp_max team : nat} (HI : girg_input D ws ps seed omp_max team).
  Variables (cfg : config) (P : tparams) (NO : num_ok ideal_env D ws P) (IP : ideal_params ws P).
  Variables (t : tree) (ord : list nat) (TS : tree_spec ideal_env cfg D ws ps P t ord).
  Variables (a : R) (Ha : 0 <= a).
  Notation HD := (gi_dim _ _ _ _ _ _ HI).
  Notation HL := (gi_len _ _ _ _ _ _ HI).
  Notation Hn := (gi_n _ _ _ _ _ _ HI).
  Notation VP := (use_vp HI).
  Notation n := (length ws).
  Notation lay := (lay ideal_env ws P).
  Notation cel := (cel cfg D ps).
  Notation plan0 := (plan cfg D P (N.to_nat (p_levels P - 1)) 0%N 0%N 0%N).
  Notation cpairs := (call_pairs ideal_env cfg D ws ps P ord).
  Notation lvl := (lvl D ws P).
  Notation draws := (@call_draws D ws ps cfg P ord a).

  Definition wterm (u v : nat) : R := 4 * (b2 (Z.of_nat (lay u) + Z.of_nat (lay v)) * (p_w0 P * p_w0 P)) / p_W P.
  Definition nearR (l : N) (u v : nat) : R := if near l (pos ps u) (pos ps v) then 1 else 0.
  Definition far_term (u v k : nat) : R := Rpower (wterm u v * b2 (Z.of_N (D * (N.of_nat k + 1)))) a.
  Definition pair_bound (u v : nat) : R := nearR (lvl u v) u v + 5 * sumR (map (fun k => nearR (N.of_nat k) u v * far_term u v k) (seq 0 (N.to_nat (lvl u v)))).

  Lemma parents_near A B l i j u v : In (CallII A B l i j) plan0 -> In u (V ideal_env cfg D ws ps P ord i A l) -> In v (V ideal_env cfg D ws ps P ord j B l) ->
    (1 <= l)%N /\ near (l - 1) (pos ps u) (pos ps v) = true.
  Proof.
    intros Hx Hu Hv. pose proof (levels_eq _ cfg _ _ ps _ NO t ord TS) as HLE. pose proof (no_c _ _ _ _ NO) as Hc.
    pose proof (plan0_ok ideal_env cfg D ws ps P HD NO HL Hn t ord TS _ Hx) as (HA & HB & Hi & Hj & Hl & Ht).
    assert (Hlev : (l < p_levels P)%N). { rewrite HLE. pose proof (base_le_00 D (p_c P) HD i j). lia. }
    destruct (level_bound D P HD Hc HLE l Hlev) as [Hb1 Hb2].
    assert (L0 : in_level D 0 0) by exact (root_level D P HD HLE).
    assert (L9 : (0 + N.of_nat (N.to_nat (p_levels P - 1)) < p_levels P)%N) by lia.
    destruct (plan_II_parent cfg D P HD Hc HLE _ _ _ _ _ _ _ _ _ L9 L0 L0 Hx) as [(-> & -> & -> & T)|(L1 & A' & B' & HA' & HB' & T & CA & CB)].
    - exfalso. unfold touchb in T. rewrite (touching_low cfg D 0 0 0 HD ltac:(lia) ltac:(lia) L0 L0) in T. discriminate.
    - split; [exact L1|]. apply (V_In _ _ _ _ _ _ HL Hn _ _ TS) in Hu as (Hu & _ & Eu). apply (V_In _ _ _ _ _ _ HL Hn _ _ TS) in Hv as (Hv & _ & Ev).
      assert (CH : forall w X A0, (w < n)%nat -> cel l w = X -> is_child D A0 X -> cel (l - 1) w = A0).
      { intros w X A0 Hw <- C. pose proof (cell_of_child cfg ideal_env D (l - 1) (pos ps w) HD (pos_valid _ _ _ _ HL VP Hn w Hw)) as Q. replace (l - 1 + 1)%N with l in Q by lia. specialize (Q ltac:(lia)).
        apply is_child_iff in C as [_ C]; [|exact HD]. apply is_child_iff in Q as [_ Q]; [|exact HD]. unfold Tree_Build.cel in *. congruence. }
      pose proof (touching_near cfg D ws ps P HD NO HL VP Hn t ord TS (l - 1) u v Hu Hv ltac:(lia)) as TN. rewrite (CH u A A' Hu Eu CA), (CH v B B' Hv Ev CB) in TN. unfold touchb in T. rewrite TN in T. exact T.
  Qed.
  Lemma wterm_pos u v : 0 < wterm u v.
  Proof.
    unfold wterm. pose proof (ip_pos _ _ IP). pose proof (ip_Wpos _ _ IP). apply Rdiv_lt_0_compat; [|assumption]. apply Rmult_lt_0_compat; [lra|]. apply Rmult_lt_0_compat; [apply bpow_gt_0|nra].
  Qed.
  Lemma far_term_pos u v k : 0 < far_term u v k. Proof. apply exp_pos. Qed.
  Lemma nearR_range l u v : 0 <= nearR l u v <= 1. Proof. unfold nearR. destruct (near _ _ _); lra. Qed.
  Lemma pair_bound_parts u v : nearR (lvl u v) u v <= pair_bound u v /\ forall k, (k < N.to_nat (lvl u v))%nat -> 5 * (nearR (N.of_nat k) u v * far_term u v k) <= pair_bound u v.
  Proof.
    assert (Q : forall k, 0 <= nearR (N.of_nat k) u v * far_term u v k) by (intros k; apply Rmult_le_pos; [apply nearR_range|left; apply far_term_pos]).
    unfold pair_bound. split.
    - pose proof (sumR_nonneg (fun k => nearR (N.of_nat k) u v * far_term u v k) (seq 0 (N.to_nat (lvl u v))) (fun k _ => Q k)). lra.
    - intros k Hk. pose proof (nearR_range (lvl u v) u v). pose proof (sumR_one (fun k => nearR (N.of_nat k) u v * far_term u v k) (seq 0 (N.to_nat (lvl u v))) k ltac:(apply in_seq; lia) (fun k _ => Q k)). lra.
  Qed.
  Lemma block_max_bound A B l i j u v : In (CallII A B l i j) plan0 -> In u (V ideal_env cfg D ws ps P ord i A l) -> In v (V ideal_env cfg D ws ps P ord j B l) ->
    0 <= @block_max D cfg P a A B l i j /\ 5 * @block_max D cfg P a A B l i j <= pair_bound u v.
  Proof.
    intros Hx Hu Hv. destruct (parents_near A B l i j u v Hx Hu Hv) as [L1 NR]. pose proof (levels_eq _ cfg _ _ ps _ NO t ord TS) as HLE. pose proof (no_c _ _ _ _ NO) as Hc.
    pose proof (plan0_ok ideal_env cfg D ws ps P HD NO HL Hn t ord TS _ Hx) as Hok. pose proof Hok as (HA & HB & Hi & Hj & Hl & Ht).
    assert (Hlev : (l < p_levels P)%N). { rewrite HLE. pose proof (base_le_00 D (p_c P) HD i j). lia. }
    destruct (level_bound D P HD Hc HLE l Hlev) as [Hb1 Hb2].
    destruct (far_facts_ok HI cfg P NO IP t ord TS A B l i j Hok) as (wub & dlb & F). pose proof (ff_wpos _ _ _ _ _ _ _ _ _ _ F) as Fw. pose proof (ff_dpos _ _ _ _ _ _ _ _ _ _ F) as Fd.
    pose proof (ff_w _ _ _ _ _ _ _ _ _ _ F) as EW. pose proof (ff_d _ _ _ _ _ _ _ _ _ _ F) as ED.
    destruct (cell_dist_nontouching ideal_env cfg D l A B HD ideal_good ltac:(lia) ltac:(lia) HA HB Ht) as (d & Ed & Hd).
    assert (Hdl : 1 / pow2R (D * l) <= dlb). { unfold dist_lower_bound in ED. rewrite Ed in ED. cbn [obind] in ED. injection ED as <-. apply pow_to_the_ge; [apply ideal_good|apply HD|lia|exact Hd]. }
    apply (V_In _ _ _ _ _ _ HL Hn _ _ TS) in Hu as (Hun & Hlu & _). apply (V_In _ _ _ _ _ _ HL Hn _ _ TS) in Hv as (Hvn & Hlv & _).
    assert (EWt : wub = wterm u v).
    { unfold w_upper_bound in EW. pose proof (base_pos D (p_c P) HD i j l ltac:(lia) Hl) as Hcp. rewrite !shl1_i32_Some in EW by lia. cbn [obind rnd ideal_env] in EW. injection EW as <-. unfold wterm. rewrite Hlu, Hlv.
      assert (HZ : forall k, IZR (Z.of_N (2 ^ (N.of_nat k + 1))) = b2 (Z.of_nat k) * 2).
      { intros k. replace (b2 (Z.of_nat k) * 2) with (b2 (Z.of_nat k + 1)) by (rewrite bpow_plus; reflexivity). rewrite <- IZR_Zpower by lia. f_equal. rewrite N2Z.inj_pow. cbn [radix_val radix2]. f_equal. lia. }
      rewrite !HZ, bpow_plus. pose proof (ip_Wpos _ _ IP). field. lra. }
    unfold block_max. rewrite EW, ED. unfold max_connection_prob, xdiv. cbn [rnd ideal_env]. destruct (Req_EM_T dlb 0) as [|_]; [lra|]. cbn [xpow xmin1 fpow ideal_env].
    assert (PB : pow2R (D * l) = b2 (Z.of_N (D * l))) by (unfold pow2R; rewrite <- IZR_Zpower by lia; f_equal; rewrite N2Z.inj_pow; reflexivity).
    assert (Pp : 0 < pow2R (D * l)) by apply pow2R_pos.
    assert (R1 : Rpower (wub / dlb) a <= far_term u v (N.to_nat (l - 1))).
    { unfold far_term. replace (N.of_nat (N.to_nat (l - 1)) + 1)%N with l by lia. rewrite <- EWt, <- PB. apply Rpower_mono; [|exact Ha]. split; [now apply Rdiv_lt_0_compat|]. apply Rmult_le_compat_l; [lra|].
      rewrite <- (Rinv_inv (pow2R (D * l))). apply Rinv_le_contravar; [now apply Rinv_0_lt_compat|]. unfold Rdiv in Hdl. lra. }
    split; [apply Rmin_glb; [left; apply exp_pos|lra]|].
    assert (Hlv' : (N.to_nat (l - 1) < N.to_nat (lvl u v))%nat). { unfold Cost_Touch.lvl. rewrite Hlu, Hlv. lia. }
    pose proof (proj2 (pair_bound_parts u v) (N.to_nat (l - 1)) Hlv') as PB2. unfold nearR in PB2. replace (N.of_nat (N.to_nat (l - 1))) with (l - 1)%N in PB2 by lia. rewrite NR in PB2. pose proof (Rmin_l (Rpower (wub / dlb) a) 1). lra.
  Qed.
  Lemma call_bound x : In x plan0 -> draws x <= (if isI x then 0 else 1) + sumR (map (fun uv => pair_bound (fst uv) (snd uv)) (cpairs x)).
  Proof.
    intros Hx. destruct x as [A B l i j|A B l i j]; cbn [isI].
    - rewrite Rplus_0_l. change (draws (CallI A B l i j)) with (INR (length (cpairs (CallI A B l i j)))). rewrite <- (Rmult_1_l (INR _)), <- sumR_const. apply sumR_le. intros [u v] Huv. cbn [fst snd].
      eapply Rle_trans; [|apply (proj1 (pair_bound_parts u v))]. unfold nearR. rewrite <- (compared_near cfg D ws ps P HD NO HL VP Hn t ord TS _ u v Hx Huv). cbn [isI]. lra.
    - cbn [call_draws Tree_Run.call_pairs]. set (va := V ideal_env cfg D ws ps P ord i A l). set (vb := V ideal_env cfg D ws ps P ord j B l). set (m := INR (length va * length vb)). set (p := @block_max D cfg P a A B l i j).
      assert (Hm : 0 <= m) by apply pos_INR.
      assert (S : 5 * p * m <= sumR (map (fun uv => pair_bound (fst uv) (snd uv)) (list_prod va vb))).
      { unfold m. rewrite <- prod_length, <- sumR_const. apply sumR_le. intros [u v] Huv. cbn [fst snd]. apply in_prod_iff in Huv as [Hu Hv]. apply (block_max_bound A B l i j u v Hx Hu Hv). }
      assert (P0 : 0 <= p * m).
      { destruct (list_prod va vb) as [|[u v] L] eqn:E; [apply (f_equal (@length _)) in E; rewrite prod_length in E; unfold m; rewrite E; cbn; lra|].
        apply Rmult_le_pos; [|exact Hm]. assert (I : In (u, v) (list_prod va vb)) by (rewrite E; now left). apply in_prod_iff in I as [Hu Hv]. apply (block_max_bound A B l i j u v Hx Hu Hv). }
      clearbody m p. cbn beta zeta. set (sm := sumR _) in *. clearbody sm. replace (2 * p * m) with (2 * (p * m)) by ring. replace (5 * p * m) with (5 * (p * m)) in S by ring.
      destruct (Rltb (1 / 5) p) eqn:P5.
      + apply Rltb_true in P5. assert (0 <= (p - 1 / 5) * m) by (apply Rmult_le_pos; lra). replace ((p - 1 / 5) * m) with (p * m - m / 5) in * by field. lra.
      + destruct (Rltb (m * p) (1 / 1000000)); lra.
  Qed.
  Lemma pair_bound_sym u v : pair_bound u v = pair_bound v u.
  Proof.
    unfold pair_bound, nearR, far_term, wterm. rewrite (lvl_sym D ws P u v), near_sym, (Z.add_comm (Z.of_nat (lay u))). f_equal. f_equal. apply sumR_ext. intros k _. now rewrite near_sym.
  Qed.
  (** the calls of the plan treat every pair once *)
  Lemma calls_perm : Permutation (map norm (flat_map cpairs plan0)) (all_pairs n).
  Proof.
    apply norm_perm.
    - intros u v I. apply in_flat_map in I as (x & Hx & I). destruct (call_pairs_In ideal_env cfg D ws ps P HL Hn t ord TS x u v I) as [Hu Hv]. repeat split; auto.
      intros <-. revert I. apply (call_pairs_irrefl ideal_env cfg D ws ps P HD NO HL Hn t ord TS x u). now apply (plan0_ok ideal_env cfg D ws ps P HD NO HL Hn t ord TS).
    - intros u v Hu Hv Hne. now apply (plan0_pairs ideal_env cfg D ws ps P HD NO HL (use_vp HI) Hn t ord TS).
  Qed.
  (** all draws *)
  Lemma draws_bound : sumR (map draws plan0) <= INR (length plan0) + sumR (map (fun uv => pair_bound (fst uv) (snd uv)) (all_pairs n)).
  Proof.
    eapply Rle_trans; [apply sumR_le; intros x Hx; exact (call_bound x Hx)|]. rewrite sumR_plus. apply Rplus_le_compat.
    - rewrite <- (Rmult_1_l (INR _)), <- sumR_const. apply sumR_le. intros x _. destruct (isI x); lra.
    - right. rewrite <- (sumR_flat (fun uv => pair_bound (fst uv) (snd uv)) cpairs).
      pose proof calls_perm as PM.
      rewrite <- (sumR_perm _ _ (Permutation_map (fun uv => pair_bound (fst uv) (snd uv)) PM)), map_map. apply sumR_ext. intros [u v] _. unfold norm. cbn [fst snd]. destruct (u <? v)%nat; cbn [fst snd]; [reflexivity|apply pair_bound_sym].
  Qed.
End Bound.
