(** The expected number of draws of a hyperbolic graph for given points, bounded pair by pair. *)
From Coq Require Import Arith NArith ZArith List Bool Reals Permutation Lia Lra Psatz.
From Flocq Require Import Core.
From Coquelicot Require Import Coquelicot.
From Verif Require Import Base Sched Bits_Model Bits_Proofs Coord_Model Coord_Proofs Coord_Geo IntSort_Model IntSort_Proofs Cover Tree_Model Tree_Proofs Tree_Build Tree_Plan Tree_Run Girg_Model Girg_Proofs Girg_Num
  Prop_Girg Mean Prop_Mean Cost_Touch GirgCost_Model GirgCost_Proofs GirgCost_Count Prop_Cost Prob_Spec Prob Prob_Events Prob_Girg Prob_Law Mean_Cells Draws_Law Draws_Bound
  Hyp_Model Hyp_Math Hyp_Angle Hyp_Levels Hyp_Build Hyp_Run Hyp_Filter Hyp_Sched Hyp_Threads Hyp_Gen Prop_Hyp Prob_Hrg Prob_HrgLaw HypCost_Calls HypCost_Mean HypWork_Model HypWork_Proofs Prop_HypWork HypDraws_Law.
Import ListNotations.
Local Open Scope R_scope.

(** the largest probability used for a block of cells of level l and layers i, j *)
Definition pfar (T Rd : R) (i j : nat) (l : N) : R := 1 / connectionProbRec T Rd (hyp_distance (rmin Rd i) 0 (rmin Rd j) (wid l)).
Lemma pfar_sym T Rd i j l : pfar T Rd i j l = pfar T Rd j i l.
Proof. unfold pfar. rewrite !hyp_distance_0. unfold hc. do 4 f_equal; ring. Qed.
Definition near1R (l : N) (x y : R) : R := if near1 l x y then 1 else 0.
Lemma near1R_range l x y : 0 <= near1R l x y <= 1. Proof. unfold near1R. destruct (near1 _ _ _); lra. Qed.
(** layers i and j, angles 2 pi x and 2 pi y *)
Definition hpair_bound (T Rd : R) (i j : nat) (x y : R) : R :=
  near1R (base Rd i j) x y + 5 * sumR (map (fun k => near1R (N.of_nat k) x y * pfar T Rd i j (N.of_nat k + 1)) (seq 0 (N.to_nat (base Rd i j)))).
Lemma hpair_bound_sym T Rd i j x y : hpair_bound T Rd i j x y = hpair_bound T Rd j i y x.
Proof. unfold hpair_bound, near1R. rewrite (base_sym Rd i j), near1_sym. f_equal. f_equal. apply sumR_ext. intros k _. now rewrite near1_sym, pfar_sym. Qed.

Section Bound.
  Context {radii angles : list R} {T Rd : R} {omp_max team : nat} (HI : hrg_input radii angles Rd omp_max team).
  Hypotheses (HT : 1 / IZR (2 ^ 52) < T).
  Variables (t : htree) (ord : list nat) (TS : htree_spec radii angles T Rd t ord).
  Notation DI := (use_di HI).
  Notation n := (length radii).
  Notation levels := (h_levels t).
  Notation plan0 := (hplan Rd t (N.to_nat (h_levels t - 1)) 0%N 0%N 0%N).
  Notation lay := (hlay radii Rd).
  Notation cel := (Hyp_Build.cel angles).
  Notation pos u := (phi angles u / 2 / PI)%R.
  Notation V := (hV radii angles Rd ord).
  Notation cpairs := (hcall_pairs radii angles Rd ord).
  Notation draws := (@hcall_draws radii angles Rd t ord).
  Notation bnd u v := (hpair_bound T Rd (lay u) (lay v) (pos u) (pos v)).

  Lemma T_pos : 0 < T.
  Proof. eapply Rlt_trans; [|exact HT]. unfold Rdiv. rewrite Rmult_1_l. apply Rinv_0_lt_compat. apply IZR_lt. lia. Qed.
  Lemma pfar_range i j l : 0 < pfar T Rd i j l <= 1.
  Proof.
    unfold pfar. pose proof (rec_gt_1 T Rd (hyp_distance (rmin Rd i) 0 (rmin Rd j) (wid l))) as G. unfold Rdiv. rewrite Rmult_1_l. split; [apply Rinv_0_lt_compat; lra|]. rewrite <- Rinv_1. apply Rinv_le_contravar; lra.
  Qed.
  (** blocks of the second type: the cells that contain the two cells touch *)
  Lemma hplan_II_parent : forall k A B l X Y m i j, (l + N.of_nat k < levels)%N -> in_lv l A -> in_lv l B -> In (CallII X Y m i j) (hplan Rd t k A B l) ->
    (X = A /\ Y = B /\ m = l /\ htouchb A B l = false) \/ (1 <= m)%N /\ exists A' B', in_lv (m - 1) A' /\ in_lv (m - 1) B' /\ htouchb A' B' (m - 1) = true /\ In X (hkids A') /\ In Y (hkids B').
  Proof.
    assert (F : forall A B l X Y m i j, In (CallII X Y m i j) (gfar (h_layers t) levels (base Rd) A B l) -> X = A /\ Y = B /\ m = l).
    { intros A B l X Y m i j H. unfold gfar in H. apply in_flat_map in H as (l' & _ & H). apply in_map_iff in H as (ij & E & _). injection E. auto. }
    assert (Nr : forall A B l X Y m i j, ~ In (CallII X Y m i j) (gnear (h_layers t) (base Rd) A B l)).
    { intros A B l X Y m i j H. unfold gnear in H. apply in_flat_map in H as (ij & _ & H). destruct (_ || _); [|destruct H]. destruct H as [H|[]]. discriminate. }
    induction k as [|k IH]; intros A B l X Y m i j Hl HA HB; unfold hplan; cbn [gplan]; destruct (htouchb A B l) eqn:TT; cbn [negb]; intros H.
    - apply in_app_or in H as [H|[]]. exfalso. revert H. apply Nr.
    - left. destruct (F _ _ _ _ _ _ _ _ H) as (-> & -> & ->). auto.
    - right. apply in_app_or in H as [H|H]; [exfalso; revert H; apply Nr|]. apply in_flat_map in H as (ab & Hab & H).
      pose proof (w_31 DI TS) as L31.
      destruct (child_lv t L31 A B l ab ltac:(lia) HA HB Hab) as [La Lb]. destruct (hchild_pairs_in l A B ab ltac:(lia) HA HB Hab) as [Ca Cb].
      specialize (IH (fst ab) (snd ab) (l + 1)%N X Y m i j ltac:(lia) La Lb H). destruct IH as [(-> & -> & -> & _)|IH]; [|exact IH].
      split; [lia|]. exists A, B. replace (l + 1 - 1)%N with l by lia. auto.
    - left. destruct (F _ _ _ _ _ _ _ _ H) as (-> & -> & ->). auto.
  Qed.
  Lemma hparents_near A B l i j u v : In (CallII A B l i j) plan0 -> In u (V i A l) -> In v (V j B l) -> (1 <= l)%N /\ near1 (l - 1) (pos u) (pos v) = true.
  Proof.
    intros Hx Hu Hv. pose proof (levels_pos radii angles T Rd t ord TS) as LP.
    pose proof (hplan0_ok radii angles T Rd DI t ord TS _ Hx) as (HA & HB & Hi & Hj & Hl & Ht). destruct (hbase_ok radii angles T Rd DI t ord TS i j Hi Hj) as (_ & _ & B3 & _).
    destruct (hplan_II_parent (N.to_nat (levels - 1)) 0 0 0 A B l i j ltac:(lia) root_lv root_lv Hx) as [(-> & -> & -> & T0)|(L1 & A' & B' & HA' & HB' & TT & CA & CB)].
    - exfalso. unfold htouchb in T0. rewrite htouching_self in T0. discriminate.
    - split; [exact L1|]. apply (hV_In radii angles T Rd t ord TS) in Hu as (Hu & _ & Eu). apply (hV_In radii angles T Rd t ord TS) in Hv as (Hv & _ & Ev).
      pose proof (touch_near radii angles T Rd DI t ord TS (l - 1) u v Hu Hv ltac:(lia)) as TN.
      assert (CH : forall w X A0, (w < n)%nat -> cel l w = X -> in_lv (l - 1) A0 -> In X (hkids A0) -> cel (l - 1) w = A0).
      { intros w X A0 Hw <- HA0 C. unfold Hyp_Build.cel in *. apply (hkids_iff (l - 1) (phi angles w) A0 (phi_ok radii angles Rd DI w Hw) HA0). now replace (l - 1 + 1)%N with l by lia. }
      rewrite (CH u A A' Hu Eu HA' CA), (CH v B B' Hv Ev HB' CB) in TN. unfold htouchb in TT. rewrite TN in TT. exact TT.
  Qed.
  Lemma hblock_pfar A B l i j : hcall_ok Rd t (CallII A B l i j) -> hblock_max t A B l i j <= pfar T Rd i j l.
  Proof.
    intros Hok. pose proof Hok as (HA & HB & Hi & Hj & Hl & Ht).
    destruct (nontouch_ring radii angles T Rd DI t ord TS A B l i j Hok) as (Hr & Hl2 & HAB).
    destruct (hbase_ok radii angles T Rd DI t ord TS i j Hi Hj) as (_ & _ & _ & B4).
    unfold hblock_max, lookup_filters. rewrite B4. rewrite (proj2 (N.leb_le 2 l) (proj1 Hl2)), (proj2 (N.leb_le l _) Hl). cbn [andb].
    rewrite (hs_T _ _ _ _ _ _ TS), (hs_R _ _ _ _ _ _ TS), (typeII_filters_eq T Rd i j l Hl2). rewrite (cellsBetween_eq l A B ltac:(lia) HA HB).
    pose proof (wid_pos l) as W. assert (P4 : (4 <= 2 ^ l)%N) by (apply (pow2_lt 2 l); lia).
    assert (Wq : wid l <= PI / 2).
    { unfold wid, pow2R. apply N2Z.inj_le in P4. apply IZR_le in P4. change (IZR (Z.of_N 4)) with 4 in P4. pose proof PI_RGT_0.
      apply Rmult_le_reg_r with (IZR (Z.of_N (2 ^ l))); [lra|]. replace (2 * PI / IZR (Z.of_N (2 ^ l)) * IZR (Z.of_N (2 ^ l))) with (2 * PI) by (field; lra).
      apply Rle_trans with (PI / 2 * 4); [lra|]. apply Rmult_le_compat_l; lra. }
    pose proof (cell_diff_lt l A B HA HB) as Hd. assert (Rl : (2 * ring l A B <= 2 ^ l)%N) by (unfold ring; lia).
    destruct (N.eqb_spec (ring l A B - 1) 1) as [E|E]; cbn [f_max].
    - assert (R2 : (ring l (hfc l) (hfc l + 2) - 1 = 1)%N) by (unfold ring, cell_diff; lia). rewrite R2. change (IZR (Z.of_N 1)) with 1. rewrite Rmult_1_l. right. reflexivity.
    - assert (P6 : (6 <= 2 ^ l)%N) by lia.
      assert (P8 : (8 <= 2 ^ l)%N).
      { destruct (N.eq_dec l 2) as [->|]; [change (2 ^ 2)%N with 4%N in P6; lia|]. apply (pow2_lt 3 l). lia. }
      assert (R3 : (ring l (hfc l) (hfc l + 3) - 1 = 2)%N) by (unfold ring, cell_diff; lia). rewrite R3. change (IZR (Z.of_N 2)) with 2.
      destruct (base_pos Rd (h_layers t) i j (di_R _ _ _ DI) (hs_disc _ _ _ _ _ _ TS) ltac:(apply (lt_hm radii angles Rd DI); pose proof (hs_layers _ _ _ _ _ _ TS); lia) Hi Hj ltac:(lia)) as [R0 R1].
      unfold pfar, Rdiv. rewrite !Rmult_1_l. apply Rinv_le_contravar; [pose proof (rec_gt_1 T Rd (hyp_distance (rmin Rd i) 0 (rmin Rd j) (wid l))); lra|].
      apply rec_mono; [exact T_pos|]. rewrite !hyp_distance_0. apply acosh_le; [apply hc_ge_1|]. apply hc_angle_le; [exact R0|exact R1|]. pose proof PI_RGT_0. apply cos_decr_1; lra.
  Qed.
  Lemma hpair_bound_parts i j x y : near1R (base Rd i j) x y <= hpair_bound T Rd i j x y /\
    forall k, (k < N.to_nat (base Rd i j))%nat -> 5 * (near1R (N.of_nat k) x y * pfar T Rd i j (N.of_nat k + 1)) <= hpair_bound T Rd i j x y.
  Proof.
    set (f := fun k => near1R (N.of_nat k) x y * pfar T Rd i j (N.of_nat k + 1)).
    assert (Q : forall k, 0 <= f k) by (intros k; apply Rmult_le_pos; [apply near1R_range|left; apply pfar_range]).
    unfold hpair_bound. fold f. split.
    - pose proof (sumR_nonneg f (seq 0 (N.to_nat (base Rd i j))) (fun k _ => Q k)). lra.
    - intros k Hk. pose proof (near1R_range (base Rd i j) x y). pose proof (sumR_one f (seq 0 (N.to_nat (base Rd i j))) k ltac:(apply in_seq; lia) (fun k _ => Q k)) as S1. unfold f at 1 in S1. lra.
  Qed.
  Lemma hblock_max_bound A B l i j u v : In (CallII A B l i j) plan0 -> In u (V i A l) -> In v (V j B l) -> 0 <= hblock_max t A B l i j /\ 5 * hblock_max t A B l i j <= bnd u v.
  Proof.
    intros Hx Hu Hv. destruct (hparents_near A B l i j u v Hx Hu Hv) as [L1 NR]. pose proof (hplan0_ok radii angles T Rd DI t ord TS _ Hx) as Hok.
    pose proof (hblock_pfar A B l i j Hok) as BP. destruct (hblock HI HT t ord TS A B l i j Hok) as (F & f1 & f2 & cb & _ & _ & _ & BM & _ & _ & FM & _). rewrite BM in *. split; [lra|].
    apply (hV_In radii angles T Rd t ord TS) in Hu as (Hu & <- & _). apply (hV_In radii angles T Rd t ord TS) in Hv as (Hv & <- & _). destruct Hok as (_ & _ & _ & _ & Hl & _).
    pose proof (proj2 (hpair_bound_parts (lay u) (lay v) (pos u) (pos v)) (N.to_nat (l - 1)) ltac:(lia)) as PB. replace (N.of_nat (N.to_nat (l - 1))) with (l - 1)%N in PB by lia. unfold near1R in PB. rewrite NR in PB. replace (l - 1 + 1)%N with l in PB by lia. lra.
  Qed.
  Lemma compared_near1 A B l i j u v : In (CallI A B l i j) plan0 -> In (u, v) (cpairs (CallI A B l i j)) -> near1 (base Rd (lay u) (lay v)) (pos u) (pos v) = true.
  Proof.
    intros Hx Huv. pose proof (hplan0_ok radii angles T Rd DI t ord TS _ Hx) as (_ & _ & Hi & Hj & El).
    destruct (hcall_pairs_In radii angles T Rd t ord TS _ u v Huv) as [Hu Hv].
    assert (Q : lay u = i /\ cel l u = A /\ lay v = j /\ cel l v = B).
    { cbn [hcall_pairs] in Huv. destruct (N.eqb_spec A B) as [EE|EE]; cbn [andb] in Huv; [destruct (Nat.eqb_spec i j) as [E'|E']|].
      - apply uptri_In in Huv as [H1 H2]. apply (hV_In radii angles T Rd t ord TS) in H1, H2. rewrite <- EE, <- E'. tauto.
      - apply in_prod_iff in Huv as [H1 H2]. apply (hV_In radii angles T Rd t ord TS) in H1, H2. tauto.
      - apply in_prod_iff in Huv as [H1 H2]. apply (hV_In radii angles T Rd t ord TS) in H1, H2. tauto. }
    destruct Q as (Q1 & Q2 & Q3 & Q4). pose proof (plan_I_touch Rd t _ _ _ _ _ _ _ _ _ Hx) as TT. unfold htouchb in TT. destruct (hbase_ok radii angles T Rd DI t ord TS _ _ Hi Hj) as (_ & _ & B3 & _).
    rewrite <- Q2, <- Q4, (touch_near radii angles T Rd DI t ord TS l u v Hu Hv ltac:(lia)) in TT. rewrite Q1, Q3, <- El. exact TT.
  Qed.
  Lemma hcall_bound x : In x plan0 -> draws x <= (if isI x then 0 else 1) + sumR (map (fun uv => bnd (fst uv) (snd uv)) (cpairs x)).
  Proof.
    intros Hx. destruct x as [A B l i j|A B l i j]; cbn [isI].
    - rewrite Rplus_0_l. change (draws (CallI A B l i j)) with (INR (length (cpairs (CallI A B l i j)))). rewrite <- (Rmult_1_l (INR _)), <- sumR_const. apply sumR_le. intros [u v] Huv. cbn [fst snd].
      eapply Rle_trans; [|apply (proj1 (hpair_bound_parts (lay u) (lay v) (pos u) (pos v)))]. unfold near1R. rewrite (compared_near1 A B l i j u v Hx Huv). lra.
    - cbn [hcall_draws hcall_pairs]. set (va := V i A l). set (vb := V j B l). set (m := INR (length va * length vb)). set (p := hblock_max t A B l i j).
      assert (Hm : 0 <= m) by apply pos_INR.
      assert (S : 5 * p * m <= sumR (map (fun uv => bnd (fst uv) (snd uv)) (list_prod va vb))).
      { unfold m. rewrite <- prod_length, <- sumR_const. apply sumR_le. intros [u v] Huv. cbn [fst snd]. apply in_prod_iff in Huv as [Hu Hv]. apply (hblock_max_bound A B l i j u v Hx Hu Hv). }
      assert (P0 : 0 <= p * m).
      { destruct (list_prod va vb) as [|[u v] L] eqn:E; [apply (f_equal (@length _)) in E; rewrite prod_length in E; unfold m; rewrite E; cbn; lra|].
        apply Rmult_le_pos; [|exact Hm]. assert (I : In (u, v) (list_prod va vb)) by (rewrite E; now left). apply in_prod_iff in I as [Hu Hv]. apply (hblock_max_bound A B l i j u v Hx Hu Hv). }
      clearbody m p. cbn beta zeta. set (sm := sumR _) in *. clearbody sm. replace (2 * p * m) with (2 * (p * m)) by ring. replace (5 * p * m) with (5 * (p * m)) in S by ring.
      destruct (Rltb (1 / 5) p) eqn:P5.
      + apply Rltb_true in P5. assert (0 <= (p - 1 / 5) * m) by (apply Rmult_le_pos; lra). replace ((p - 1 / 5) * m) with (p * m - m / 5) in * by field. lra.
      + destruct (Rltb (m * p) (1 / 1000000)); lra.
  Qed.
  Lemma hcalls_perm : Permutation (map norm (flat_map cpairs plan0)) (all_pairs n).
  Proof.
    apply norm_perm.
    - intros u v I. exact (plan_range HI t ord TS u v I).
    - intros u v Hu Hv Hne. now apply (hplan0_pairs radii angles T Rd DI t ord TS).
  Qed.
  Lemma hdraws_bound : sumR (map draws plan0) <= INR (length plan0) + sumR (map (fun uv => bnd (fst uv) (snd uv)) (all_pairs n)).
  Proof.
    eapply Rle_trans; [apply sumR_le; intros x Hx; exact (hcall_bound x Hx)|]. rewrite sumR_plus. apply Rplus_le_compat.
    - rewrite <- (Rmult_1_l (INR _)), <- sumR_const. apply sumR_le. intros x _. destruct (isI x); lra.
    - right. rewrite <- (sumR_flat (fun uv => bnd (fst uv) (snd uv)) cpairs). pose proof hcalls_perm as PM.
      rewrite <- (sumR_perm _ _ (Permutation_map (fun uv => bnd (fst uv) (snd uv)) PM)), map_map. apply sumR_ext. intros [u v] _. unfold norm. cbn [fst snd]. destruct (u <? v)%nat; cbn [fst snd]; [reflexivity|apply hpair_bound_sym].
  Qed.
  (** every pair of points in touching cells of its comparison level costs a draw *)
  Lemma far_near1 A B l i j u v : In (CallII A B l i j) plan0 -> In (u, v) (cpairs (CallII A B l i j)) -> near1 (base Rd (lay u) (lay v)) (pos u) (pos v) = false.
  Proof.
    intros Hx Huv. pose proof (hplan0_ok radii angles T Rd DI t ord TS _ Hx) as (_ & _ & Hi & Hj & El & TT).
    destruct (hcall_pairs_In radii angles T Rd t ord TS _ u v Huv) as [Hu Hv]. destruct (hbase_ok radii angles T Rd DI t ord TS _ _ Hi Hj) as (_ & _ & B3 & _).
    cbn [hcall_pairs] in Huv. apply in_prod_iff in Huv as [H1 H2]. apply (hV_In radii angles T Rd t ord TS) in H1 as (_ & Q1 & Q2), H2 as (_ & Q3 & Q4).
    rewrite <- Q2, <- Q4, (touch_near radii angles T Rd DI t ord TS l u v Hu Hv ltac:(lia)) in TT. injection TT as TT. rewrite Q1, Q3.
    apply Bool.not_true_is_false. intros N. rewrite (near1_coarser_k l (N.to_nat (base Rd i j - l))) in TT; [discriminate| | |].
    - apply ang_unit, (phi_ok radii angles Rd DI u Hu).
    - apply ang_unit, (phi_ok radii angles Rd DI v Hv).
    - replace (l + N.of_nat (N.to_nat (base Rd i j - l)))%N with (base Rd i j) by lia. exact N.
  Qed.
  Lemma hdraws_least : sumR (map (fun uv => near1R (base Rd (lay (fst uv)) (lay (snd uv))) (pos (fst uv)) (pos (snd uv))) (all_pairs n)) <= sumR (map draws plan0).
  Proof.
    set (nr := fun uv : nat * nat => near1R (base Rd (lay (fst uv)) (lay (snd uv))) (pos (fst uv)) (pos (snd uv))). apply Rle_trans with (sumR (map (fun x => sumR (map nr (cpairs x))) plan0)).
    - right. rewrite <- (sumR_flat nr cpairs). pose proof hcalls_perm as PM.
      rewrite <- (sumR_perm _ _ (Permutation_map nr PM)), map_map. apply sumR_ext. intros [u v] _. unfold norm, nr. cbn [fst snd]. destruct (u <? v)%nat; cbn [fst snd]; [reflexivity|]. unfold near1R. now rewrite near1_sym, base_sym.
    - apply sumR_le. intros x Hx. destruct x as [A B l i j|A B l i j].
      + change (draws (CallI A B l i j)) with (INR (length (cpairs (CallI A B l i j)))). rewrite <- (Rmult_1_l (INR _)), <- sumR_const. apply sumR_le. intros uv _. apply near1R_range.
      + rewrite (sumR_ext nr (fun _ => 0)), sumR_const, Rmult_0_l.
        * cbn [hcall_draws]. set (m := INR _). assert (Hm : 0 <= m) by apply pos_INR. pose proof (hplan0_ok radii angles T Rd DI t ord TS _ Hx) as Hok.
          destruct (hblock HI HT t ord TS A B l i j Hok) as (F & f1 & f2 & cb & _ & _ & _ & BM & _ & _ & FM & _). set (p := hblock_max t A B l i j) in *. assert (0 <= p) by (rewrite BM; lra). clearbody p m. cbn beta zeta.
          destruct (Rltb _ _); [exact Hm|]. destruct (Rltb _ _); [lra|]. assert (0 <= p * m) by (now apply Rmult_le_pos). replace (2 * p * m) with (2 * (p * m)) by ring. lra.
        * intros [u v] Huv. unfold nr, near1R. cbn [fst snd]. now rewrite (far_near1 A B l i j u v Hx Huv).
  Qed.
  (** the number of calls *)
  Lemma hvis_calls_steps v : (length (hvis_calls false t v) <= hvis_steps false t v)%nat.
  Proof.
    destruct v as [[A B] l]. unfold hvis_calls, hvis_steps. destruct (htouching A B l) as [[|]|]; cbn [length]; [| |lia].
    - unfold hnear_calls. generalize (h_layer_pairs t l) as X. induction X as [|ij X IH]; cbn [flat_map length]; [lia|]. rewrite app_length. destruct (_ || _); cbn [length]; lia.
    - unfold hfar_calls. generalize (Nrange l (levels - 1)) as X. induction X as [|k X IH]; cbn [flat_map map length]; [lia|]. rewrite app_length, map_length, list_sum_cons. lia.
  Qed.
  Lemma hplan_length : INR (length plan0) <= 480 * exp (Rd / 2).
  Proof.
    eapply Rle_trans; [|apply (w_steps DI TS false)]. apply le_INR. set (vs := hvplan (N.to_nat (levels - 1)) 0 0 0).
    pose proof (w_31 DI TS) as L31. pose proof (levels_pos radii angles T Rd t ord TS) as LP.
    assert (E : plan0 = flat_map (hvis_calls false t) vs).
    { pose proof (hvisit_eq radii angles T Rd DI t ord TS false (N.to_nat (levels - 1)) (N.to_nat levels) 0 0 0 ltac:(lia) ltac:(lia) ltac:(lia) root_lv root_lv) as E1.
      rewrite hvisits_calls, (hvisits_eq t L31 (N.to_nat (levels - 1)) (N.to_nat levels) 0 0 0) in E1 by (try exact root_lv; lia). cbn [obind andb] in E1. injection E1 as E1. fold vs in E1. rewrite E1.
      symmetry. apply filter_true. intros x _. unfold hkeep. cbn [andb negb]. apply orb_true_r. }
    rewrite E. clear E. induction vs as [|v vs IH]; cbn [flat_map map]; [cbn; lia|]. rewrite app_length, list_sum_cons. pose proof (hvis_calls_steps v). lia.
  Qed.
  Lemma hdraws_total : sumR (map draws plan0) <= 480 * exp (Rd / 2) + sumR (map (fun uv => bnd (fst uv) (snd uv)) (all_pairs n)).
  Proof. pose proof hdraws_bound. pose proof hplan_length. lra. Qed.
End Bound.
