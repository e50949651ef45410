(** The assertions of a debug build of the GIRG generator hold (exact arithmetic): proofs. *)
From Coq Require Import Arith NArith ZArith List Bool Reals Lia Lra Permutation Sorted.
From Flocq Require Import Core.
From Verif Require Import Base Sched Bits_Model Bits_Proofs Coord_Model Coord_Proofs Coord_Geo Coord_Torus Prop_Coord IntSort_Model IntSort_Proofs IntSort_Main
  Prop_IntSort Prefix_Model Prop_Prefix Tree_Model Cover Tree_Proofs Tree_Build Tree_Plan Tree_Run Girg_Model Girg_Proofs Girg_Num Prop_Girg Dbg_Base GirgDbg_Model.
Import ListNotations.
Local Open Scope N_scope.

Lemma dassert_true b : b = true -> dassert b = Some tt. Proof. intros ->. reflexivity. Qed.
Lemma is_sorted_iff l : StronglySorted N.le l -> is_sorted l = true.
Proof.
  induction 1 as [|a l S IH F]; [reflexivity|]. destruct l as [|b l]; [reflexivity|]. change (is_sorted (a :: b :: l)) with ((a <=? b) && is_sorted (b :: l)). rewrite IH, andb_true_r.
  apply N.leb_le. rewrite Forall_forall in F. apply F. now left.
Qed.
Lemma omap_ext_in {A B} (f g : A -> option B) L : (forall x, In x L -> f x = g x) -> omap f L = omap g L.
Proof.
  induction L as [|a L IH]; intros H; cbn [omap]; [reflexivity|]. rewrite (H a (or_introl eq_refl)), IH by (intros; apply H; now right). reflexivity.
Qed.
Lemma filter_len_mono {A} (p q : A -> bool) L : (forall x, In x L -> p x = true -> q x = true) -> (length (filter p L) <= length (filter q L))%nat.
Proof.
  induction L as [|a L IH]; intros H; [apply Nat.le_refl|]. specialize (IH (fun x Hx => H x (or_intror Hx))). specialize (H a (or_introl eq_refl)). cbn [filter].
  destruct (p a); [rewrite H by reflexivity; cbn [length]; lia|]. destruct (q a); cbn [length]; lia.
Qed.
Lemma sorted_of_nth (L : list N) (f : nat -> N) : (forall x, (x < length L)%nat -> nth_error L x = Some (f x)) -> (forall a b, (a <= b)%nat -> (b < length L)%nat -> f a <= f b) -> is_sorted L = true.
Proof.
  revert f. induction L as [|a L IH]; intros f Hn Hm; [reflexivity|]. destruct L as [|b L]; [reflexivity|].
  change (is_sorted (a :: b :: L)) with ((a <=? b) && is_sorted (b :: L)). apply andb_true_intro. split.
  - pose proof (Hn 0%nat ltac:(cbn; lia)) as E0. pose proof (Hn 1%nat ltac:(cbn; lia)) as E1. cbn in E0, E1. injection E0 as ->. injection E1 as ->. apply N.leb_le, Hm; cbn; lia.
  - apply (IH (fun x => f (S x))).
    + intros x Hx. exact (Hn (S x) ltac:(cbn [length] in *; lia)).
    + intros x y H1 H2. apply Hm; cbn [length] in *; lia.
Qed.
Lemma nth_firstn {X} (l : list X) m k : (k < m)%nat -> nth_error (firstn m l) k = nth_error l k.
Proof. revert m k. induction l as [|x l IH]; intros [|m] [|k] H; try lia; try reflexivity. cbn. apply IH. lia. Qed.
Lemma nth_skipn {X} (l : list X) m k : nth_error (skipn m l) k = nth_error l (m + k).
Proof. revert m k. induction l as [|x l IH]; intros [|m] k; try reflexivity; [now destruct k|]. cbn. apply IH. Qed.

Lemma Rpower_b2 z : Rpower 2 (IZR z) = b2 z.
Proof.
  destruct (Z.le_gt_cases 0 z) as [H|H].
  - rewrite <- IZR_Zpower by exact H. rewrite <- (Z2Nat.id z H) at 1 2. rewrite <- INR_IZR_INZ, Rpower_pow by lra. rewrite <- pow_IZR. reflexivity.
  - replace z with (- (- z))%Z by lia. rewrite bpow_opp, opp_IZR, Rpower_Ropp. f_equal.
    rewrite <- IZR_Zpower by lia. rewrite <- (Z2Nat.id (- z)) at 1 2 by lia. rewrite <- INR_IZR_INZ, Rpower_pow by lra. rewrite <- pow_IZR. reflexivity.
Qed.

(** *** numbered lists *)
Lemma map_snd_numbered (L : list node) : map snd (numbered L) = L.
Proof. unfold numbered. generalize 0%nat. induction L as [|a L IH]; intros k; cbn [length seq combine map]; [reflexivity|]. f_equal. apply IH. Qed.
Lemma numbered_In (L : list node) k a : In (k, a) (numbered L) -> nth_error L k = Some a.
Proof.
  unfold numbered. enough (H : forall s, In (k, a) (combine (seq s (length L)) L) -> (s <= k)%nat /\ nth_error L (k - s) = Some a).
  { intros Hk. destruct (H 0%nat Hk) as [_ E]. now rewrite Nat.sub_0_r in E. }
  induction L as [|b L IH]; intros s Hk; [destruct Hk|]. cbn [length seq combine In] in Hk. destruct Hk as [[= <- <-]|Hk].
  - rewrite Nat.sub_diag. split; auto.
  - destruct (IH (S s) Hk) as [L1 E]. split; [lia|]. replace (k - s)%nat with (S (k - S s)) by lia. exact E.
Qed.
Definition forget (x : (nat * node) * (nat * node)) : node * node := (snd (fst x), snd (snd x)).
Lemma forget_pairs same LA LB : (same = true -> LA = LB) -> map forget (pairsI same 0 (numbered LA) (numbered LB)) = pairsI same 0 LA LB.
Proof.
  intros Hs. destruct same.
  - rewrite <- (Hs eq_refl), !pairsI_same. rewrite <- (map_snd_numbered LA) at 2. rewrite uptri_map. reflexivity.
  - rewrite !pairsI_prod. rewrite <- (map_snd_numbered LA) at 2. rewrite <- (map_snd_numbered LB) at 2. rewrite prod_map. reflexivity.
Qed.

Section DebugRun.
  Context {D : N} {ws : list R} {ps : list (list R)} {seed : Z} {omp_max team : nat} (HI : girg_input D ws ps seed omp_max team).
  Variables (cfg : config) (P : tparams) (NO : num_ok ideal_env D ws P) (IP : ideal_params ws P).
  Variables (t : tree) (ord : list nat) (TS : tree_spec ideal_env cfg D ws ps P t ord).
  Notation HD := (gi_dim _ _ _ _ _ _ HI).
  Notation HL := (gi_len _ _ _ _ _ _ HI).
  Notation Hn := (gi_n _ _ _ _ _ _ HI).
  Notation n := (length ws).
  Notation c := (p_c P).
  Notation V := (V ideal_env cfg D ws ps P ord).
  Notation mk := (Tree_Build.mk ideal_env cfg D ws ps P).
  Notation lay := (lay ideal_env ws P).
  Notation cel := (cel cfg D ps).
  Notation levels := (p_levels P).

  Lemma HLE : levels = base_level D c 0 0 + 1.
  Proof. exact (levels_eq _ cfg _ _ ps _ NO t ord TS). Qed.

  (** *** the volume assertions *)
  Lemma level_ok (k : Z) (v : R) : (1 <= k)%Z -> v = (b2 k * (p_w0 P * p_w0 P) / p_W P)%R ->
    level_asserts ideal_env D (Z.to_N (Z.max (Z.quot (c - k) (Z.of_N D)) 0)) v = true.
  Proof.
    intros Hk ->. pose proof (ip_pos _ _ IP) as P0. pose proof (ip_Wpos _ _ IP) as PW. pose proof HD as HD'.
    assert (P00 : (0 < p_w0 P * p_w0 P)%R) by nra.
    set (r := Z.max (Z.quot (c - k) (Z.of_N D)) 0). assert (Hr : (0 <= r)%Z) by (unfold r; lia).
    unfold level_asserts. rewrite Z2N.id by exact Hr. cbn [fpow ideal_env]. rewrite !Rpower_b2.
    assert (Hb : forall z, (b2 z * p_W P < b2 k * (p_w0 P * p_w0 P) -> b2 z < b2 k * (p_w0 P * p_w0 P) / p_W P)%R).
    { intros z H. apply Rmult_lt_reg_r with (p_W P); [exact PW|]. unfold Rdiv. rewrite Rmult_assoc, Rinv_l by lra. lra. }
    assert (Hq : (0 <= c - k -> Z.of_N D * Z.quot (c - k) (Z.of_N D) <= c - k < Z.of_N D * Z.quot (c - k) (Z.of_N D) + Z.of_N D)%Z).
    { intros H0. rewrite Z.quot_div_nonneg by lia. pose proof (Z.div_mod (c - k) (Z.of_N D) ltac:(lia)). pose proof (Z.mod_pos_bound (c - k) (Z.of_N D) ltac:(lia)). lia. }
    assert (Hq0 : (0 <= c - k -> 0 <= Z.quot (c - k) (Z.of_N D))%Z) by (intros; apply Z.quot_pos; lia).
    assert (Hq1 : (c - k < 0 -> Z.quot (c - k) (Z.of_N D) <= 0)%Z).
    { intros. rewrite <- (Z.opp_involutive (c - k)), Z.quot_opp_l by lia. pose proof (Z.quot_pos (- (c - k)) (Z.of_N D) ltac:(lia) ltac:(lia)). lia. }
    apply andb_true_intro. split.
    - apply orb_true_iff. destruct (Z.le_gt_cases 0 (c - k)) as [C|C].
      + left. apply Rleb_true. specialize (Hq C). specialize (Hq0 C). assert (Er : r = Z.quot (c - k) (Z.of_N D)) by (unfold r; lia). rewrite Er.
        pose proof (ip_c _ _ IP ltac:(lia)) as HW. apply Rle_trans with (b2 (k - c)); [|apply bpow_le; lia].
        apply Rmult_le_reg_r with (p_W P); [exact PW|]. unfold Rdiv. rewrite Rmult_assoc, Rinv_l, Rmult_1_r by lra.
        replace k with ((k - c) + c)%Z at 1 by lia. rewrite bpow_plus, Rmult_assoc. apply Rmult_le_compat_l; [apply bpow_ge_0|exact HW].
      + specialize (Hq1 C). assert (Er : r = 0%Z) by (unfold r; lia). rewrite Er. change (b2 (- (0 * Z.of_N D))) with 1%R.
        destruct (Rle_lt_dec (b2 k * (p_w0 P * p_w0 P) / p_W P) 1) as [L|L]; [left|right]; apply Rleb_true; lra.
    - apply Rltb_true, Hb. pose proof (ip_cu _ _ IP) as HU.
      apply Rlt_le_trans with (b2 (- ((r + 1) * Z.of_N D)) * (b2 (Z.max c 0 + 1) * (p_w0 P * p_w0 P)))%R.
      + apply Rmult_lt_compat_l; [apply bpow_gt_0|exact HU].
      + rewrite <- Rmult_assoc, <- bpow_plus. apply Rmult_le_compat_r; [lra|]. apply bpow_le.
        destruct (Z.le_gt_cases 0 (c - k)) as [C|C].
        * specialize (Hq C). specialize (Hq0 C). assert (Er : r = Z.quot (c - k) (Z.of_N D)) by (unfold r; lia). rewrite Er. lia.
        * specialize (Hq1 C). assert (Er : r = 0%Z) by (unfold r; lia). rewrite Er. lia.
  Qed.
  Lemma dbase_eq i j : (i < p_layers P)%nat -> (j < p_layers P)%nat -> dbase_level ideal_env D P i j = Some (base_level D c i j).
  Proof.
    intros Hi Hj. unfold dbase_level. cbv zeta. rewrite dassert_true; [reflexivity|].
    rewrite (proj2 (Nat.ltb_lt _ _) Hi), (proj2 (Nat.ltb_lt _ _) Hj). cbn [andb]. unfold base_level.
    replace (c - Z.of_nat i - Z.of_nat j - 2)%Z with (c - (Z.of_nat i + 1 + (Z.of_nat j + 1)))%Z by lia. apply level_ok; [lia|].
    cbn [rnd fpow ideal_env]. rewrite !Rpower_b2, (bpow_plus radix2 (Z.of_nat i + 1) (Z.of_nat j + 1)). unfold Rdiv. ring.
  Qed.
  Lemma target_le_levels i : target_level D c i <= levels.
  Proof.
    rewrite HLE. unfold target_level, base_level. pose proof HD as HD'.
    set (d := Z.of_N D). assert (Hd : (1 <= d <= 5)%Z) by (unfold d; lia).
    assert (Q : (Z.max (Z.quot (c - Z.of_nat i - 1) d) 0 <= Z.max (Z.quot (c - Z.of_nat 0 - Z.of_nat 0 - 2) d) 0 + 1)%Z); [|lia].
    transitivity (Z.max (Z.quot (c - 2 + 1 * d) d) 0); [apply quot_mono; lia|].
    destruct (Z.le_gt_cases 0 (c - 2)) as [C|C].
    - replace (c - Z.of_nat 0 - Z.of_nat 0 - 2)%Z with (c - 2)%Z by lia. rewrite Z.quot_add by nia. pose proof (Z.quot_pos (c - 2) d C ltac:(lia)). lia.
    - assert (Z.quot (c - 2 + 1 * d) d <= 1)%Z; [|lia]. destruct (Z.le_gt_cases 0 (c - 2 + 1 * d)) as [C2|C2].
      + rewrite Z.quot_div_nonneg by lia. apply Z.lt_succ_r. apply Z.div_lt_upper_bound; lia.
      + transitivity 0%Z; [|lia]. rewrite <- (Z.opp_involutive (c - 2 + 1 * d)), Z.quot_opp_l by lia. pose proof (Z.quot_pos (- (c - 2 + 1 * d)) d ltac:(lia) ltac:(lia)). lia.
  Qed.
  Lemma dtarget_eq i : (i < p_layers P)%nat -> dtarget_level ideal_env D P i = Some (target_level D c i).
  Proof.
    intros Hi. unfold dtarget_level. cbv zeta. rewrite dassert_true; [reflexivity|].
    rewrite (proj2 (Nat.ltb_lt _ _) Hi), (proj2 (N.leb_le _ _) (target_le_levels i)). cbn [andb]. unfold target_level.
    replace (c - Z.of_nat i - 1)%Z with (c - (Z.of_nat i + 1))%Z by lia. apply level_ok; [lia|].
    cbn [rnd fpow ideal_env]. rewrite !Rpower_b2. unfold Rdiv. ring.
  Qed.

  (** *** the cell of a point *)
  Lemma deposit_ok l p : D * l <= 30 -> valid_pos ideal_env D p -> deposit_asserts cfg D (coordsR l p) = true.
  Proof.
    intros Hl Vp. unfold deposit_asserts. destruct (use_bmi2 cfg); [reflexivity|]. pose proof HD as HD'.
    assert (B : forall x, In x (coordsR l p) -> x < 2 ^ l).
    { intros x Hx. unfold coordsR in Hx. apply in_map_iff in Hx as (y & <- & Hy). apply coordR_lt. now apply (valid_in _ _ _ _ Vp). }
    assert (B' : forall i, nth i (coordsR l p) 0 < 2 ^ l).
    { intros i. destruct (Nat.lt_ge_cases i (length (coordsR l p))) as [L|L]; [apply B, nth_In; exact L|]. rewrite nth_overflow by exact L. apply pow2_pos. }
    assert (C : D = 1 \/ D = 2 \/ D = 3 \/ D = 4 \/ D = 5) by lia.
    destruct C as [->|[->|[->|[->| ->]]]]; try reflexivity.
    - assert (2 ^ l <= 2 ^ 15) by (apply N.pow_le_mono_r; lia). change (2 ^ 15) with 32768 in *. apply forallb_forall. intros x Hx. apply N.leb_le. specialize (B x Hx). lia.
    - assert (2 ^ l <= 2 ^ 10) by (apply N.pow_le_mono_r; lia). change (2 ^ 10) with 1024 in *.
      pose proof (B' 0%nat). pose proof (B' 1%nat). pose proof (B' 2%nat). rewrite !andb_true_iff, !N.leb_le. repeat split; lia.
    - assert (2 ^ l <= 2 ^ 7) by (apply N.pow_le_mono_r; lia). change (2 ^ 7) with 128 in *. apply forallb_forall. intros x Hx. apply N.leb_le. specialize (B x Hx). lia.
  Qed.
  Lemma dcell_eq l p : D * l <= 30 -> l < 31 -> valid_pos ideal_env D p -> dcellForPoint ideal_env cfg D p l = Some (cellR cfg D l p).
  Proof.
    intros Hl Hl' Vp. pose proof (cellForPoint_eq ideal_env cfg D p l ideal_good Vp Hl') as E. unfold cellForPoint in E. unfold dcellForPoint.
    rewrite shl1_i32_Some in * by exact Hl'. cbn [obind] in *.
    destruct (omap (fun x : R => double_to_u32 (rnd ideal_env (x * IZR (Z.of_N (2 ^ l))))) p) as [cs|] eqn:Ec; [|discriminate]. cbn [obind] in *.
    assert (O : cs = coordsR l p).
    { clear E. revert cs Ec. destruct Vp as [_ Vp]. induction Vp as [|x p [Hx Rx] _ IH]; intros cs Ec; cbn [omap] in Ec; [injection Ec as <-; reflexivity|].
      destruct (double_to_u32 _) as [y|] eqn:Ey; [|discriminate]. cbn [obind] in Ec. destruct (omap _ p) as [ys|]; [|discriminate]. cbn [obind] in Ec. injection Ec as <-.
      rewrite (IH ys eq_refl). cbn [coordsR map]. f_equal. cbn [rnd ideal_env] in Ey. unfold double_to_u32, coordR in *. fold (pow2R l) in Ey.
      rewrite Ztrunc_floor in Ey by (pose proof (pow2R_pos l); nra). destruct (_ && _); [|discriminate]. injection Ey as <-. reflexivity. }
    subst cs. rewrite (dassert_true _ (deposit_ok l p Hl Vp)). reflexivity.
  Qed.
  Lemma vpos u : (u < n)%nat -> valid_pos ideal_env D (pos ps u).
  Proof. apply (pos_valid _ _ _ _ HL (use_vp HI) Hn). Qed.
  Lemma lay_w u : (u < n)%nat -> layer_index ideal_env (p_w0 P) (wt ws u) = Some (lay u) /\ (lay u < p_layers P)%nat.
  Proof. apply (lay_spec _ _ _ _ NO). Qed.

  (** *** the assertions of the constructor *)
  Lemma ord_In' u : In u ord <-> (u < n)%nat.
  Proof. exact (ord_In _ _ _ _ _ _ HL Hn t ord TS u). Qed.
  Lemma ord_length : length ord = n.
  Proof. rewrite (Permutation_length (ts_perm _ _ _ _ _ _ _ _ TS)). apply seq_length. Qed.
  Lemma M_len : (length (tfirst t) - 1)%nat = N.to_nat (M D P).
  Proof. destruct (ts_index _ _ _ _ _ _ _ _ TS) as [H _]. lia. Qed.
  Lemma nodes_sorted : StronglySorted (fun a b => cell_id a <= cell_id b) (tnodes t).
  Proof. rewrite (ts_nodes _ _ _ _ _ _ _ _ TS). apply (ts_stable _ _ _ _ _ _ _ _ TS). Qed.
  Lemma nodes_spec v : In v (tnodes t) -> exists u, (u < n)%nat /\ v = mk u /\ cell_id v < M D P.
  Proof.
    rewrite (ts_nodes _ _ _ _ _ _ _ _ TS). intros H. apply in_map_iff in H as (u & <- & Hu). apply ord_In' in Hu. exists u. split; [exact Hu|]. split; [reflexivity|].
    apply (mk_lt ideal_env cfg D ws ps P); auto using ideal_good, (use_vp HI); try apply HI.
  Qed.
  Lemma input_ok : input_asserts D ws ps = true.
  Proof.
    unfold input_asserts. rewrite HL, Nat.eqb_refl. cbn [andb]. pose proof (n_pos _ _ _ ps _ NO HL Hn) as H1. rewrite HL in H1.
    destruct (Nat.eqb_spec (length ps) 0); [lia|]. cbn [negb andb]. apply forallb_forall. intros p Hp. pose proof (gi_pos _ _ _ _ _ _ HI) as F.
    rewrite Forall_forall in F. apply Nat.eqb_eq. apply F. exact Hp.
  Qed.
  Lemma layers_pos : (1 <= p_layers P)%nat.
  Proof. pose proof (n_pos _ _ _ ps _ NO HL Hn) as H. destruct (lay_w 0 ltac:(lia)). lia. Qed.
  Lemma layers_ok : layer_asserts ideal_env D P = true.
  Proof.
    unfold layer_asserts. pose proof layers_pos as L1. rewrite (dbase_eq 0 0) by lia. cbn [isS andb]. apply andb_true_intro. split; apply forallb_forall.
    - intros [i j] Hij. apply in_prod_iff in Hij as [Hi%in_seq Hj%in_seq]. cbn [fst snd]. rewrite dbase_eq by lia. reflexivity.
    - intros l Hl%in_seq. rewrite dtarget_eq by lia. reflexivity.
  Qed.
  Lemma tlb' i : D * target_level D c i <= 29 /\ target_level D c i < 30.
  Proof. split; [apply (tlb ideal_env D ws ps P HD NO HL Hn)|apply (tl_lt ideal_env D ws ps P HD NO HL Hn)]. Qed.
  Lemma node_ok v : In v (tnodes t) -> node_asserts ideal_env cfg D P (N.of_nat (length (tfirst t) - 1)) v = true.
  Proof.
    intros Hv. apply nodes_spec in Hv as (u & Hu & -> & Hc). unfold node_asserts. cbn [weight coord Tree_Build.mk].
    destruct (lay_w u Hu) as [-> L]. cbn [obind]. rewrite dtarget_eq by exact L. cbn [obind].
    destruct (tlb' (lay u)) as [T1 T2]. rewrite dcell_eq by (try apply vpos; auto; lia). rewrite M_len, N2Nat.id. now apply N.ltb_lt.
  Qed.
  Lemma idx_at x : (x <= N.to_nat (M D P))%nat -> nth_error (tfirst t) x = Some (N.of_nat (length (filter (fun p => cell_id p <? N.of_nat x) (tnodes t)))).
  Proof.
    intros Hx. destruct (ts_index _ _ _ _ _ _ _ _ TS) as [_ H]. rewrite (H x Hx). f_equal. f_equal. rewrite filter_length_map. f_equal. apply filter_ext. intros p.
    destruct (Nat.ltb_spec (N.to_nat (cell_id p)) x), (N.ltb_spec (cell_id p) (N.of_nat x)); auto; lia.
  Qed.
  Lemma index_ok : index_asserts t = true.
  Proof.
    unfold index_asserts. cbv zeta. rewrite M_len.
    assert (Hnn : length (tnodes t) = n) by (rewrite (ts_nodes _ _ _ _ _ _ _ _ TS), map_length; exact ord_length).
    pose proof (n_pos _ _ _ ps _ NO HL Hn) as Hn1. destruct (ts_index _ _ _ _ _ _ _ _ TS) as [HLen _].
    rewrite !andb_true_iff. repeat match goal with |- _ /\ _ => split end.
    - apply ilog2_asserts_hold.
    - apply is_sorted_iff. pose proof nodes_sorted as S. clear -S. induction S as [|a L S IH F]; [constructor|]. cbn [map]. constructor; [exact IH|].
      rewrite Forall_forall in *. intros x Hx. apply in_map_iff in Hx as (p & <- & Hp). now apply F.
    - destruct (nth_error (tnodes t) (length (tnodes t) - 1)) as [p|] eqn:E; [|apply nth_error_None in E; lia].
      apply nth_error_In, nodes_spec in E as (u & _ & _ & H). apply N.ltb_lt. lia.
    - rewrite idx_at by lia. change (N.of_nat 0) with 0. rewrite filter_none; [reflexivity|]. intros p _. apply N.ltb_ge. lia.
    - rewrite idx_at by lia. rewrite filter_true; [apply N.eqb_refl|]. intros p Hp. apply nodes_spec in Hp as (u & _ & _ & H). apply N.ltb_lt. lia.
    - apply (sorted_of_nth _ (fun x => N.of_nat (length (filter (fun p => cell_id p <? N.of_nat x) (tnodes t))))).
      + intros x Hx. apply idx_at. lia.
      + intros a b H _. assert (L : Nat.le (length (filter (fun p => cell_id p <? N.of_nat a) (tnodes t))) (length (filter (fun p => cell_id p <? N.of_nat b) (tnodes t)))).
        { apply filter_len_mono. intros p _ Hp. apply N.ltb_lt in Hp. apply N.ltb_lt. lia. } lia.
    - apply forallb_forall. intros cid Hc. apply in_seq in Hc. rewrite !idx_at by lia. rewrite !Nat2N.id. rewrite (slice_sorted cell_id _ _ _ nodes_sorted) by lia.
      apply forallb_forall. intros p Hp. apply filter_In in Hp as [_ Hp]. apply andb_prop in Hp as [H1%N.leb_le H2%N.ltb_lt]. apply N.eqb_eq. lia.
  Qed.
  Lemma build_asserts : dassert (input_asserts D ws ps) = Some tt /\
    dassert (layer_asserts ideal_env D (tP t) && forallb (node_asserts ideal_env cfg D (tP t) (N.of_nat (length (tfirst t) - 1))) (tnodes t) && index_asserts t) = Some tt.
  Proof.
    split; apply dassert_true; [exact input_ok|]. rewrite (ts_P _ _ _ _ _ _ _ _ TS), layers_ok, index_ok, andb_true_r. cbn [andb].
    apply forallb_forall. exact node_ok.
  Qed.

  (** *** cell queries.  In four dimensions the assertion of levelledCell evaluates 1u << 32 on level 7. *)
  Hypothesis (H4 : D = 4 -> (p_W P < b2 30 * (p_w0 P * p_w0 P))%R).
  Lemma next_level l : l < levels -> D * (l + 1) < 32 /\ D * l <= 28 /\ l <= 28.
  Proof.
    intros Hl. pose proof HD as HD'. destruct (level_bound D P HD (no_c _ _ _ _ NO) HLE l Hl) as [B1 B2]. split; [|split; assumption].
    assert (C : D = 1 \/ D = 2 \/ D = 3 \/ D = 4 \/ D = 5) by lia.
    destruct C as [E|[E|[E|[E|E]]]]; rewrite E in B1 |- *; try lia.
    destruct (N.eq_dec l 7) as [->|Ne]; [|lia]. exfalso. specialize (H4 E).
    assert (B : (Z.of_N (D * 7) + 2 <= c)%Z).
    { rewrite HLE in Hl. pose proof (base_pos D c HD 0 0 7 ltac:(lia) ltac:(lia)). lia. }
    rewrite E in B. assert (HC : c = 30%Z) by (pose proof (no_c _ _ _ _ NO); lia).
    pose proof (ip_c _ _ IP ltac:(lia)) as HW. rewrite HC in HW. lra.
  Qed.
  Lemma base_levels' i j l : l <= base_level D c i j -> l < levels.
  Proof. intros H. rewrite HLE. pose proof (base_le_00 D c HD i j). lia. Qed.
  Lemma dlevelled_eq i A l : l < levels -> l <= tl D c i -> in_level D l A -> exists be, dlevelledCell D (target_level D c i) A l = Some be.
  Proof.
    intros Hlv Hl HA. destruct (next_level l Hlv) as (N1 & N2 & N3). unfold dlevelledCell, levelledCell. fold (tl D c i).
    rewrite (proj2 (N.ltb_ge _ _) Hl), (dassert_true _ (proj2 (N.leb_le _ _) Hl)).
    destruct (tlb' i) as [T1 T2]. fold (tl D c i) in T1, T2.
    assert (T3 : D * (tl D c i - l) < 32). { eapply N.le_lt_trans; [apply N.mul_le_mono_l, N.le_sub_l|]. lia. }
    rewrite numCellsInLevel_Some by exact T3. cbn [obind]. rewrite !firstCellOfLevel_Some by lia. cbn [obind]. pose proof HA as [H1 H2].
    rewrite (proj2 (N.leb_le _ _) H1), (proj2 (N.ltb_lt _ _) H2). cbn [andb dassert obind]. rewrite (proj2 (N.ltb_ge _ _) H1).
    set (desc := 2 ^ (D * (tl D c i - l))). set (loc := A - fc D l).
    assert (Hd : 0 < desc) by apply pow2_pos.
    assert (Hloc : loc < 2 ^ (D * l)) by (unfold loc; rewrite fc_succ in H2 by exact HD; lia).
    assert (Htot : 2 ^ (D * tl D c i) = 2 ^ (D * l) * desc).
    { unfold desc. rewrite <- N.pow_add_r. f_equal. rewrite <- N.mul_add_distr_l. f_equal. lia. }
    assert (Hup : loc * desc + desc <= 2 ^ (D * tl D c i)) by (rewrite Htot; nia).
    assert (Pw : 2 ^ (D * tl D c i) <= 2 ^ 29) by (apply N.pow_le_mono_r; lia). change (2 ^ 29) with 536870912 in Pw.
    rewrite !w32_small by (change (2 ^ 32) with 4294967296; lia || (rewrite w32_small by (change (2 ^ 32) with 4294967296; lia); lia)).
    cbn [obind]. rewrite (dassert_true _ (proj2 (N.leb_le (loc * desc) (loc * desc + desc - 1)) ltac:(lia))). cbn [obind]. eauto.
  Qed.
  Lemma iter_le i A l : (i < p_layers P)%nat -> l <= tl D c i -> in_level D l A ->
    exists b e, cellIterators D t i A l = Some (b, e) /\ (b <= e)%nat /\ slice (tnodes t) b e = Some (map mk (V i A l)) /\ length (V i A l) = (e - b)%nat.
  Proof.
    intros Hi Hl HA. destruct (ts_iter _ _ _ _ _ _ _ _ TS i A l Hi Hl HA) as (b & e & E1 & E2). exists b, e. split; [exact E1|].
    pose proof E2 as E3. unfold slice in E3. destruct ((b <=? e)%nat && (e <=? length (tnodes t))%nat) eqn:Eb; [|discriminate].
    apply andb_prop in Eb as [L1%Nat.leb_le L2%Nat.leb_le]. split; [exact L1|]. split; [exact E2|].
    injection E3 as E3. apply (f_equal (@length _)) in E3. rewrite map_length, firstn_length, skipn_length in E3. fold (V i A l) in E3. lia.
  Qed.
  Lemma dnodes_in_eq i A l : (i < p_layers P)%nat -> l < levels -> l <= tl D c i -> in_level D l A -> dnodes_in D t i A l = Some (map mk (V i A l)).
  Proof.
    intros Hi Hlv Hl HA. unfold dnodes_in, dcellIterators. rewrite (ts_P _ _ _ _ _ _ _ _ TS).
    destruct (dlevelled_eq i A l Hlv Hl HA) as ([x y] & ->). cbn [obind].
    destruct (iter_le i A l Hi Hl HA) as (b & e & -> & L & E & _). cbn [obind].
    rewrite (dassert_true _ (proj2 (Nat.leb_le _ _) L)). cbn [obind]. exact E.
  Qed.
  Lemma dkthPoint_eq i A l k u : (i < p_layers P)%nat -> l < levels -> l <= tl D c i -> in_level D l A -> nth_error (V i A l) k = Some u -> dkthPoint D t i A l k = Some (mk u).
  Proof.
    intros Hi Hlv Hl HA Hk. unfold dkthPoint. rewrite (ts_P _ _ _ _ _ _ _ _ TS).
    destruct (dlevelled_eq i A l Hlv Hl HA) as ([x y] & ->). cbn [obind]. unfold kthPoint.
    destruct (iter_le i A l Hi Hl HA) as (b & e & -> & L & E & E'). cbn [obind].
    unfold slice in E. destruct ((b <=? e)%nat && (e <=? length (tnodes t))%nat) eqn:Eb; [|discriminate]. injection E as E.
    assert (Hlt : (k < e - b)%nat) by (rewrite <- E'; apply nth_error_Some; congruence).
    assert (Q : nth_error (map mk (V i A l)) k = Some (mk u)) by now apply map_nth_error.
    rewrite <- E in Q. rewrite <- Q. symmetry. rewrite nth_firstn by lia. apply nth_skipn.
  Qed.
  Lemma VIn u i A l : In u (V i A l) <-> (u < n)%nat /\ lay u = i /\ cel l u = A.
  Proof. exact (V_In _ _ _ _ _ _ HL Hn _ _ TS u i A l). Qed.

  (** *** the place of a node *)
  Lemma dlayer_ok i A l u : In u (V i A l) -> dlayer_is ideal_env P i (mk u) = Some tt.
  Proof.
    intros Hu. apply VIn in Hu as (Hun & Hlu & _). destruct (lay_w u Hun) as [E _]. rewrite Hlu in E. unfold dlayer_is. cbn [weight Tree_Build.mk].
    unfold layer_index, weight_to_layer, double_to_int in E. unfold double_to_u32. set (z := Ztrunc _) in *. clearbody z.
    destruct ((- 2 ^ 31 <=? z) && (z <? 2 ^ 31))%Z eqn:Eb; [|discriminate]. cbn [obind] in E. apply andb_prop in Eb as [_ Eb%Z.ltb_lt].
    destruct (Z.ltb_spec z 0) as [|Hz]; [discriminate|]. injection E as E. change (2 ^ 31)%Z with 2147483648%Z in Eb.
    rewrite (proj2 (Z.leb_le 0 z) Hz), (proj2 (Z.ltb_lt z (2 ^ 32))) by (change (2 ^ 32)%Z with 4294967296%Z; lia). cbn [andb obind].
    apply dassert_true, N.eqb_eq. lia.
  Qed.
  Lemma dcell_ok i A l u : l < levels -> In u (V i A l) -> dcell_is ideal_env cfg D A l (mk u) = Some tt.
  Proof.
    intros Hlv Hu. apply VIn in Hu as (Hun & _ & Hcu). destruct (next_level l Hlv) as (N1 & N2 & N3). unfold dcell_is. cbn [coord Tree_Build.mk].
    rewrite firstCellOfLevel_Some by lia. cbn [obind]. rewrite dcell_eq by (try apply vpos; auto; lia). cbn [obind]. apply dassert_true, N.eqb_eq.
    unfold Tree_Build.cel, cell_of in Hcu. rewrite <- Hcu. pose proof (cellR_bound cfg ideal_env D l (pos ps u) HD (vpos u Hun) ltac:(lia)) as B.
    assert (Pw : 2 ^ (D * l) <= 2 ^ 28) by (apply N.pow_le_mono_r; lia). change (2 ^ 28) with 268435456 in Pw.
    replace (fc D l + cellR cfg D l (pos ps u) + 2 ^ 32 - fc D l) with (cellR cfg D l (pos ps u) + 1 * 2 ^ 32) by lia.
    unfold w32. rewrite N.land_ones, N.mod_add by discriminate. apply N.mod_small. change (2 ^ 32) with 4294967296. lia.
  Qed.

  (** *** sampleTypeI *)
  Variables (alpha : alphaT) (rg : rng) (GG : good_rng rg).
  Definition goodI (A B l : N) (i j : nat) (x : (nat * node) * (nat * node)) : Prop :=
    exists u v, snd (fst x) = mk u /\ snd (snd x) = mk v /\ nth_error (V i A l) (fst (fst x)) = Some u /\ nth_error (V j B l) (fst (snd x)) = Some v /\ u <> v.
  Lemma ddecideI_eq A B l i j : in_level D l A -> in_level D l B -> (i < p_layers P)%nat -> (j < p_layers P)%nat -> l <= base_level D c i j ->
    forall xs g, Forall (goodI A B l i j) xs -> ddecideI ideal_env cfg D t alpha rg A B l i j xs g = Some (decideI ideal_env D (p_W P) alpha rg (map forget xs) g).
  Proof.
    intros HA HB Hi Hj Hl. pose proof (base_levels' i j l Hl) as Hlv.
    assert (B1 : l <= tl D c i) by (etransitivity; [exact Hl|apply base_le_target, HD]).
    assert (B2 : l <= tl D c j) by (etransitivity; [exact Hl|rewrite base_sym; apply base_le_target, HD]).
    induction xs as [|[[ka a] [kb b]] xs IH]; intros g HF; [reflexivity|]. inversion HF as [|x L G1 G2]; subst.
    cbn [ddecideI map decideI forget fst snd]. destruct G1 as (u & v & Eu & Ev & Ku & Kv & Huv). cbn [fst snd] in *. subst a b.
    pose proof (nth_error_In _ _ Ku) as Iu. pose proof (nth_error_In _ _ Kv) as Iv.
    assert (Q : dpairI ideal_env cfg D t A B l i j ka (mk u) kb (mk v) = Some tt).
    { unfold dpairI. rewrite (dkthPoint_eq i A l ka u Hi Hlv B1 HA Ku). cbn [obind]. rewrite Nat.eqb_refl. cbn [dassert obind].
      rewrite (dkthPoint_eq j B l kb v Hj Hlv B2 HB Kv). cbn [obind]. rewrite Nat.eqb_refl. cbn [dassert obind].
      rewrite (dcell_ok i A l u Hlv Iu), (dcell_ok j B l v Hlv Iv). cbn [obind]. rewrite (ts_P _ _ _ _ _ _ _ _ TS).
      rewrite (dlayer_ok i A l u Iu), (dlayer_ok j B l v Iv). cbn [obind].
      apply dassert_true. cbn [index Tree_Build.mk]. destruct (Nat.eqb_spec u v); [contradiction|reflexivity]. }
    rewrite Q. cbn [obind]. rewrite (ts_P _ _ _ _ _ _ _ _ TS).
    match goal with |- (let '(_, _) := ?X in _) = _ => destruct X as [hit g1] end. rewrite IH by exact G2. cbn [obind].
    destruct (decideI ideal_env D (p_W P) alpha rg (map forget xs) g1) as [es g2]. reflexivity.
  Qed.
  Lemma dsampleTypeI_eq A B l i j g : in_level D l A -> in_level D l B -> (i < p_layers P)%nat -> (j < p_layers P)%nat -> l <= base_level D c i j ->
    base_level D c i j = l \/ touching cfg D A B l = Some false ->
    dsampleTypeI ideal_env cfg D t alpha rg A B l i j g = sampleTypeI ideal_env D t alpha rg A B l i j g.
  Proof.
    intros HA HB Hi Hj Hl Ht. pose proof (base_levels' i j l Hl) as Hlv.
    assert (B1 : l <= tl D c i) by (etransitivity; [exact Hl|apply base_le_target, HD]).
    assert (B2 : l <= tl D c j) by (etransitivity; [exact Hl|rewrite base_sym; apply base_le_target, HD]).
    unfold dsampleTypeI, sampleTypeI. rewrite (ts_P _ _ _ _ _ _ _ _ TS). rewrite (dbase_eq i j Hi Hj). cbn [obind].
    assert (At : exists b, touching cfg D A B l = Some b /\ (base_level D c i j =? l) || negb b = true).
    { pose proof (touching_Some cfg D P HD (no_c _ _ _ _ NO) HLE A B l Hlv HA HB) as Et. rewrite Et. eexists. split; [reflexivity|].
      destruct Ht as [-> | Ht]; [now rewrite N.eqb_refl|]. rewrite Ht in Et. injection Et as <-. apply orb_true_r. }
    destruct At as (b & -> & Eb). cbn [obind]. rewrite (dassert_true _ Eb). cbn [obind].
    rewrite (dnodes_in_eq i A l Hi Hlv B1 HA), (dnodes_in_eq j B l Hj Hlv B2 HB).
    rewrite (nodes_in_eq _ _ _ _ _ _ t ord TS i A l Hi B1 HA), (nodes_in_eq _ _ _ _ _ _ t ord TS j B l Hj B2 HB). cbn [obind].
    set (same := (A =? B) && (i =? j)%nat).
    assert (Hs : same = true -> map mk (V i A l) = map mk (V j B l)).
    { unfold same. intros H. apply andb_prop in H as [H1%N.eqb_eq H2%Nat.eqb_eq]. now subst. }
    assert (HF : Forall (goodI A B l i j) (pairsI same 0 (numbered (map mk (V i A l))) (numbered (map mk (V j B l))))).
    { apply Forall_forall. intros [[ka a] [kb b0]] Hx.
      assert (HIn : In (ka, a) (numbered (map mk (V i A l))) /\ In (kb, b0) (numbered (map mk (V j B l)))).
      { destruct same; [rewrite <- (Hs eq_refl) in Hx |- *; rewrite pairsI_same in Hx; now apply uptri_In in Hx|rewrite pairsI_prod in Hx; now apply in_prod_iff in Hx]. }
      destruct HIn as [I1%numbered_In I2%numbered_In]. rewrite nth_error_map in I1, I2.
      destruct (nth_error (V i A l) ka) as [u|] eqn:Eu; [|discriminate]. destruct (nth_error (V j B l) kb) as [v|] eqn:Ev; [|discriminate].
      cbn [option_map] in I1, I2. injection I1 as <-. injection I2 as <-. exists u, v. cbn [fst snd]. repeat split; try assumption.
      intros <-. apply nth_error_In in Eu, Ev. apply VIn in Eu as (_ & L1 & C1), Ev as (_ & L2 & C2).
      assert (Es : same = true) by (unfold same; rewrite <- C1, <- C2, <- L1, <- L2, N.eqb_refl, Nat.eqb_refl; reflexivity).
      rewrite Es in Hx. rewrite <- (Hs Es), pairsI_same in Hx.
      apply (in_map (fun ab => (index (snd (fst ab)), index (snd (snd ab))))) in Hx. cbn [fst snd index Tree_Build.mk] in Hx.
      change (fun ab : nat * node * (nat * node) => (index (snd (fst ab)), index (snd (snd ab)))) with
        (fun ab : nat * node * (nat * node) => ((fun x => index (snd x)) (fst ab), (fun x => index (snd x)) (snd ab))) in Hx.
      rewrite <- uptri_map in Hx. rewrite <- (map_map snd index), map_snd_numbered, map_map in Hx. cbn [index Tree_Build.mk] in Hx. rewrite map_id in Hx.
      revert Hx. apply uptri_irrefl. eapply V_NoDup. exact TS. }
    pose proof (ddecideI_eq A B l i j HA HB Hi Hj Hl _ g HF) as E. rewrite forget_pairs in E by exact Hs.
    destruct (map mk (V i A l)); [reflexivity|]. destruct (map mk (V j B l)); [reflexivity|]. rewrite E. cbn [obind].
    destruct (decideI _ _ _ _ _ _ _) as [es g']. reflexivity.
  Qed.

  (** *** sampleTypeII: the strict inequality needs W not to be a power of two times w_min^2 *)
  Hypothesis (H2 : forall k : Z, p_W P <> (b2 k * (p_w0 P * p_w0 P))%R).
  Lemma far_strict A B l i j wub dlb : call_ok cfg D P (CallII A B l i j) -> w_upper_bound ideal_env P i j = Some wub -> dist_lower_bound ideal_env cfg D A B l = Some dlb -> (wub < dlb)%R.
  Proof.
    intros (HA & HB & Hi & Hj & Hl & Ht) Ew Ed. pose proof (base_levels' i j l Hl) as Hlv. destruct (level_bound D P HD (no_c _ _ _ _ NO) HLE l Hlv) as [Hb1 Hb2].
    assert (Hl2 : (2 <= l)%N).
    { destruct (N.le_gt_cases l 1) as [L|L]; [|lia]. rewrite (touching_low cfg D l A B HD L ltac:(lia) HA HB) in Ht. discriminate. }
    pose proof (base_pos D (p_c P) HD i j l ltac:(lia) Hl) as Hc. pose proof (no_c _ _ _ _ NO) as Hc30.
    destruct (cell_dist_nontouching ideal_env cfg D l A B HD ideal_good ltac:(lia) ltac:(lia) HA HB Ht) as (d & Ed' & Hd).
    unfold dist_lower_bound in Ed. rewrite Ed' in Ed. cbn [obind] in Ed. injection Ed as <-.
    assert (Hdl : (1 / pow2R (D * l) <= pow_to_the ideal_env D d)%R) by (apply pow_to_the_ge; auto using ideal_good; try apply HD; lia).
    apply Rlt_le_trans with (2 := Hdl). pose proof (ip_pos _ _ IP) as Pw. pose proof (ip_Wpos _ _ IP) as PW.
    unfold w_upper_bound in Ew. rewrite !shl1_i32_Some in Ew by lia. cbn [obind rnd ideal_env] in Ew. injection Ew as <-.
    assert (HZ : forall k, IZR (Z.of_N (2 ^ (N.of_nat k + 1))) = b2 (Z.of_nat k + 1)).
    { intros k. rewrite <- IZR_Zpower by lia. f_equal. rewrite N2Z.inj_pow. cbn [radix_val radix2]. f_equal. lia. }
    rewrite !HZ, pow2R_b2. pose proof (bpow_gt_0 radix2 (Z.of_N (D * l))) as Pb.
    apply Rmult_lt_reg_r with (p_W P * b2 (Z.of_N (D * l)))%R; [now apply Rmult_lt_0_compat|].
    replace (1 / b2 (Z.of_N (D * l)) * (p_W P * b2 (Z.of_N (D * l))))%R with (p_W P) by (field; lra).
    replace (p_w0 P * b2 (Z.of_nat i + 1) * p_w0 P * b2 (Z.of_nat j + 1) / p_W P * (p_W P * b2 (Z.of_N (D * l))))%R
      with (b2 (Z.of_nat i + 1) * b2 (Z.of_nat j + 1) * b2 (Z.of_N (D * l)) * (p_w0 P * p_w0 P))%R by (field; lra).
    rewrite <- !bpow_plus. pose proof (ip_c _ _ IP ltac:(lia)) as HW.
    apply Rle_lt_trans with (b2 c * (p_w0 P * p_w0 P))%R; [apply Rmult_le_compat_r; [nra|]; apply bpow_le; lia|].
    specialize (H2 c). lra.
  Qed.
  Lemma dskip_eq A B l i j wub dlb p : call_ok cfg D P (CallII A B l i j) -> w_upper_bound ideal_env P i j = Some wub -> dist_lower_bound ideal_env cfg D A B l = Some dlb ->
    forall fuel r g, dskip_loop ideal_env D t alpha rg i j wub dlb p (map mk (V i A l)) (map mk (V j B l)) fuel r g =
      skip_loop ideal_env D (p_W P) alpha rg p (map mk (V i A l)) (map mk (V j B l)) fuel r g.
  Proof.
    intros Hok Ew Ed. destruct (far_facts_ok HI cfg P NO IP t ord TS A B l i j Hok) as (wub' & dlb' & F).
    pose proof (ff_w _ _ _ _ _ _ _ _ _ _ F) as Ew'. rewrite Ew in Ew'. injection Ew' as <-.
    pose proof (ff_d _ _ _ _ _ _ _ _ _ _ F) as Ed'. rewrite Ed in Ed'. injection Ed' as <-.
    set (ra := map mk (V i A l)). set (rb := map mk (V j B l)).
    induction fuel as [|f IH]; intros r g; cbn [dskip_loop skip_loop]; [reflexivity|]. destruct (N.of_nat (length ra * length rb) <=? r); [reflexivity|].
    destruct (nth_error ra _) as [a|] eqn:Ea; [|reflexivity]. destruct (nth_error rb _) as [b|] eqn:Eb; [|reflexivity]. cbn [obind].
    apply nth_error_In in Ea, Eb. apply in_map_iff in Ea as (u & <- & Hu), Eb as (v & <- & Hv).
    rewrite (ts_P _ _ _ _ _ _ _ _ TS). rewrite (dlayer_ok i A l u Hu), (dlayer_ok j B l v Hv). cbn [obind].
    destruct (uni0 rg p g) as [x g1].
    destruct (ff_pair _ _ _ _ _ _ _ _ _ _ F u v Hu Hv) as [[_ W1] D1].
    rewrite (dassert_true _ (proj2 (Rltb_true _ _) W1)). cbn [obind]. rewrite (dassert_true _ (proj2 (Rleb_true _ _) D1)). cbn [obind].
    destruct (geo rg p g1) as [k g2]. rewrite IH. reflexivity.
  Qed.
  Lemma dsampleTypeII_eq A B l i j g : call_ok cfg D P (CallII A B l i j) ->
    dsampleTypeII ideal_env cfg D t alpha rg A B l i j g = sampleTypeII ideal_env cfg D t alpha rg A B l i j g.
  Proof.
    intros Hok. pose proof Hok as (HA & HB & Hi & Hj & Hl & Ht). pose proof (base_levels' i j l Hl) as Hlv.
    assert (B1 : l <= tl D c i) by (etransitivity; [exact Hl|apply base_le_target, HD]).
    assert (B2 : l <= tl D c j) by (etransitivity; [exact Hl|rewrite base_sym; apply base_le_target, HD]).
    unfold dsampleTypeII, sampleTypeII. rewrite (ts_P _ _ _ _ _ _ _ _ TS). rewrite (dbase_eq i j Hi Hj). cbn [obind].
    rewrite (dassert_true _ (proj2 (N.leb_le _ _) Hl)). cbn [obind].
    rewrite (dnodes_in_eq i A l Hi Hlv B1 HA), (dnodes_in_eq j B l Hj Hlv B2 HB).
    rewrite (nodes_in_eq _ _ _ _ _ _ t ord TS i A l Hi B1 HA), (nodes_in_eq _ _ _ _ _ _ t ord TS j B l Hj B2 HB). cbn [obind].
    pose proof (dskip_eq A B l i j) as SK.
    set (ra := map mk (V i A l)) in *. set (rb := map mk (V j B l)) in *.
    destruct (far_facts_ok HI cfg P NO IP t ord TS A B l i j Hok) as (wub & dlb & F).
    pose proof (ff_w _ _ _ _ _ _ _ _ _ _ F) as Ew. pose proof (ff_d _ _ _ _ _ _ _ _ _ _ F) as Ed.
    rewrite Ew, Ed. cbn [obind]. cbv zeta. rewrite (dassert_true _ (proj2 (Rltb_true _ _) (far_strict A B l i j wub dlb Hok Ew Ed))). cbn [obind].
    rewrite (dsampleTypeI_eq A B l i j g HA HB Hi Hj Hl (or_intror Ht)).
    destruct ra as [|a0 ra0] eqn:Era; [reflexivity|]. destruct rb as [|b0 rb0] eqn:Erb; [reflexivity|]. rewrite <- Era, <- Erb in *.
    match goal with |- (if ?b then _ else _) = _ => destruct b end; [reflexivity|].
    match goal with |- (if ?b then _ else _) = _ => destruct b end; [reflexivity|].
    destruct (geo rg _ g) as [r0 g1]. rewrite (SK wub dlb _ Hok Ew Ed). reflexivity.
  Qed.
  Lemma drun_call_eq x g : call_ok cfg D P x -> drun_call ideal_env cfg D t alpha rg x g = run_call ideal_env cfg D t alpha rg x g.
  Proof.
    destruct x as [A B l i j|A B l i j]; intros Hok; cbn [drun_call run_call].
    - destruct Hok as (HA & HB & Hi & Hj & Hl). apply dsampleTypeI_eq; auto. lia.
    - now apply dsampleTypeII_eq.
  Qed.
  Lemma drun_calls_eq xs : (forall x, In x xs -> call_ok cfg D P x) -> forall g, drun_calls ideal_env cfg D t alpha rg xs g = run_calls ideal_env cfg D t alpha rg xs g.
  Proof.
    induction xs as [|x xs IH]; intros H g; [reflexivity|]. cbn [drun_calls run_calls].
    rewrite (drun_call_eq x g (H x (or_introl eq_refl))). destruct (run_call ideal_env cfg D t alpha rg x g) as [r1|]; [|reflexivity]. cbn [obind].
    rewrite IH by (intros; apply H; now right). reflexivity.
  Qed.

  (** *** generateEdges *)
  Hypothesis (Hdbg : ndebug cfg = false).
  Theorem edges_debug_iff o : edges_debug ideal_env cfg D n t alpha rg seed omp_max team o <-> edges_outcome ideal_env cfg D t alpha rg seed omp_max team o.
  Proof.
    destruct (omp_nat _ (gi_omp _ _ _ _ _ _ HI)) as [Ho _].
    destruct (edges_ok ideal_env cfg D ws ps P ideal_good HD NO HL (use_vp HI) Hn alpha rg seed omp_max team GG Ho (use_fpl HI) (gi_team _ _ _ _ _ _ HI) (use_seed HI) t ord TS) as [_ EO].
    clear Ho. unfold edges_debug, edges_outcome in *. rewrite (use_seed HI) in *. rewrite (ts_P _ _ _ _ _ _ _ _ TS) in *.
    assert (K : forall gens, gens_ok rg seed omp_max gens ->
      (do calls <- thread_calls ideal_env cfg D P alpha omp_max team; do rs <- drun_threads ideal_env cfg D t alpha rg calls gens; do _ <- total_assert n rs; Some rs) =
      (do calls <- thread_calls ideal_env cfg D P alpha omp_max team; run_threads ideal_env cfg D t alpha rg calls gens)).
    { intros gens Hg. destruct (EO _ (ex_intro _ gens (conj Hg eq_refl))) as (rs & Ers & SA).
      destruct (thread_calls ideal_env cfg D P alpha omp_max team) as [calls|] eqn:Ec; [|reflexivity]. cbn [obind] in *.
      assert (E : drun_threads ideal_env cfg D t alpha rg calls gens = run_threads ideal_env cfg D t alpha rg calls gens).
      { unfold drun_threads, run_threads. destruct (length gens <? length calls)%nat; [reflexivity|]. apply omap_ext_in. intros [cs g] Hcg. cbn [fst snd].
        apply in_combine_l in Hcg. apply drun_calls_eq. intros x Hx. apply (executed_ok HI cfg P NO t ord TS alpha). exists calls. split; [exact Ec|]. apply in_concat. eauto. }
      rewrite E, Ers. cbn [obind]. unfold total_assert. rewrite dassert_true; [reflexivity|]. apply Z.eqb_eq. rewrite (sa_checks _ _ _ _ _ _ _ _ _ _ _ SA).
      apply pairs_length; [exact (sa_range _ _ _ _ _ _ _ _ _ _ _ SA)|]. apply (sa_all _ _ _ _ _ _ _ _ _ _ _ SA). now rewrite Hdbg. }
    split; intros (gens & Hg & ->); exists gens; (split; [exact Hg|]); [now apply K|symmetry; now apply K].
  Qed.
End DebugRun.

Theorem girg_debug_iff cfg rg D ws ps alpha seed omp_max team : ndebug cfg = false -> girg_input D ws ps seed omp_max team -> good_rng rg ->
  (forall w (k : Z), In w ws -> (forall w', In w' ws -> w <= w')%R -> sumR ws <> (b2 k * (w * w))%R) ->
  (D = 4 -> forall w, In w ws -> (sumR ws < b2 30 * (w * w))%R) ->
  forall o, girg_debug ideal_env cfg rg ws ps alpha seed omp_max team o <-> girg_outcome ideal_env cfg rg ws ps alpha seed omp_max team o.
Proof.
  intros Hdbg HI GG H2 H4 o. destruct (use_num HI) as (P & NO & IP). destruct (use_build HI cfg P NO) as (t & ord & TS & HO & HU).
  destruct (build_asserts HI cfg P NO IP t ord TS) as [A1 A2].
  assert (H2' : forall k : Z, p_W P <> (b2 k * (p_w0 P * p_w0 P))%R) by (intros k; rewrite (ip_W _ _ IP); apply H2; apply (ip_min _ _ IP)).
  assert (H4' : D = 4 -> (p_W P < b2 30 * (p_w0 P * p_w0 P))%R) by (intros E; rewrite (ip_W _ _ IP); apply (H4 E); apply (ip_min _ _ IP)).
  pose proof (edges_debug_iff HI cfg P NO IP t ord TS H4' alpha rg GG H2' Hdbg) as EI.
  assert (K : forall ot, tree_debug ideal_env cfg D ws ps omp_max ot <-> tree_outcome ideal_env cfg D ws ps omp_max ot).
  { intros ot. unfold tree_debug. split.
    - intros (ot' & Q1 & ->). rewrite (HU _ Q1), A1. cbn [obind]. rewrite A2. cbn [obind]. exact HO.
    - intros H. exists ot. split; [exact H|]. rewrite (HU _ H), A1. cbn [obind]. rewrite A2. reflexivity. }
  unfold girg_debug, girg_outcome. destruct ps as [|p0 ps'] eqn:Eps; [reflexivity|]. cbv zeta. rewrite <- Eps in *.
  assert (ED : N.of_nat (length p0) = D). { pose proof (gi_pos _ _ _ _ _ _ HI) as F. rewrite Eps in F. inversion_clear F as [|? ? [V1 _] _]. rewrite V1. apply N2Nat.id. }
  rewrite ED. destruct ((1 <=? D) && (D <=? 5)); [|reflexivity]. split; intros (ot & H & Q).
  - apply K in H. exists ot. split; [exact H|]. rewrite (HU _ H) in *. destruct Q as (ors & G & Q). exists ors. split; [apply EI; exact G|exact Q].
  - exists ot. split; [apply K; exact H|]. rewrite (HU _ H) in *. destruct Q as (ors & G & Q). exists ors. split; [apply EI; exact G|exact Q].
Qed.
