(** Property C81, averaged over positions: weights scaled by scaleWeights, uniform positions and generateEdges give the requested average degree. *)
From Coq Require Import Arith NArith ZArith List Bool Reals Permutation Lia Lra Psatz.
From Flocq Require Import Core.
From Coquelicot Require Import Coquelicot.
From Verif Require Import Base Sched Bits_Model Bits_Proofs Coord_Model Coord_Proofs Coord_Geo IntSort_Model Cover Tree_Model Tree_Proofs Tree_Build Tree_Plan Tree_Run Girg_Model Girg_Proofs Girg_Num Prop_Girg Mean Prop_Mean Cost_Touch GirgCost_Model GirgCost_Proofs GirgCost_Count Prop_Cost Prop_Work Prob_Spec Prob Prob_Events Prob_Girg Prob_Law Mean_Cells Draws_Law Draws_Bound Draws_Mean Coord_Torus Prop_Coord Prop_Prob Scaling_Model Scaling_Thr Scaling_Inst Scaling_Integral Prop_Scaling Prop_Draws Law_Any Prop_Loss Prop_EndDegree Mean_Reg.
Import ListNotations.
Local Open Scope R_scope.

(** ** the pairs that are lost depend on the cells only *)
Definition lost (cfg : config) (D : N) (ws : list R) (P : tparams) (a : R) (o : list nat) (u v : nat) (ps : list (list R)) : bool :=
  existsb (fun x => @dropped D ws ps cfg P o a x && joinedb (call_pairs ideal_env cfg D ws ps P o x) u v) (plan cfg D P (N.to_nat (p_levels P - 1)) 0%N 0%N 0%N).
Lemma filter_perm {A} (f : A -> bool) l l' : Permutation l l' -> Permutation (filter f l) (filter f l').
Proof. intros H. induction H; cbn [filter]; [constructor|destruct (f x); auto|destruct (f x), (f y); auto; constructor|eapply Permutation_trans; eauto]. Qed.
Lemma memb_iff (x : nat * nat) l l' : (In x l <-> In x l') -> memb x l = memb x l'.
Proof. intros H. destruct (memb x l) eqn:A, (memb x l') eqn:B; try reflexivity; exfalso. - apply memb_In, H, memb_In in A. congruence. - apply memb_In, H, memb_In in B. congruence. Qed.
Lemma joined_prod u v (l l' m m' : list nat) : Permutation l l' -> Permutation m m' -> joinedb (list_prod l m) u v = joinedb (list_prod l' m') u v.
Proof.
  intros H1 H2. assert (S : forall x y, In (x, y) (list_prod l m) <-> In (x, y) (list_prod l' m')).
  { intros x y. rewrite !in_prod_iff. split; intros [X Y]; split; eauto using Permutation_in, Permutation_sym. }
  unfold joinedb. now rewrite (memb_iff _ _ _ (S u v)), (memb_iff _ _ _ (S v u)).
Qed.
Lemma existsb_ext {A} (f g : A -> bool) l : (forall x, In x l -> f x = g x) -> existsb f l = existsb g l.
Proof. induction l as [|x l IH]; intros H; [reflexivity|]. cbn [existsb]. rewrite (H x (or_introl eq_refl)), IH; [reflexivity|]. intros y Hy. apply H. now right. Qed.
Lemma lost_same cfg D ws P a o o' u v ps ps' :
  (forall x i A, In x (plan cfg D P (N.to_nat (p_levels P - 1)) 0%N 0%N 0%N) -> Permutation (V ideal_env cfg D ws ps P o i A (call_level x)) (V ideal_env cfg D ws ps' P o' i A (call_level x))) ->
  lost cfg D ws P a o u v ps = lost cfg D ws P a o' u v ps'.
Proof.
  intros H. unfold lost. apply existsb_ext. intros x Hx. destruct x as [A B l i j|A B l i j]; [reflexivity|]. pose proof (H _ i A Hx) as H1. pose proof (H _ j B Hx) as H2. cbn [call_level] in H1, H2.
  cbn [dropped call_pairs]. now rewrite (Permutation_length H1), (Permutation_length H2), (joined_prod u v _ _ _ _ H1 H2).
Qed.
Lemma lost_order cfg D ws P a u v ps t ord : tree_spec ideal_env cfg D ws ps P t ord -> lost cfg D ws P a ord u v ps = lost cfg D ws P a (seq 0 (length ws)) u v ps.
Proof. intros TS. apply lost_same. intros x i A _. unfold V. apply filter_perm, (ts_perm _ _ _ _ _ _ _ _ TS). Qed.
Lemma lost_cells cfg d ws P a u v ps qs : (forall x, In x (plan cfg (N.of_nat d) P (N.to_nat (p_levels P - 1)) 0%N 0%N 0%N) -> (call_level x < p_levels P)%N) ->
  Mean.points_in (length ws) d ps -> Mean.points_in (length ws) d qs -> same_cells (p_levels P) ps qs ->
  lost cfg (N.of_nat d) ws P a (seq 0 (length ws)) u v ps = lost cfg (N.of_nat d) ws P a (seq 0 (length ws)) u v qs.
Proof.
  intros HX Hp Hq E. apply lost_same. intros x i A Hx. specialize (HX x Hx).
  replace (V ideal_env cfg (N.of_nat d) ws ps P (seq 0 (length ws)) i A (call_level x)) with (V ideal_env cfg (N.of_nat d) ws qs P (seq 0 (length ws)) i A (call_level x)); [reflexivity|].
  unfold V. apply filter_ext_in. intros w Hw. apply in_seq in Hw. f_equal. f_equal.
  unfold cel, cell_of, cellR, coordsR, pos. f_equal. f_equal. symmetry. apply (coords_eq (p_levels P) (call_level x) d); [lia|apply (points_nth _ _ _ _ Hp); lia|apply (points_nth _ _ _ _ Hq); lia|].
  rewrite <- !(map_nth (map (coordR (p_levels P)))). unfold same_cells in E. now rewrite E.
Qed.

(** ** the mean number of edges for given positions *)
Section Count.
  Context (cfg : config) (d : nat) (ws : list R) (seed : Z) (omp_max team : nat) (a : R) (lo hi : R).
  Hypotheses (CI : cost_input d ws seed omp_max team) (Hs : (0 <= seed)%Z) (Ha : 0 < a) (HLo : is_smallest ws lo) (HHi : is_largest ws hi).
  Variables (P : tparams) (NO : num_ok ideal_env (N.of_nat d) ws P) (IP : ideal_params ws P).
  Hypothesis HLE : p_levels P = (base_level (N.of_nat d) (p_c P) 0 0 + 1)%N.
  Notation D := (N.of_nat d).
  Notation n := (length ws).
  Definition doc (uv : nat * nat) (ps : list (list R)) : R := near_rule a d (nth (fst uv) ws 0 * nth (snd uv) ws 0 / sumR ws) (tdist (nth (fst uv) ps []) (nth (snd uv) ps [])).
  Definition real (uv : nat * nat) (ps : list (list R)) : R := if lost cfg D ws P a (seq 0 n) (fst uv) (snd uv) ps then 0 else doc uv ps.
  Definition edges_mean (ps : list (list R)) : R := sumR (map (fun uv => real uv ps) (all_pairs n)).
  Lemma doc_pe u v ps : Mean.points_in n d ps -> (u < n)%nat -> (v < n)%nat -> u <> v -> doc (u, v) ps = @pe D ws ps cfg P a u v.
  Proof.
    intros Hp Hu Hv Huv. pose proof (cost_girg _ _ _ _ _ _ CI Hp) as HI. eapply edge_probability_unique; [|apply (pe_probability _ _ _ seed omp_max team cfg P a u v); try assumption; lra].
    pose proof (points_nth _ _ _ u Hp Hu) as Cu. pose proof (points_nth _ _ _ v Hp Hv) as Cv. exists (tdist (nth u ps []) (nth v ps [])). split; [now apply (tdist_is d)|]. unfold doc, near_rule. cbn [fst snd]. rewrite Nat2N.id. split.
    - intros E. destruct (Rle_dec _ 0); [reflexivity|lra].
    - intros E. destruct (Rle_dec _ 0); [lra|reflexivity].
  Qed.
  Lemma real_q u v ps t ord : Mean.points_in n d ps -> tree_spec ideal_env cfg D ws ps P t ord -> (u < n)%nat -> (v < n)%nat -> u <> v -> real (u, v) ps = @qpair D ws ps cfg P ord a u v.
  Proof.
    intros Hp TS Hu Hv Huv. unfold real, qpair. cbn [fst snd]. rewrite <- (lost_order cfg D ws P a u v ps t ord TS), (doc_pe u v ps Hp Hu Hv Huv). reflexivity.
  Qed.
  Lemma count_mean ps out : Mean.points_in n d ps -> possible_results cfg ws ps a seed omp_max team out ->
    expects_n omp_max (fun tapes => match out tapes with Some edges => INR (length edges) | None => 0 end) (edges_mean ps).
  Proof.
    intros Hp Hout. pose proof (cost_girg _ _ _ _ _ _ CI Hp) as HI. destruct (girg_law cfg _ ws ps seed omp_max team a HI Hs ltac:(lra)) as (P' & t & ord & q & NO' & IP' & TS & _ & -> & Hq & LAW).
    assert (P' = P) as -> by (pose proof (no_params _ _ _ _ NO) as X; pose proof (no_params _ _ _ _ NO') as Y; congruence).
    pose proof (any_law omp_max n out _ (LAW out Hout) (fun G => 0 + INR (length G))) as H. rewrite indep_mean_count, Rplus_0_l in H.
    rewrite (sumR_ext _ (fun uv => real uv ps)) in H by (intros [u v] I; apply all_pairs_In in I; cbn [fst snd]; symmetry; apply (real_q u v ps t ord Hp TS); lia).
    eapply expects_n_ext; [|exact H]. intros tapes L. cbv beta.
    destruct (C02_simple_graph _ _ _ _ _ _ _ _ _ HI (tape_good _) _ (Hout tapes L)) as (edges & E & ND & SL & AN). rewrite E, (graph_count n edges ND); [ring| |exact AN].
    intros u v I. destruct (C03_endpoints_are_node_indices _ _ _ _ _ _ _ _ _ HI (tape_good _) _ (Hout tapes L)) as (edges' & E' & RR). rewrite E in E'. injection E' as <-. destruct (RR u v I) as [R1 R2]. repeat split; auto. intros ->. exact (SL v I).
  Qed.
  Lemma real_doc u v ps : Mean.points_in n d ps -> (u < v < n)%nat -> 0 <= real (u, v) ps <= doc (u, v) ps.
  Proof.
    intros Hp I. unfold real. pose proof (@pe_range D ws ps cfg P IP a u v ltac:(lia) ltac:(lia)) as PR. rewrite <- (doc_pe u v ps Hp) in PR by lia. destruct (lost _ _ _ _ _ _ _ _ _); lra.
  Qed.
  Lemma loss_sum ps : Mean.points_in n d ps -> sumR (map (fun uv => doc uv ps - real uv ps) (all_pairs n)) <= lost_edges d ws lo hi.
  Proof.
    intros Hp. pose proof (cost_girg _ _ _ _ _ _ CI Hp) as HI. destruct (use_build HI cfg P NO) as (t & ord & TS & _ & _).
    pose proof (girg_loss _ ws ps seed omp_max team HI cfg P NO IP t ord TS a ltac:(lra)) as GL. pose proof (plan_length cfg d ws seed omp_max team a lo hi P CI HLo HHi NO) as PL.
    rewrite (sumR_ext _ (fun uv => doc uv ps - real uv ps)) in GL by (intros [u v] I; apply all_pairs_In in I; cbn [fst snd]; rewrite (real_q u v ps t ord Hp TS), (doc_pe u v ps Hp) by lia; reflexivity).
    unfold lost_edges. lra.
  Qed.
  Lemma count_close ps : Mean.points_in n d ps -> sumR (map (fun uv => doc uv ps) (all_pairs n)) - lost_edges d ws lo hi <= edges_mean ps <= sumR (map (fun uv => doc uv ps) (all_pairs n)).
  Proof.
    intros Hp. pose proof (loss_sum ps Hp) as LS.
    assert (E : sumR (map (fun uv => doc uv ps) (all_pairs n)) = edges_mean ps + sumR (map (fun uv => doc uv ps - real uv ps) (all_pairs n))).
    { unfold edges_mean. rewrite <- (Draws_Bound.sumR_plus (fun uv => real uv ps)). apply sumR_ext. intros uv _. ring. }
    assert (0 <= sumR (map (fun uv => doc uv ps - real uv ps) (all_pairs n))).
    { apply sumR_nonneg. intros [u v] I. apply all_pairs_In in I. pose proof (real_doc u v ps Hp I). lra. }
    lra.
  Qed.
  Lemma weight_term u v : (u < n)%nat -> (v < n)%nat -> 0 < nth u ws 0 * nth v ws 0 / sumR ws.
  Proof. intros Hu Hv. pose proof (@w_pos D ws [] cfg P IP u v Hu Hv) as W. rewrite <- (ip_W _ _ IP). exact W. Qed.
  Lemma real_regular u v : (u < v < n)%nat -> preg n d (real (u, v)).
  Proof.
    assert (HD : dim_ok D) by (pose proof (ci_dim _ _ _ _ _ CI); unfold dim_ok; lia).
    intros I. apply (preg_cells n d (p_levels P) (lost cfg D ws P a (seq 0 n) u v) (doc (u, v))).
    - intros ps qs Hp Hq E. apply lost_cells; try assumption. intros x Hx. pose proof (cost_girg _ _ _ _ _ _ CI Hp) as HI. destruct (use_build HI cfg P NO) as (t & ord & TS & _ & _).
      pose proof (plan0_ok ideal_env cfg D ws ps P HD NO (gi_len _ _ _ _ _ _ HI) (gi_n _ _ _ _ _ _ HI) t ord TS _ Hx) as Hok. rewrite HLE.
      destruct x as [A B l i j|A B l i j]; [destruct Hok as (_ & _ & _ & _ & Hl)|destruct Hok as (_ & _ & _ & _ & Hl & _)]; cbn [call_level]; pose proof (base_le_00 D (p_c P) HD i j); lia.
    - apply (preg_dist n d (near_rule a d (nth u ws 0 * nth v ws 0 / sumR ws)) u v); [|lia|lia]. intros r. apply near_cont; [lra|apply weight_term; lia|pose proof (ci_dim _ _ _ _ _ CI); lia].
  Qed.
  Lemma count_regular : is_points_mean n d edges_mean (pval n d edges_mean).
  Proof. apply preg_mean. apply (preg_sum n d real). intros [u v] I. apply all_pairs_In in I. now apply real_regular. Qed.
End Count.

(** ** Theorem *)
(** K ps is the mean average degree of the graphs that generateEdges returns for the scaled weights and the positions ps, over the random draws, in
    whatever way runs are scheduled; its mean kbar over uniformly drawn positions is, up to the lost edges, in the window around the requested degree *)
Theorem C81_mean_degree : forall ws desired d a s ws', double_weights ws -> ws <> [] -> scale_weights ws desired d (DFin a) (Returned s) ws' ->
  forall cfg seed omp_max team lo hi, cost_input d ws' seed omp_max team -> (0 <= seed)%Z -> is_smallest ws' lo -> is_largest ws' hi ->
  exists K kbar,
    (forall ps, Mean.points_in (length ws) d ps -> forall out, possible_results cfg ws' ps a seed omp_max team out ->
       expects_n omp_max (fun tapes => average_degree (length ws) (out tapes)) (K ps)) /\
    is_points_mean (length ws) d K kbar /\
    exists m, in_window (length ws) (DFin a) desired m /\ m - 2 * lost_edges d ws' lo hi / INR (length ws) <= kbar <= m.
Proof.
  intros ws desired d a s ws' V Hne H cfg seed omp_max team lo hi CI Hs HLo HHi.
  assert (EL : length ws' = length ws). { rewrite (returned_scaled _ _ _ _ _ _ H). unfold scaled. apply map_length. }
  assert (Hlen : (N.of_nat (length ws) < 2 ^ 31)%N) by (rewrite <- EL; apply (ci_n _ _ _ _ _ CI)).
  assert (Hd : (1 <= d)%nat) by (pose proof (ci_dim _ _ _ _ _ CI); lia).
  assert (A1 : 0 < a). { inversion H as [s' Hg Hs' E1 E2|b s' Hg Hb Ea Hs' E1 E2|]; subst; cbn in Hg; [apply Rltb_true in Hg; lra|]. injection Ea as <-. apply andb_prop in Hb as [Hb _]. cbn in Hb. apply Rltb_true in Hb. lra. }
  destruct (C63_scaled_degree ws desired d s ws' (DFin a) V Hne Hlen Hd H) as (m & (F & HF & HM) & L & U).
  destruct (cost_ctx _ _ _ _ _ CI cfg) as (P & NO & IP & HD & HLE & _). rewrite <- EL in *. set (n := length ws') in *.
  assert (Hn : (0 < n)%nat) by (rewrite EL; destruct ws; [congruence|cbn; lia]). assert (IN : 0 < / INR n) by (apply Rinv_0_lt_compat, lt_0_INR; exact Hn).
  set (S := edges_mean cfg d ws' a P). set (K := fun ps => 2 / INR n * S ps). exists K, (2 / INR n * pval n d S).
  assert (HK : is_points_mean n d K (2 / INR n * pval n d S)) by (apply points_mean_scal; apply (count_regular cfg d ws' seed omp_max team a CI A1 P NO IP HLE)).
  assert (CL : forall ps, Mean.points_in n d ps -> F ps - 2 * lost_edges d ws' lo hi / INR n <= K ps <= F ps).
  { intros ps Hp. pose proof (count_close cfg d ws' seed omp_max team a lo hi CI A1 HLo HHi P NO IP HLE ps Hp) as CC. fold n S in CC. destruct (HF ps Hp) as (p & Hp' & EF).
    assert (Q : forall x y, (x < n)%nat -> (y < n)%nat -> x <> y -> p x y = @pe (N.of_nat d) ws' ps cfg P a x y).
    { intros x y Hx Hy N. eapply edge_probability_unique; [apply (Hp' x y Hx Hy N)|]. apply (pe_probability _ _ _ seed omp_max team); try assumption; try lra. now apply cost_girg. }
    rewrite (ordered_sum p) in EF by (intros u v Huv; rewrite !Q by lia; apply pe_sym).
    rewrite (sumR_ext (fun uv => p (fst uv) (snd uv)) (fun uv => doc d ws' a uv ps)) in EF by (intros [u v] I; apply all_pairs_In in I; cbn [fst snd]; rewrite Q, (doc_pe cfg d ws' seed omp_max team a CI A1 P IP u v ps Hp) by lia; reflexivity).
    rewrite EF. unfold K, Rdiv. fold n. set (T := sumR _) in *. split; nra. }
  split; [|split; [exact HK|]].
  - intros ps Hp out Hout. pose proof (count_mean cfg d ws' seed omp_max team a CI Hs A1 P NO IP HLE ps out Hp Hout) as CM. eapply expects_n_ext; [|apply (expects_n_scal omp_max (2 / INR n) _ _ CM)].
    intros tapes _. cbv beta. unfold average_degree. destruct (out tapes); unfold Rdiv; ring.
  - exists m. split; [split; assumption|]. split.
    + set (c := 2 * lost_edges d ws' lo hi / INR n) in *.
      assert (HG : is_points_mean n d (fun ps => - c + F ps) (- c + m)) by (apply points_mean_plus; [apply points_mean_const|exact HM]).
      assert (LE : - c + m <= 2 / INR n * pval n d S); [|lra]. apply (points_mean_le d n (fun ps => - c + F ps) K); [|exact HG|exact HK]. intros ps Hp. pose proof (CL ps Hp). lra.
    + apply (points_mean_le d n K F _ _); [|exact HK|exact HM]. intros ps Hp. apply (CL ps Hp).
Qed.
Print Assumptions C81_mean_degree.
