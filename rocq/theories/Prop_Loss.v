(** Property C80: the whole graph has almost exactly the documented distribution, although blocks of improbable pairs are dropped. *)
From Coq Require Import Arith NArith ZArith List Bool Reals Permutation Lia Lra Psatz.
From Flocq Require Import Core.
From Coquelicot Require Import Coquelicot.
From Verif Require Import Base Sched Bits_Proofs Coord_Model Coord_Proofs Coord_Geo Tree_Model Tree_Proofs Tree_Build Tree_Plan Tree_Run Girg_Model Girg_Num Prop_Girg
  Mean Prop_Mean Cost_Touch GirgCost_Count Prop_Cost Prop_Work Prob_Spec Prob Prob_Events Prob_Girg Prob_Law Prop_Prob Draws_Law Draws_Bound Draws_Mean
  Hyp_Model Hyp_Math Hyp_Angle Hyp_Levels Hyp_Build Hyp_Run Prop_Hyp Prob_Hrg Prob_HrgLaw Prop_ProbHrg Prop_Draws HypDraws_Bound Prop_HypDraws Law_Any.
Import ListNotations.
Local Open Scope R_scope.

(** ** Specification *)
(** [graph_of n edges] is the undirected graph that an edge list describes, [indep_mean (all_pairs n) p f] the mean of f(G) for the random graph G on
    n nodes in which every pair {u,v} is an edge with probability p u v, independently (Law_Any.v). *)
(** the mean of f over the graphs that a run returns on k tapes of independent uniform random numbers is m *)
Definition returned_mean (k n : nat) (out : list tape -> option (list (nat * nat))) (f : list (nat * nat) -> R) (m : R) : Prop :=
  expects_n k (fun tapes => match out tapes with Some edges => f (graph_of n edges) | None => 0 end) m.
(** the returned graphs have, up to e in total variation, the distribution of independent pairs with probabilities p; the mean number of edges
    is at most e below the sum of the p *)
Definition close_to_documented (k n : nat) (out : list tape -> option (list (nat * nat))) (p : nat -> nat -> R) (e : R) : Prop :=
  (forall f, (forall G, 0 <= f G <= 1) -> exists m, returned_mean k n out f m /\ Rabs (m - indep_mean (all_pairs n) p f) <= e) /\
  (exists m, expects_n k (fun tapes => match out tapes with Some edges => INR (length edges) | None => 0 end) m /\
     sumR (map (fun uv => p (fst uv) (snd uv)) (all_pairs n)) - e <= m <= sumR (map (fun uv => p (fst uv) (snd uv)) (all_pairs n))).

(** ** Proofs *)
Lemma close_intro k n out p q e :
  (forall phi, expects_n k (fun tapes => match out tapes with
      | Some edges => prodR (all_pairs n) (fun uv => phi (fst uv) (snd uv) (joinedb edges (fst uv) (snd uv)))
      | None => 0 end)
    (prodR (all_pairs n) (fun uv => q (fst uv) (snd uv) * phi (fst uv) (snd uv) true + (1 - q (fst uv) (snd uv)) * phi (fst uv) (snd uv) false))) ->
  (forall u v, In (u, v) (all_pairs n) -> 0 <= q u v <= p u v /\ p u v <= 1) ->
  sumR (map (fun uv => p (fst uv) (snd uv) - q (fst uv) (snd uv)) (all_pairs n)) <= e ->
  (forall tapes, length tapes = k -> exists edges, out tapes = Some edges /\ NoDup edges /\ (forall u v, In (u, v) edges -> (u < n)%nat /\ (v < n)%nat /\ u <> v) /\ (forall u v, In (u, v) edges -> ~ In (v, u) edges)) ->
  close_to_documented k n out p e.
Proof.
  intros LAW HQ HE SG. split.
  - intros f Hf. exists (indep_mean (all_pairs n) q f). split; [apply (any_law k n out q LAW)|]. rewrite Rabs_minus_sym. eapply Rle_trans; [apply indep_mean_close; [|exact Hf]|].
    + intros u v I. destruct (HQ u v I). lra.
    + eapply Rle_trans; [|exact HE]. right. apply sumR_ext. intros [u v] I. cbn [fst snd]. apply Rabs_pos_eq. destruct (HQ u v I). lra.
  - exists (sumR (map (fun uv => q (fst uv) (snd uv)) (all_pairs n))). split.
    + pose proof (any_law k n out q LAW (fun G => 0 + INR (length G))) as H. rewrite indep_mean_count, Rplus_0_l in H. eapply expects_n_ext; [|exact H]. intros tapes L. cbv beta. destruct (SG tapes L) as (edges & -> & ND & RG & AN). rewrite (graph_count n edges ND RG AN). ring.
    + assert (E : sumR (map (fun uv => p (fst uv) (snd uv)) (all_pairs n)) = sumR (map (fun uv => q (fst uv) (snd uv)) (all_pairs n)) + sumR (map (fun uv => p (fst uv) (snd uv) - q (fst uv) (snd uv)) (all_pairs n))).
      { rewrite <- (Draws_Bound.sumR_plus (fun uv => q (fst uv) (snd uv))). apply sumR_ext. intros uv _. ring. }
      assert (0 <= sumR (map (fun uv => p (fst uv) (snd uv) - q (fst uv) (snd uv)) (all_pairs n))). { apply sumR_nonneg. intros [u v] I. cbn [fst snd]. destruct (HQ u v I). lra. } lra.
Qed.
(** at most 10^-6 is lost in every call *)
Lemma loss_calls (plan : list call) (cp : call -> list (nat * nat)) n (g : nat -> nat -> R) e : Permutation (map norm (flat_map cp plan)) (all_pairs n) -> (forall u v, g u v = g v u) ->
  (forall x, In x plan -> sumR (map (fun uv => g (fst uv) (snd uv)) (cp x)) <= e) -> sumR (map (fun uv => g (fst uv) (snd uv)) (all_pairs n)) <= e * INR (length plan).
Proof.
  intros PM Sy HX. rewrite <- (sumR_perm _ _ (Permutation_map (fun uv => g (fst uv) (snd uv)) PM)), map_map.
  rewrite (sumR_ext (fun uv => g (fst (norm uv)) (snd (norm uv))) (fun uv => g (fst uv) (snd uv))).
  - rewrite (sumR_flat (fun uv => g (fst uv) (snd uv)) cp), <- sumR_const. now apply sumR_le.
  - intros [u v] _. unfold norm. cbn [fst snd]. destruct (u <? v)%nat; cbn [fst snd]; [reflexivity|apply Sy].
Qed.
Lemma girg_loss D ws ps seed omp_max team (HI : girg_input D ws ps seed omp_max team) cfg P (NO : num_ok ideal_env D ws P) (IP : ideal_params ws P) t ord (TS : tree_spec ideal_env cfg D ws ps P t ord) a : 0 <= a ->
  sumR (map (fun uv => @pe D ws ps cfg P a (fst uv) (snd uv) - @qpair D ws ps cfg P ord a (fst uv) (snd uv)) (all_pairs (length ws))) <= 1 / 1000000 * INR (length (plan cfg D P (N.to_nat (p_levels P - 1)) 0%N 0%N 0%N)).
Proof.
  intros Ha. pose proof (gi_dim _ _ _ _ _ _ HI) as HD. pose proof (gi_len _ _ _ _ _ _ HI) as HL. pose proof (gi_n _ _ _ _ _ _ HI) as Hn.
  apply (loss_calls _ (call_pairs ideal_env cfg D ws ps P ord) (length ws) (fun u v => @pe D ws ps cfg P a u v - @qpair D ws ps cfg P ord a u v)); [apply (calls_perm HI cfg P NO t ord TS)|intros u v; now rewrite pe_sym, qpair_sym|].
  intros x Hx. pose proof (plan0_ok ideal_env cfg D ws ps P HD NO HL Hn t ord TS x Hx) as Hok.
  rewrite (sumR_ext _ (fun uv => @pe D ws ps cfg P a (fst uv) (snd uv) - @call_q D ws ps cfg P ord a x (fst uv) (snd uv))) by (intros [u v] I; cbn [fst snd]; now rewrite (qpair_call HI cfg P NO t ord TS a x u v Hx I)).
  unfold call_q. destruct (dropped cfg P ord a x) eqn:Dx.
  2:{ rewrite (sumR_ext _ (fun _ => 0)), sumR_const; [lra|]. intros uv _. ring. }
  destruct x as [A B l i j|A B l i j]; [discriminate|]. cbn [dropped] in Dx. apply andb_prop in Dx as [_ Dx]. apply Rltb_true in Dx. cbn [call_pairs].
  eapply Rle_trans; [|left; exact Dx]. rewrite <- prod_length, Rmult_comm, <- sumR_const. apply sumR_le. intros [u v] I. apply in_prod_iff in I as [I1 I2]. cbn [fst snd]. pose proof (block_bound HI cfg P NO IP t ord TS a Ha A B l i j u v Hok I1 I2). lra.
Qed.
Lemma hrg_loss radii angles T Rd omp_max team (HI : hrg_input radii angles Rd omp_max team) (HT : 1 / IZR (2 ^ 52) < T) t ord (TS : htree_spec radii angles T Rd t ord) :
  sumR (map (fun uv => @hpe radii angles T Rd (fst uv) (snd uv) - @hqpair radii angles T Rd t ord (fst uv) (snd uv)) (all_pairs (length radii))) <= 1 / 1000000 * INR (length (hplan Rd t (N.to_nat (h_levels t - 1)) 0%N 0%N 0%N)).
Proof.
  apply (loss_calls _ (hcall_pairs radii angles Rd ord) (length radii) (fun u v => @hpe radii angles T Rd u v - @hqpair radii angles T Rd t ord u v)); [apply (hcalls_perm HI t ord TS)|intros u v; now rewrite hpe_sym, hqpair_sym|].
  intros x Hx. pose proof (hplan0_ok radii angles T Rd (use_di HI) t ord TS x Hx) as Hok.
  rewrite (sumR_ext _ (fun uv => @hpe radii angles T Rd (fst uv) (snd uv) - @hcall_q radii angles T Rd t ord x (fst uv) (snd uv))) by (intros [u v] I; cbn [fst snd]; now rewrite (hqpair_call HI t ord TS x u v Hx I)).
  unfold hcall_q. destruct (hdropped t ord x) eqn:Dx.
  2:{ rewrite (sumR_ext _ (fun _ => 0)), sumR_const; [lra|]. intros uv _. ring. }
  destruct x as [A B l i j|A B l i j]; [discriminate|]. cbn [hdropped] in Dx. apply andb_prop in Dx as [_ Dx]. apply Rltb_true in Dx. cbn [hcall_pairs].
  eapply Rle_trans; [|left; exact Dx]. rewrite <- prod_length, Rmult_comm, <- sumR_const. apply sumR_le. intros [u v] I. apply in_prod_iff in I as [I1 I2]. cbn [fst snd].
  destruct (hblock HI HT t ord TS A B l i j Hok) as (F & f1 & f2 & cb & _ & _ & _ & BM & _ & _ & _ & EV). rewrite BM. pose proof (EV u v I1 I2). lra.
Qed.
Lemma close_p k n out p p' e : (forall u v, In (u, v) (all_pairs n) -> p u v = p' u v) -> close_to_documented k n out p e -> close_to_documented k n out p' e.
Proof.
  intros E [H1 H2].
  assert (EX : forall L f, (forall u v, In (u, v) L -> p u v = p' u v) -> indep_mean L p f = indep_mean L p' f).
  { induction L as [|[u v] L IH]; intros f H; [reflexivity|]. cbn [indep_mean fst snd]. rewrite (H u v (or_introl eq_refl)), !IH by (intros; apply H; now right). reflexivity. }
  split.
  - intros f Hf. destruct (H1 f Hf) as (m & A & B). exists m. split; [exact A|]. now rewrite <- (EX _ f E).
  - destruct H2 as (m & A & B). exists m. split; [exact A|]. rewrite <- (sumR_ext (fun uv => p (fst uv) (snd uv)) (fun uv => p' (fst uv) (snd uv))); [exact B|]. intros [u v] I. now apply E.
Qed.

(** ** Theorems *)
(** GIRGs for finite alpha: the distance in total variation is at most 10^-6 times the bound of C67 on the number of blocks *)
Theorem C80_girg : forall cfg d ws ps seed omp_max team a lo hi, cost_input d ws seed omp_max team -> Mean.points_in (length ws) d ps -> (0 <= seed)%Z -> 0 <= a -> is_smallest ws lo -> is_largest ws hi ->
  forall p, (forall u v, (u < v < length ws)%nat -> edge_probability (N.of_nat d) ws ps a u v (p u v)) ->
  forall out, possible_results cfg ws ps a seed omp_max team out ->
    close_to_documented omp_max (length ws) out p (1 / 1000000 * (6 ^ d * (6 + 2 * (layers_max lo hi) ^ 2 + 4 * density ws lo))).
Proof.
  intros cfg d ws ps seed omp_max team a lo hi CI Hps Hs Ha HLo HHi p Hp out Hout. pose proof (cost_girg _ _ _ _ _ _ CI Hps) as HI.
  destruct (girg_law cfg _ ws ps seed omp_max team a HI Hs Ha) as (P & t & ord & q & NO & IP & TS & _ & -> & Hq & LAW).
  apply (close_p _ _ _ (@pe (N.of_nat d) ws ps cfg P a)).
  { intros u v I. apply all_pairs_In in I. eapply edge_probability_unique; [|apply Hp; exact I]. apply (pe_probability _ _ _ seed omp_max team); try assumption; lia. }
  apply close_intro with (q := @qpair (N.of_nat d) ws ps cfg P ord a).
  - exact (LAW out Hout).
  - intros u v I. apply all_pairs_In in I. pose proof (@pe_range (N.of_nat d) ws ps cfg P IP a u v ltac:(lia) ltac:(lia)). destruct (Hq u v ltac:(lia) ltac:(lia) ltac:(lia)) as [->|[-> _]]; lra.
  - eapply Rle_trans; [apply (girg_loss _ ws ps seed omp_max team HI cfg P NO IP t ord TS a Ha)|]. apply Rmult_le_compat_l; [lra|]. exact (plan_length cfg d ws seed omp_max team a lo hi P CI HLo HHi NO).
  - intros tapes L. destruct (C02_simple_graph _ _ _ _ _ _ _ _ _ HI (tape_good _) _ (Hout tapes L)) as (edges & E & ND & SL & AN). exists edges. split; [exact E|]. split; [exact ND|]. split; [|exact AN].
    intros u v I. destruct (C03_endpoints_are_node_indices _ _ _ _ _ _ _ _ _ HI (tape_good _) _ (Hout tapes L)) as (edges' & E' & R). rewrite E in E'. injection E' as <-. destruct (R u v I) as [R1 R2]. repeat split; auto. intros ->. exact (SL v I).
Qed.
(** hyperbolic random graphs for T > 0 *)
Theorem C80_hrg : forall nd part radii angles T Rd seed omp_max team, hrg_input radii angles Rd omp_max team -> is_partition task_eq part -> returns Rd omp_max team ->
  1 / IZR (2 ^ 52) < T -> 2 * T * ln 99 <= Rd ->
  forall p, (forall u v, (u < v < length radii)%nat -> hyp_probability radii angles T Rd u v (p u v)) ->
  forall k out, (15 * omp_max <= k)%nat -> possible_hrgs nd part radii angles T Rd seed omp_max team k out ->
    close_to_documented k (length radii) out p (1 / 1000000 * (480 * exp (Rd / 2))).
Proof.
  intros nd part radii angles T Rd seed omp_max team HI HP HRet HT HR p Hp k out Hk Hout.
  destruct (hrg_law nd part radii angles T Rd seed omp_max team HI HP HT HR HRet) as (t & ord & q & TS & _ & -> & Hq & LAW).
  apply (close_p _ _ _ (@hpe radii angles T Rd)).
  { intros u v I. apply all_pairs_In in I. eapply hyp_probability_unique; [|apply Hp; exact I]. apply hpe_probability. }
  apply close_intro with (q := @hqpair radii angles T Rd t ord).
  - exact (LAW k Hk out Hout).
  - intros u v I. apply all_pairs_In in I. pose proof (@hpe_range radii angles T Rd u v). destruct (Hq u v ltac:(lia) ltac:(lia) ltac:(lia)) as [->|[-> _]]; lra.
  - eapply Rle_trans; [apply (hrg_loss radii angles T Rd omp_max team HI HT t ord TS)|]. apply Rmult_le_compat_l; [lra|]. exact (hplan_length HI t ord TS).
  - intros tapes L. destruct (C37_simple_graph _ _ _ _ _ _ _ _ _ _ HI (tape_hgood tapes) HP _ (Hout tapes L)) as (edges & E & ND & RG & SL & AN). exists edges. split; [exact E|]. split; [exact ND|]. split; [|exact AN].
    intros u v I. destruct (RG u v I) as [R1 R2]. repeat split; auto. intros ->. exact (SL v I).
Qed.

(** ** Non-vacuity *)
(** the documented probabilities exist for every input, so do the runs *)
Example C80_girg_input : cost_input 2 [1; 3] 12 4 4 /\ is_smallest [1; 3] 1 /\ is_largest [1; 3] 3 /\ Mean.points_in 2 2 [[0; 0]; [1 / 2; 1 / 4]] /\
  (exists p : nat -> nat -> R, forall u v, (u < v < 2)%nat -> edge_probability 2 [1; 3] [[0; 0]; [1 / 2; 1 / 4]] 2 u v (p u v)) /\
  (forall cfg, exists out, possible_results cfg [1; 3] [[0; 0]; [1 / 2; 1 / 4]] 2 12 4 4 out).
Proof.
  assert (CI : cost_input 2 [1; 3] 12 4 4) by apply C70_inputs.
  assert (PI2 : Mean.points_in (length [1; 3]) 2 [[0; 0]; [1 / 2; 1 / 4]]).
  { split; [reflexivity|]. repeat (apply List.Forall_cons; [split; [reflexivity|repeat (apply List.Forall_cons; [lra|]); apply List.Forall_nil]|]). apply List.Forall_nil. }
  pose proof (cost_girg _ _ _ _ _ _ CI PI2) as HI.
  split; [exact CI|]. split; [apply C70_inputs|]. split; [apply C70_inputs|]. split; [exact PI2|]. split.
  - destruct (use_num HI) as (P & NO & IP). exists (@pe 2 [1; 3] [[0; 0]; [1 / 2; 1 / 4]] {| use_bmi2 := false; gnuc := false; ndebug := true |} P 2). intros u v Huv. apply (pe_probability _ _ _ 12%Z 4%nat 4%nat); try exact HI; try exact IP; try lra; cbn [length]; lia.
  - intros cfg. exact (proj1 (C08_law cfg _ _ _ 12%Z 4%nat 4%nat 2 HI ltac:(lia) ltac:(lra))).
Qed.
(** Rd = 6: the distance is at most 480 exp(3) 10^-6 < 0.01 *)
Theorem C80_hrg_example : forall nd k out, (30 <= k)%nat -> possible_hrgs nd ex_part [3; 3] [0; PI] (1 / 2) 6 7 2 2 k out ->
  close_to_documented k 2 out (fun _ _ => 1 / 2) (1 / 1000000 * (480 * exp (6 / 2))).
Proof.
  intros nd k out Hk Hout. assert (P : 3 < PI) by (pose proof PI2_3_2; lra).
  assert (HI : hrg_input [3; 3] [0; PI] 6 2 2).
  { constructor; try (cbn; lia); try lra; try (split; [apply N.leb_le|apply N.leb_le]; reflexivity); repeat (apply List.Forall_cons; [lra|]); apply List.Forall_nil. }
  assert (H52 : 1 / IZR (2 ^ 52) < 1 / 2). { unfold Rdiv. rewrite !Rmult_1_l. apply Rinv_lt_contravar; [apply Rmult_lt_0_compat; apply IZR_lt; reflexivity|apply IZR_lt; reflexivity]. }
  pose proof ln99_le as L99.
  refine (C80_hrg nd ex_part [3; 3] [0; PI] (1 / 2) 6 7 2 2 HI ex_part_ok ex_hrg_returns H52 ltac:(lra) (fun _ _ => 1 / 2) _ k out ltac:(lia) Hout).
  intros u v Huv. cbn [length] in Huv. assert (u = 0%nat) by lia. assert (v = 1%nat) by lia. subst u v. exact ex_half.
Qed.

Print Assumptions C80_girg.
Print Assumptions C80_hrg.
