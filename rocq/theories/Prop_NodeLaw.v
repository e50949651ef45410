(** Property C84: the expected degree of every node for given points. *)
From Coq Require Import Arith NArith ZArith List Bool Reals Permutation Lia Lra Psatz.
From Flocq Require Import Core.
From Coquelicot Require Import Coquelicot.
From Verif Require Import Base Sched Bits_Proofs Coord_Model Coord_Proofs Coord_Geo Tree_Model Tree_Proofs Tree_Build Tree_Plan Tree_Run Girg_Model Girg_Num Prop_Girg
  Mean Prop_Mean Cost_Touch GirgCost_Count Prop_Cost Prop_Work Prob_Spec Prob Prob_Events Prob_Girg Prob_Law Prop_Prob Draws_Law Draws_Bound Draws_Mean
  Hyp_Model Hyp_Math Hyp_Angle Hyp_Levels Hyp_Build Hyp_Run Prop_Hyp Prob_Hrg Prob_HrgLaw Prop_ProbHrg Prop_Draws HypDraws_Bound Prop_HypDraws Law_Any Prop_Loss Prop_EndDegree Prop_NodeDegree.
Import ListNotations.
Local Open Scope R_scope.

(** ** Specification *)
(** over k tapes of independent uniform random numbers the mean degree of node x in the returned graphs is s up to the lost edges e, and never above s *)
Definition mean_degree_is (k n : nat) (out : list tape -> option (list (nat * nat))) (x : nat) (s e : R) : Prop :=
  exists m, expects_n k (fun tapes => node_degree n (out tapes) x) m /\ s - e <= m <= s.
(** the same for all nodes together: the sum of the deficits is at most 2 e *)
Definition total_deficit (k n : nat) (out : list tape -> option (list (nat * nat))) (s : nat -> R) (e : R) : Prop :=
  exists m : nat -> R, (forall x, (x < n)%nat -> expects_n k (fun tapes => node_degree n (out tapes) x) (m x) /\ m x <= s x) /\ sumR (map (fun x => s x - m x) (seq 0 n)) <= 2 * e.

(** ** Proofs *)
Lemma degree_mean k n out q x :
  (forall phi, expects_n k (fun tapes => match out tapes with
      | Some edges => prodR (all_pairs n) (fun uv => phi (fst uv) (snd uv) (joinedb edges (fst uv) (snd uv)))
      | None => 0 end)
    (prodR (all_pairs n) (fun uv => q (fst uv) (snd uv) * phi (fst uv) (snd uv) true + (1 - q (fst uv) (snd uv)) * phi (fst uv) (snd uv) false))) ->
  (forall tapes, length tapes = k -> exists edges, out tapes = Some edges /\ forall u, ~ In (u, u) edges) -> (x < n)%nat ->
  expects_n k (fun tapes => node_degree n (out tapes) x) (sumR (map (fun uv => if inc x uv then q (fst uv) (snd uv) else 0) (all_pairs n))).
Proof.
  intros LAW SG Hx. pose proof (any_law k n out q LAW (fun G => 0 + sumR (map (fun uv => if inc x uv then 1 else 0) G))) as H. rewrite indep_mean_weight, Rplus_0_l in H.
  rewrite (sumR_ext _ (fun uv => if inc x uv then q (fst uv) (snd uv) else 0)) in H by (intros [u v] _; cbn [fst snd]; destruct (inc x (u, v)); ring).
  eapply expects_n_ext; [|exact H]. intros tapes L. cbv beta. destruct (SG tapes L) as (edges & -> & SL). cbn [node_degree]. rewrite (degree_pairs n edges x Hx SL). ring.
Qed.
Lemma degree_intro k n out p q e :
  (forall phi, expects_n k (fun tapes => match out tapes with
      | Some edges => prodR (all_pairs n) (fun uv => phi (fst uv) (snd uv) (joinedb edges (fst uv) (snd uv)))
      | None => 0 end)
    (prodR (all_pairs n) (fun uv => q (fst uv) (snd uv) * phi (fst uv) (snd uv) true + (1 - q (fst uv) (snd uv)) * phi (fst uv) (snd uv) false))) ->
  (forall u v, In (u, v) (all_pairs n) -> q u v <= p u v) -> (forall u v, (u < v < n)%nat -> p v u = p u v) ->
  sumR (map (fun uv => p (fst uv) (snd uv) - q (fst uv) (snd uv)) (all_pairs n)) <= e ->
  (forall tapes, length tapes = k -> exists edges, out tapes = Some edges /\ forall u, ~ In (u, u) edges) ->
  (forall x, (x < n)%nat -> mean_degree_is k n out x (over_others n x (fun u => p u x)) e) /\ total_deficit k n out (fun x => over_others n x (fun u => p u x)) e.
Proof.
  intros LAW HQ Sy HE SG. set (d := fun uv : nat * nat => p (fst uv) (snd uv) - q (fst uv) (snd uv)) in *.
  set (m := fun x => sumR (map (fun uv => if inc x uv then q (fst uv) (snd uv) else 0) (all_pairs n))).
  assert (D0 : forall uv, In uv (all_pairs n) -> 0 <= d uv) by (intros [u v] I; unfold d; cbn [fst snd]; pose proof (HQ u v I); lra).
  assert (EX : forall x, (x < n)%nat -> over_others n x (fun u => p u x) = m x + sumR (map (fun uv => if inc x uv then d uv else 0) (all_pairs n))).
  { intros x Hx. pose proof (row_sum p x n Sy) as RS. rewrite (proj2 (Nat.ltb_lt x n) Hx) in RS. rewrite <- RS. unfold m. rewrite <- (Draws_Bound.sumR_plus (fun uv => if inc x uv then q (fst uv) (snd uv) else 0)). apply sumR_ext. intros uv _. unfold d. destruct (inc x uv); ring. }
  assert (N0 : forall x, 0 <= sumR (map (fun uv => if inc x uv then d uv else 0) (all_pairs n))).
  { intros x. apply sumR_nonneg. intros uv I. pose proof (D0 uv I). destruct (inc x uv); lra. }
  split.
  - intros x Hx. exists (m x). split; [now apply degree_mean|]. rewrite (EX x Hx). pose proof (N0 x).
    assert (sumR (map (fun uv => if inc x uv then d uv else 0) (all_pairs n)) <= e). { eapply Rle_trans; [|exact HE]. apply sumR_le. intros uv I. pose proof (D0 uv I). destruct (inc x uv); lra. } lra.
  - exists m. split.
    + intros x Hx. split; [now apply degree_mean|]. rewrite (EX x Hx). pose proof (N0 x). lra.
    + rewrite (sumR_ext _ (fun x => sumR (map (fun uv => if inc x uv then d uv else 0) (all_pairs n)))) by (intros x Hx; apply in_seq in Hx; rewrite EX by lia; ring).
      assert (SW : forall L, (forall uv, In uv L -> In uv (all_pairs n)) -> sumR (map (fun x => sumR (map (fun uv => if inc x uv then d uv else 0) L)) (seq 0 n)) = 2 * sumR (map d L)).
      { induction L as [|uv L IH]; intros HL. { rewrite sumR_zero by reflexivity. unfold sumR. cbn. ring. }
        cbn [map]. transitivity (sumR (map (fun x => if inc x uv then d uv else 0) (seq 0 n)) + sumR (map (fun x => sumR (map (fun uv => if inc x uv then d uv else 0) L)) (seq 0 n))).
        - rewrite <- (Draws_Bound.sumR_plus (fun x => if inc x uv then d uv else 0)). apply sumR_ext. intros x _. reflexivity.
        - rewrite IH by (intros w Hw; apply HL; now right). destruct uv as [u v]. pose proof (HL (u, v) (or_introl eq_refl)) as I. apply all_pairs_In in I.
          assert (E : sumR (map (fun x => if inc x (u, v) then d (u, v) else 0) (seq 0 n)) = d (u, v) + d (u, v)).
          { transitivity (sumR (map (fun x => if (x =? u)%nat then d (u, v) else 0) (seq 0 n)) + sumR (map (fun x => if (x =? v)%nat then d (u, v) else 0) (seq 0 n))); [|rewrite !sum_ind by lia; reflexivity]. rewrite <- (Draws_Bound.sumR_plus (fun x => if (x =? u)%nat then d (u, v) else 0)). apply sumR_ext. intros x _. unfold inc. cbn [fst snd]. rewrite !(Nat.eqb_sym x).
            destruct (Nat.eqb_spec u x), (Nat.eqb_spec v x); cbn [orb]; try lia; ring. }
          rewrite E. unfold sumR. cbn [fold_right]. ring. }
      rewrite SW by auto. lra.
Qed.

(** ** Theorems *)
(** GIRGs with finite alpha *)
Theorem C84_girg : forall cfg d ws ps seed omp_max team a lo hi, cost_input d ws seed omp_max team -> Mean.points_in (length ws) d ps -> (0 <= seed)%Z -> 0 <= a -> is_smallest ws lo -> is_largest ws hi ->
  forall p, (forall u v, (u < length ws)%nat -> (v < length ws)%nat -> u <> v -> edge_probability (N.of_nat d) ws ps a u v (p u v)) ->
  forall out, possible_results cfg ws ps a seed omp_max team out ->
    (forall x, (x < length ws)%nat -> mean_degree_is omp_max (length ws) out x (over_others (length ws) x (fun u => p u x)) (lost_edges d ws lo hi)) /\
    total_deficit omp_max (length ws) out (fun x => over_others (length ws) x (fun u => p u x)) (lost_edges d ws lo hi).
Proof.
  intros cfg d ws ps seed omp_max team a lo hi CI Hps Hs Ha HLo HHi p Hp out Hout. pose proof (cost_girg _ _ _ _ _ _ CI Hps) as HI.
  destruct (girg_law cfg _ ws ps seed omp_max team a HI Hs Ha) as (P & t & ord & q & NO & IP & TS & _ & -> & Hq & LAW).
  assert (EP : forall u v, (u < length ws)%nat -> (v < length ws)%nat -> u <> v -> p u v = @pe (N.of_nat d) ws ps cfg P a u v).
  { intros u v Hu Hv N. eapply edge_probability_unique; [apply Hp; assumption|]. apply (pe_probability _ _ _ seed omp_max team); try assumption; lia. }
  apply degree_intro with (q := @qpair (N.of_nat d) ws ps cfg P ord a).
  - exact (LAW out Hout).
  - intros u v I. apply all_pairs_In in I. rewrite EP by lia. pose proof (@pe_range (N.of_nat d) ws ps cfg P IP a u v ltac:(lia) ltac:(lia)). destruct (Hq u v ltac:(lia) ltac:(lia) ltac:(lia)) as [->|[-> _]]; lra.
  - intros u v H. rewrite !EP by lia. apply pe_sym.
  - rewrite (sumR_ext _ (fun uv => @pe (N.of_nat d) ws ps cfg P a (fst uv) (snd uv) - @qpair (N.of_nat d) ws ps cfg P ord a (fst uv) (snd uv))) by (intros [u v] I; apply all_pairs_In in I; cbn [fst snd]; rewrite EP by lia; reflexivity).
    eapply Rle_trans; [apply (girg_loss _ ws ps seed omp_max team HI cfg P NO IP t ord TS a Ha)|]. apply Rmult_le_compat_l; [lra|]. exact (plan_length cfg d ws seed omp_max team a lo hi P CI HLo HHi NO).
  - intros tapes L. destruct (C02_simple_graph _ _ _ _ _ _ _ _ _ HI (tape_good _) _ (Hout tapes L)) as (edges & E & ND & SL & AN). exists edges. split; [exact E|exact SL].
Qed.
(** hyperbolic random graphs with T > 0 *)
Theorem C84_hrg : forall nd part radii angles T Rd seed omp_max team, hrg_input radii angles Rd omp_max team -> is_partition task_eq part -> returns Rd omp_max team ->
  1 / IZR (2 ^ 52) < T -> 2 * T * ln 99 <= Rd ->
  forall p, (forall u v, (u < length radii)%nat -> (v < length radii)%nat -> u <> v -> hyp_probability radii angles T Rd u v (p u v)) ->
  forall k out, (15 * omp_max <= k)%nat -> possible_hrgs nd part radii angles T Rd seed omp_max team k out ->
    (forall x, (x < length radii)%nat -> mean_degree_is k (length radii) out x (over_others (length radii) x (fun u => p u x)) (1 / 1000000 * (480 * exp (Rd / 2)))) /\
    total_deficit k (length radii) out (fun x => over_others (length radii) x (fun u => p u x)) (1 / 1000000 * (480 * exp (Rd / 2))).
Proof.
  intros nd part radii angles T Rd seed omp_max team HI HP HRet HT HR p Hp k out Hk Hout.
  destruct (hrg_law nd part radii angles T Rd seed omp_max team HI HP HT HR HRet) as (t & ord & q & TS & _ & -> & Hq & LAW).
  assert (EP : forall u v, (u < length radii)%nat -> (v < length radii)%nat -> u <> v -> p u v = @hpe radii angles T Rd u v).
  { intros u v Hu Hv N. eapply hyp_probability_unique; [apply Hp; assumption|]. apply hpe_probability. }
  apply degree_intro with (q := @hqpair radii angles T Rd t ord).
  - exact (LAW k Hk out Hout).
  - intros u v I. apply all_pairs_In in I. rewrite EP by lia. pose proof (@hpe_range radii angles T Rd u v). destruct (Hq u v ltac:(lia) ltac:(lia) ltac:(lia)) as [->|[-> _]]; lra.
  - intros u v H. rewrite !EP by lia. apply hpe_sym.
  - rewrite (sumR_ext _ (fun uv => @hpe radii angles T Rd (fst uv) (snd uv) - @hqpair radii angles T Rd t ord (fst uv) (snd uv))) by (intros [u v] I; apply all_pairs_In in I; cbn [fst snd]; rewrite EP by lia; reflexivity).
    eapply Rle_trans; [apply (hrg_loss radii angles T Rd omp_max team HI HT t ord TS)|]. apply Rmult_le_compat_l; [lra|]. exact (hplan_length HI t ord TS).
  - intros tapes L. destruct (C37_simple_graph _ _ _ _ _ _ _ _ _ _ HI (tape_hgood tapes) HP _ (Hout tapes L)) as (edges & E & ND & RG & SL & AN). exists edges. split; [exact E|exact SL].
Qed.

(** ** Non-vacuity *)
(** two points that are connected with probability 1/2: the mean degree of both is 1/2 up to 480 exp(3) 10^-6 < 0.01 *)
Theorem C84_hrg_example : forall nd k out, (30 <= k)%nat -> possible_hrgs nd ex_part [3; 3] [0; PI] (1 / 2) 6 7 2 2 k out ->
  forall x, (x < 2)%nat -> mean_degree_is k 2 out x (1 / 2) (1 / 1000000 * (480 * exp (6 / 2))).
Proof.
  intros nd k out Hk Hout x Hx. assert (P : 3 < PI) by (pose proof PI2_3_2; lra).
  assert (HI : hrg_input [3; 3] [0; PI] 6 2 2).
  { constructor; try (cbn; lia); try lra; try (split; [apply N.leb_le|apply N.leb_le]; reflexivity); repeat (apply List.Forall_cons; [lra|]); apply List.Forall_nil. }
  assert (H52 : 1 / IZR (2 ^ 52) < 1 / 2). { unfold Rdiv. rewrite !Rmult_1_l. apply Rinv_lt_contravar; [apply Rmult_lt_0_compat; apply IZR_lt; reflexivity|apply IZR_lt; reflexivity]. }
  pose proof ln99_le as L99.
  assert (H01 : @hpe [3; 3] [0; PI] (1 / 2) 6 0 1 = 1 / 2) by (eapply hyp_probability_unique; [apply hpe_probability|exact ex_half]).
  destruct (C84_hrg nd ex_part [3; 3] [0; PI] (1 / 2) 6 7 2 2 HI ex_part_ok ex_hrg_returns H52 ltac:(lra) (fun _ _ => 1 / 2)) with (k := k) (out := out) as [M _]; [|lia|exact Hout|].
  - intros u v Hu Hv N. cbn [length] in Hu, Hv. destruct u as [|[|u]], v as [|[|v]]; try lia; [exact ex_half|]. assert (Q : hyp_probability [3; 3] [0; PI] (1 / 2) 6 1 0 (@hpe [3; 3] [0; PI] (1 / 2) 6 1 0)) by apply hpe_probability. rewrite hpe_sym, H01 in Q. exact Q.
  - specialize (M x Hx). cbn [length] in M. replace (over_others 2 x (fun _ => 1 / 2)) with (1 / 2) in M; [exact M|]. destruct x as [|[|x]]; [| |lia]; unfold over_others, sumR; cbn; ring.
Qed.
(** for every valid input the documented probabilities exist, and so do the runs *)
Example C84_girg_input : cost_input 2 [1; 3] 12 4 4 /\ is_smallest [1; 3] 1 /\ is_largest [1; 3] 3 /\ Mean.points_in 2 2 [[0; 0]; [1 / 2; 1 / 4]] /\
  (exists p : nat -> nat -> R, forall u v, (u < 2)%nat -> (v < 2)%nat -> u <> v -> edge_probability 2 [1; 3] [[0; 0]; [1 / 2; 1 / 4]] 2 u v (p u v)) /\
  (forall cfg, exists out, possible_results cfg [1; 3] [[0; 0]; [1 / 2; 1 / 4]] 2 12 4 4 out).
Proof.
  destruct C80_girg_input as (CI & A & B & PI2 & _ & EX). split; [exact CI|]. split; [exact A|]. split; [exact B|]. split; [exact PI2|]. split; [|exact EX].
  pose proof (cost_girg _ _ _ _ _ _ CI PI2) as HI. destruct (use_num HI) as (P & NO & IP). exists (@pe 2 [1; 3] [[0; 0]; [1 / 2; 1 / 4]] {| use_bmi2 := false; gnuc := false; ndebug := true |} P 2). intros u v Hu Hv N. apply (pe_probability _ _ _ 12%Z 4%nat 4%nat); try exact HI; try exact IP; try lra; cbn [length]; lia.
Qed.

Print Assumptions C84_girg. Print Assumptions C84_hrg. Print Assumptions C84_hrg_example.
