(** Property C47: the law of the edges of a hyperbolic random graph for T > 0, in exact real arithmetic with ideal randomness (Prob_Spec.v: the engines of the threads
    and tasks draw from independent sequences of independent uniform numbers). *)
From Coq Require Import Arith NArith ZArith List Bool Reals Lra Lia Permutation.
From Coquelicot Require Import Coquelicot.
From Flocq Require Import Core.
From Verif Require Import Base Sched Tree_Model Hyp_Model Hyp_Math Hyp_Build Hyp_Run Hyp_Levels Prop_Hyp Prob_Spec Prob Prob_Events Prob_Law Prob_Hrg Prob_HrgLaw Prop_Prob.
Import ListNotations.
Local Open Scope R_scope.

(** the connection probability of the model: 1/(1+exp((dist-R)/(2T))), with the hyperbolic distance *)
Definition hyp_probability (radii angles : list R) (T Rd : R) (u v : nat) (p : R) : Prop :=
  exists d, is_hyp_dist (nth u radii 0) (nth u angles 0) (nth v radii 0) (nth v angles 0) d /\ p = 1 / (1 + exp ((d - Rd) / (2 * T))).
Lemma hyp_probability_unique radii angles T Rd u v p p' : hyp_probability radii angles T Rd u v p -> hyp_probability radii angles T Rd u v p' -> p = p'.
Proof. intros (d & H & ->) (d' & H' & ->). apply hyp_dist_unique in H, H'. now subst. Qed.
Lemma hpe_probability radii angles T Rd u v : hyp_probability radii angles T Rd u v (@hpe radii angles T Rd u v).
Proof. eexists. split; [apply hyp_dist_exists|]. reflexivity. Qed.

(** what a caller may observe: [out] gives a possible result for all values of the draws (whatever the schedule of the threads) *)
Definition possible_hrgs (nd : bool) (part : list (N * N) -> list (N * N)) (radii angles : list R) (T Rd : R) (seed : Z) (omp_max team k : nat) (out : list tape -> option (list (nat * nat))) : Prop :=
  forall tapes, length tapes = k -> hrg_outcome nd part (tape_hrng tapes) radii angles T Rd seed omp_max team (out tapes).

(** The pairs are decided independently, each with its own probability q; q is the connection probability, except for pairs with a probability below 10^-6, whose blocks
    the code may drop.  [15 * omp_max] independent sequences suffice for the engines of all threads and tasks. *)
Theorem C47_law : forall nd part radii angles T Rd seed omp_max team,
  hrg_input radii angles Rd omp_max team -> is_partition task_eq part -> returns Rd omp_max team ->
  1 / IZR (2 ^ 52) < T (* smaller temperatures count as 0 *) -> 2 * T * ln 99 <= Rd (* otherwise the tables are wrong, see C41 *) ->
  (forall k, exists out, possible_hrgs nd part radii angles T Rd seed omp_max team k out) /\
  exists q : nat -> nat -> R,
    (forall u v, (u < length radii)%nat -> (v < length radii)%nat -> u <> v ->
       exists p, hyp_probability radii angles T Rd u v p /\ 0 < p < 1 /\ (q u v = p \/ (q u v = 0 /\ p < 1 / 1000000))) /\
    forall k, (15 * omp_max <= k)%nat -> forall out, possible_hrgs nd part radii angles T Rd seed omp_max team k out ->
      (* every product of functions of the single pairs has the product of the means as expected value *)
      (forall phi, expects_n k (fun tapes => match out tapes with
           | Some edges => prodR (all_pairs (length radii)) (fun uv => phi (fst uv) (snd uv) (joinedb edges (fst uv) (snd uv)))
           | None => 0 end)
         (prodR (all_pairs (length radii)) (fun uv => q (fst uv) (snd uv) * phi (fst uv) (snd uv) true + (1 - q (fst uv) (snd uv)) * phi (fst uv) (snd uv) false))) /\
      (* the probability of each graph H *)
      (forall H, probability_n k (fun tapes => is_graph (length radii) H (out tapes))
         (prodR (all_pairs (length radii)) (fun uv => if H (fst uv) (snd uv) then q (fst uv) (snd uv) else 1 - q (fst uv) (snd uv)))) /\
      (* the probability of each edge *)
      (forall u v, (u < v < length radii)%nat -> probability_n k (fun tapes => has_edge u v (out tapes)) (q u v)).
Proof.
  intros nd part radii angles T Rd seed omp_max team HI HP HRet HT HR.
  destruct (hrg_law nd part radii angles T Rd seed omp_max team HI HP HT HR HRet) as (t & ord & q & TS & HO & Eq & Hq & LAW). split.
  - intros k. destruct (hrg_runs nd part radii angles T Rd seed omp_max team HI HP HRet) as [out Hout]. exists out. intros tapes _. apply Hout.
  - exists q. split.
    + intros u v Hu Hv Hne. exists (@hpe radii angles T Rd u v). split; [apply hpe_probability|]. split; [apply hpe_range|now apply Hq].
    + intros k Hk out Hout. pose proof (LAW k Hk out Hout) as L. split; [exact L|]. split.
      * intros H. unfold probability_n. specialize (L (fun u v b => if Bool.eqb b (H u v) then 1 else 0)).
        replace (prodR _ _) with (prodR (all_pairs (length radii)) (fun uv => bern (fun u v b => if Bool.eqb b (H u v) then 1 else 0) (q (fst uv) (snd uv)) (fst uv) (snd uv))).
        { eapply expects_n_ext; [|exact L]. intros tapes Lt. cbn beta. unfold is_graph. destruct (out tapes); [|reflexivity]. now rewrite forallb_prod. }
        apply prodR_ext. intros [u v] _. unfold bern. cbn [fst snd]. destruct (H u v); cbn [Bool.eqb]; ring.
      * intros u v Huv. unfold probability_n. specialize (L (fun x y b => if (x =? u)%nat && (y =? v)%nat then (if b then 1 else 0) else 1)).
        replace (prodR _ _) with (q u v) in L.
        { eapply expects_n_ext; [|exact L]. intros tapes Lt. cbn beta. unfold has_edge. destruct (out tapes) as [edges|]; [|reflexivity].
          rewrite <- (prodR_one (length radii) u v (if joinedb edges u v then 1 else 0) Huv). apply prodR_ext. intros [x y] _. cbn [fst snd].
          destruct (Nat.eqb_spec x u) as [->|]; [|reflexivity]. destruct (Nat.eqb_spec y v) as [->|]; reflexivity. }
        rewrite <- (prodR_one (length radii) u v (q u v) Huv). apply prodR_ext. intros [x y] _. cbn [fst snd]. unfold bern.
        destruct (Nat.eqb_spec x u) as [->|]; cbn [andb]; [|ring]. destruct (Nat.eqb_spec y v) as [->|]; cbn [andb]; ring.
Qed.

(** ** Instance: two opposite nodes at radius 3 in a disc of radius 6 are at distance 6 and joined with probability 1/2 *)
Lemma ln99_le : ln 99 <= 5.
Proof.
  rewrite <- (ln_exp 5). left. apply ln_increasing; [lra|]. replace 5 with (1 + 1 + 1 + 1 + 1) by ring. rewrite !exp_plus. destruct e_bounds as [E1 _].
  set (e := exp 1) in *. assert (e * e > 7) by nra. assert (e * e * e > 19) by nra. assert (e * e * e * e > 50) by nra. nra.
Qed.
Lemma cosh_double x : cosh (x + x) = cosh x * cosh x - sinh x * sinh x * -1.
Proof. unfold cosh, sinh. rewrite Ropp_plus_distr, !exp_plus, exp_Ropp. assert (0 < exp x) by apply exp_pos. field. lra. Qed.
Example ex_half : hyp_probability [3; 3] [0; PI] (1 / 2) 6 0 1 (1 / 2).
Proof.
  exists 6. split.
  - split; [lra|]. cbn [nth]. replace (0 - PI) with (- PI) by ring. rewrite cos_neg, cos_PI. replace 6 with (3 + 3) by ring. apply cosh_double.
  - replace ((6 - 6) / (2 * (1 / 2))) with 0 by field. rewrite exp_0. lra.
Qed.
Theorem C47_example : forall nd k out, (30 <= k)%nat -> possible_hrgs nd ex_part [3; 3] [0; PI] (1 / 2) 6 7 2 2 k out -> probability_n k (fun tapes => has_edge 0 1 (out tapes)) (1 / 2).
Proof.
  intros nd k out Hk Hout. assert (P : 3 < PI) by (pose proof PI2_3_2; lra).
  assert (HI : hrg_input [3; 3] [0; PI] 6 2 2).
  { constructor; try (cbn; lia); try lra; try (split; [apply N.leb_le|apply N.leb_le]; reflexivity); repeat (apply List.Forall_cons; [lra|]); apply List.Forall_nil. }
  assert (H52 : 1 / IZR (2 ^ 52) < 1 / 2). { unfold Rdiv. rewrite !Rmult_1_l. apply Rinv_lt_contravar; [apply Rmult_lt_0_compat; apply IZR_lt; reflexivity|apply IZR_lt; reflexivity]. }
  pose proof ln99_le as L99.
  destruct (C47_law nd ex_part [3; 3] [0; PI] (1 / 2) 6 7 2 2 HI ex_part_ok ex_hrg_returns H52 ltac:(lra)) as [_ (q & Hq & L)].
  destruct (L k ltac:(lia) out Hout) as (_ & _ & L3). specialize (L3 0%nat 1%nat ltac:(cbn; lia)).
  destruct (Hq 0%nat 1%nat ltac:(cbn; lia) ltac:(cbn; lia) ltac:(lia)) as (p & Ep & Rp & C).
  assert (p = 1 / 2) by (eapply hyp_probability_unique; [exact Ep|exact ex_half]).
  subst p. destruct C as [C|[_ C]]; [rewrite C in L3; exact L3|lra].
Qed.

Print Assumptions C47_law.
Print Assumptions C47_example.
