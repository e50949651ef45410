(** Properties C43, C44, C45: the hyperbolic generator's inputs (radii, angles, disc radius), in exact real arithmetic. *)
From Coq Require Import Arith NArith ZArith List Bool Reals Lia Lra.
From Coquelicot Require Import Coquelicot.
From Verif Require Import Base Sched Tree_Model Tree_Run Sampling_Model Sampling_Proofs Prop_Sampling Prop_Girg Hyp_Model Hyp_Math Hyp_Angle Hyp_Levels Hyp_Build
  Prop_Hyp HypIn_Model.
Import ListNotations.
Local Open Scope R_scope.

(** ** C43 *)
(** the documented distribution function of the radii; the implementation draws cosh(alpha r) from [a, cosh(alpha R)) with a = 1 + 2^-52 *)
Definition radius_cdf (a alpha Rd x : R) : R := (cosh (alpha * x) - a) / (cosh (alpha * Rd) - a).

Lemma above_one_gt : 1 < above_one.
Proof. unfold above_one. assert (0 < / IZR (2 ^ 52)) by (apply Rinv_0_lt_compat, IZR_lt; reflexivity). lra. Qed.
Section Radius.
  Variables (alpha Rd : R).
  Hypotheses (Ha : 0 < alpha) (HC : above_one <= cosh (alpha * Rd)).
  Let C := cosh (alpha * Rd).
  Lemma uni_range u : 0 <= u < 1 -> above_one <= uni above_one C u <= C.
  Proof. intros Hu. fold C in HC. unfold uni. split; nra. Qed.
  Lemma radius_le_iff u x : 0 <= u < 1 -> 0 <= x -> (radius_of alpha Rd u <= x <-> uni above_one C u <= cosh (alpha * x)).
  Proof.
    intros Hu Hx. pose proof (uni_range u Hu) as U. pose proof above_one_gt as A. unfold radius_of. fold C.
    assert (E : acosh (uni above_one C u) * (1 / alpha) <= x <-> acosh (uni above_one C u) <= alpha * x).
    { split; intros H.
      - apply (Rmult_le_compat_l alpha) in H; [|lra]. replace (alpha * (acosh (uni above_one C u) * (1 / alpha))) with (acosh (uni above_one C u)) in H by (field; lra). exact H.
      - apply Rmult_le_reg_l with alpha; [lra|]. replace (alpha * (acosh (uni above_one C u) * (1 / alpha))) with (acosh (uni above_one C u)) by (field; lra). exact H. }
    rewrite E. assert (AX : 0 <= alpha * x) by (apply Rmult_le_pos; lra). pose proof (acosh_gt_iff (uni above_one C u) (alpha * x) ltac:(lra) AX) as G.
    split; intros H; apply Rnot_lt_le; intros L; [apply G in L|apply G in L]; lra.
  Qed.
  Lemma radius_range u : 0 <= Rd -> 0 <= u < 1 -> 0 < radius_of alpha Rd u <= Rd.
  Proof.
    intros HR Hu. pose proof (uni_range u Hu) as U. pose proof above_one_gt as A. split.
    - unfold radius_of. fold C. apply Rmult_lt_0_compat; [|apply Rdiv_lt_0_compat; lra]. rewrite <- acosh_1. apply acosh_lt; lra.
    - apply radius_le_iff; [exact Hu|exact HR|]. apply U.
  Qed.
  Lemma radius_law_iff u x : above_one < C -> 0 <= u < 1 -> 0 <= x -> (radius_of alpha Rd u <= x <-> u <= radius_cdf above_one alpha Rd x).
  Proof.
    intros HC' Hu Hx. rewrite radius_le_iff by assumption. unfold uni, radius_cdf. fold C. split; intros H.
    - apply Rmult_le_reg_r with (C - above_one); [lra|]. unfold Rdiv. rewrite Rmult_assoc, Rinv_l, Rmult_1_r by lra. lra.
    - apply (Rmult_le_compat_r (C - above_one)) in H; [|lra]. unfold Rdiv in H. rewrite Rmult_assoc, Rinv_l, Rmult_1_r in H by lra. lra.
  Qed.
End Radius.
(** P(r <= x) for one radius *)
Theorem C43_law : forall alpha Rd x, 0 < alpha -> above_one < cosh (alpha * Rd) -> 0 <= x -> above_one <= cosh (alpha * x) <= cosh (alpha * Rd) ->
  is_RInt (fun u => if Rle_dec (radius_of alpha Rd u) x then 1 else 0) 0 1 (radius_cdf above_one alpha Rd x).
Proof.
  intros alpha Rd x Ha HC Hx HX. apply (is_RInt_ext (fun u => if Rleb (radius_of alpha Rd u) x then 1 else 0)).
  { intros u _. unfold Rleb. destruct (Rle_dec _ _); reflexivity. }
  apply is_RInt_indicator_le.
  - unfold radius_cdf. split; [apply Rmult_le_pos; [lra|left; apply Rinv_0_lt_compat; lra]|].
    apply Rmult_le_reg_r with (cosh (alpha * Rd) - above_one); [lra|]. unfold Rdiv. rewrite Rmult_assoc, Rinv_l by lra. lra.
  - intros u Hu. rewrite Rleb_true. apply radius_law_iff; lra.
Qed.
(** the difference to the documented (cosh(alpha x) - 1)/(cosh(alpha R) - 1) is at most 2^-52 / (cosh(alpha R) - 1) *)
Theorem C43_law_bias : forall alpha Rd x, above_one < cosh (alpha * Rd) -> above_one <= cosh (alpha * x) <= cosh (alpha * Rd) ->
  0 <= radius_cdf 1 alpha Rd x - radius_cdf above_one alpha Rd x <= / IZR (2 ^ 52) / (cosh (alpha * Rd) - 1).
Proof.
  intros alpha Rd x HC HX. unfold radius_cdf. pose proof above_one_gt as A. set (C := cosh (alpha * Rd)) in *. set (c := cosh (alpha * x)) in *.
  assert (E : (c - 1) / (C - 1) - (c - above_one) / (C - above_one) = (above_one - 1) / (C - 1) * ((C - c) / (C - above_one))) by (field; lra).
  rewrite E. replace (/ IZR (2 ^ 52)) with (above_one - 1) by (unfold above_one; ring).
  assert (P1 : 0 < (above_one - 1) / (C - 1)) by (apply Rdiv_lt_0_compat; lra).
  assert (P2 : 0 <= (C - c) / (C - above_one) <= 1).
  { split; [apply Rmult_le_pos; [lra|left; apply Rinv_0_lt_compat; lra]|]. apply Rmult_le_reg_r with (C - above_one); [lra|].
    unfold Rdiv. rewrite Rmult_assoc, Rinv_l by lra. lra. }
  split; [apply Rmult_le_pos; lra|]. rewrite <- (Rmult_1_r ((above_one - 1) / (C - 1))) at 2. apply Rmult_le_compat_l; lra.
Qed.
Theorem C43_angle_law : forall x, 0 <= x <= 2 * PI -> is_RInt (fun u => if Rle_dec (angle_of u) x then 1 else 0) 0 1 (x / (2 * PI)).
Proof.
  intros x Hx. pose proof PI_RGT_0 as P. apply (is_RInt_ext (fun u => if Rleb (angle_of u) x then 1 else 0)).
  { intros u _. unfold Rleb. destruct (Rle_dec _ _); reflexivity. }
  assert (K : forall u, (u <= x / (2 * PI) <-> u * (2 * PI) <= x)).
  { intros u. split; intros H.
    - apply (Rmult_le_compat_r (2 * PI)) in H; [|lra]. unfold Rdiv in H. rewrite Rmult_assoc, Rinv_l, Rmult_1_r in H by lra. exact H.
    - apply Rmult_le_reg_r with (2 * PI); [lra|]. unfold Rdiv. rewrite Rmult_assoc, Rinv_l, Rmult_1_r by lra. exact H. }
  apply is_RInt_indicator_le.
  - split; [apply K; lra|]. apply Rmult_le_reg_r with (2 * PI); [lra|]. unfold Rdiv. rewrite Rmult_assoc, Rinv_l, Rmult_1_r by lra. lra.
  - intros u Hu. rewrite Rleb_true, K. unfold angle_of, uni. split; lra.
Qed.

(** the arguments for which sampling is defined *)
Record sample_args (n omp_max team : nat) (alpha Rd : R) (seed : Z) (parallel : bool) : Prop := {
  sa_n : (1 <= n)%nat; sa_n31 : (N.of_nat n + 9999 < 2 ^ 31)%N; sa_omp : (1 <= omp_max)%nat;
  sa_alpha : 0 < alpha; sa_R : 0 < Rd; sa_cosh : above_one <= cosh (alpha * Rd);
  sa_team : (1 <= team <= if parallel then Nat.min omp_max (N.to_nat ((N.of_nat n + 9999) / 10000)) else 1)%nat;
  sa_seed : (seed < 0 \/ seed + Z.of_nat team <= 2 ^ 31)%Z }.
Local Open Scope nat_scope.
(** the raw draws before the first value *)
Definition warm (n : nat) (omp_max : nat) (parallel : bool) : nat :=
  let threads := if parallel then Nat.min omp_max (N.to_nat ((N.of_nat n + 9999) / 10000)) else 1 in
  N.to_nat (N.max (N.of_nat n / N.of_nat threads / 5) 1000).
Lemma threads_pos n omp_max team alpha Rd seed parallel : sample_args n omp_max team alpha Rd seed parallel ->
  exists threads, hinput_threads parallel omp_max n = Some threads /\ threads <> 0 /\ team <= threads /\ warmup n threads = Some (warm n omp_max parallel).
Proof.
  intros [N1 N2 O _ _ _ T _]. unfold hinput_threads, warmup, warm. destruct parallel.
  - rewrite (proj2 (N.ltb_lt _ _) N2). eexists. split; [reflexivity|]. destruct (Nat.eqb_spec (Nat.min omp_max (N.to_nat ((N.of_nat n + 9999) / 10000))) 0) as [E|E]; [lia|].
    split; [exact E|]. split; [lia|reflexivity].
  - exists 1. split; [reflexivity|]. split; [lia|]. split; [lia|reflexivity].
Qed.
Lemma hsample_spec en Radii Angles n alpha Rd seed parallel omp_max team : sample_args n omp_max team alpha Rd seed parallel -> forall o,
  hsample_outcome en Radii Angles n alpha Rd seed parallel omp_max team o <->
  exists gens, gens_ok (he en) seed team gens /\
    o = Some (chunks (hsample_step (he en) Radii Angles alpha Rd) team n (map (Nat.iter (warm n omp_max parallel) (raw en)) gens)).
Proof.
  intros SA o. destruct (threads_pos _ _ _ _ _ _ _ SA) as (th & E1 & E2 & E3 & E4). unfold hsample_outcome. rewrite E1. cbn [obind]. rewrite E4. cbn [obind].
  assert (SD : seeds_defined seed team = true).
  { unfold seeds_defined. apply orb_true_iff. destruct (sa_seed _ _ _ _ _ _ _ SA) as [H|H]; [left; apply Z.ltb_lt; lia|right; apply Z.ltb_lt; lia]. }
  rewrite SD, (proj2 (Rleb_true _ _) (sa_cosh _ _ _ _ _ _ _ SA)). cbn [andb]. pose proof (sa_team _ _ _ _ _ _ _ SA) as HT. split.
  - intros [_ (gens & Hg & F)]. exists gens. split; [exact Hg|]. apply filled_iff in F; [exact F|lia|rewrite map_length; eapply gens_length; eauto].
  - intros (gens & Hg & ->). split; [lia|]. exists gens. split; [exact Hg|]. apply filled_iff; [lia|rewrite map_length; eapply gens_length; eauto|reflexivity].
Qed.
Lemma gens_exist rg seed team : exists gens, gens_ok rg seed team gens.
Proof. unfold gens_ok. destruct (0 <=? seed)%Z; [eauto|]. exists (map (rseed rg) (repeat 0%Z team)), (repeat 0%Z team). now rewrite repeat_length. Qed.
Lemma map_chunks {GT A B} (step : GT -> A * GT) (f : A -> B) (step' : GT -> B * GT) team n gens :
  (forall g, step' g = (f (fst (step g)), snd (step g))) -> map f (chunks step team n gens) = chunks step' team n gens.
Proof.
  intros H. unfold chunks. rewrite concat_map, map_map. f_equal. apply map_ext. intros bg. rewrite <- rows_map. apply rows_ext.
  intros g. rewrite H. destruct (step g). reflexivity.
Qed.
Lemma chunks_draws rg (f : R -> R) team n gens : chunks (fun g => (f (fst (u01 rg g)), snd (u01 rg g))) team n gens = map f (concat (thread_draws rg team n 1 gens)).
Proof.
  unfold chunks, thread_draws, draws. induction (combine _ _) as [|bg r IH]; cbn; [reflexivity|]. rewrite map_app, IH. f_equal.
  rewrite Nat.mul_1_r, <- (rows_map (u01 rg) f). apply rows_ext. intros g. now destruct (u01 rg g).
Qed.
Lemma thread_draws_range rg team n gens : good_rng rg -> forall u, In u (concat (thread_draws rg team n 1 gens)) -> (0 <= u < 1)%R.
Proof. intros GR u Hu. apply in_concat in Hu as (l & Hl & Hu). apply in_map_iff in Hl as (bg & <- & _). apply in_rows in Hu as (g' & ->). apply (gu01 _ GR). Qed.
Lemma Forall2_map_fun {A} (P : R -> A -> Prop) (f : R -> A) l : (forall u, In u l -> P u (f u)) -> Forall2 P l (map f l).
Proof. induction l as [|u l IH]; intros H; constructor; [apply H; now left|apply IH; intros; apply H; now right]. Qed.

(** sampleRadii returns n radii in (0,R], one uniform draw each, transformed by the inverse of the distribution function *)
Theorem C43_radii : forall en n alpha Rd seed parallel omp_max team, good_rng (he en) -> sample_args n omp_max team alpha Rd seed parallel ->
  (exists o, sampleRadii en n alpha Rd seed parallel omp_max team o) /\
  forall o, sampleRadii en n alpha Rd seed parallel omp_max team o ->
  exists rs us gens, o = Some rs /\ length rs = n /\ List.Forall (fun r => 0 < r <= Rd)%R rs /\
    gens_ok (he en) seed team gens /\ us = concat (thread_draws (he en) team n 1 (map (Nat.iter (warm n omp_max parallel) (raw en)) gens)) /\
    Forall2 (fun u r => forall x, 0 <= x -> above_one < cosh (alpha * Rd) -> (r <= x <-> u <= radius_cdf above_one alpha Rd x))%R us rs.
Proof.
  intros en n alpha Rd seed parallel omp_max team GR SA. pose proof (sa_team _ _ _ _ _ _ _ SA) as HT. split.
  - destruct (gens_exist (he en) seed team) as (gens & Hg). eexists. eexists. split; [apply (hsample_spec en true false _ _ _ _ _ _ _ SA); exists gens; split; [exact Hg|reflexivity]|reflexivity].
  - intros o (oo & Ho & ->). apply (hsample_spec en true false _ _ _ _ _ _ _ SA) in Ho as (gens & Hg & ->). cbn [obind].
    set (gs := map _ gens). rewrite (map_chunks _ fst (fun g => (radius_of alpha Rd (fst (u01 (he en) g)), snd (u01 (he en) g)))); cycle 1.
    { intros g. unfold hsample_step. destruct (u01 (he en) g). reflexivity. }
    assert (HL : length gs = team) by (unfold gs; rewrite map_length; eapply gens_length; eauto).
    pose proof (chunks_length (fun g => (radius_of alpha Rd (fst (u01 (he en) g)), snd (u01 (he en) g))) team n gs ltac:(lia) HL) as CL.
    rewrite chunks_draws in *. eexists. eexists. exists gens. split; [reflexivity|]. split; [exact CL|].
    pose proof (thread_draws_range (he en) team n gs GR) as U. destruct SA as [_ _ _ A1 A2 A3 _ _]. split; [|split; [exact Hg|split; [reflexivity|]]].
    + apply List.Forall_forall. intros r Hr. apply in_map_iff in Hr as (u & <- & Hu). apply radius_range; auto; lra.
    + apply Forall2_map_fun. intros u Hu x Hx HC. apply radius_law_iff; auto.
Qed.
(** sampleAngles returns n angles in [0, 2 pi), one uniform draw each *)
Theorem C43_angles : forall en n seed parallel omp_max team, good_rng (he en) -> sample_args n omp_max team 1 10 seed parallel ->
  (exists o, sampleAngles en n seed parallel omp_max team o) /\
  forall o, sampleAngles en n seed parallel omp_max team o ->
  exists phis us gens, o = Some phis /\ length phis = n /\ List.Forall (fun a => 0 <= a < 2 * PI)%R phis /\
    gens_ok (he en) seed team gens /\ us = concat (thread_draws (he en) team n 1 (map (Nat.iter (warm n omp_max parallel) (raw en)) gens)) /\
    Forall2 (fun u a => a = 2 * PI * u)%R us phis.
Proof.
  intros en n seed parallel omp_max team GR SA. pose proof (sa_team _ _ _ _ _ _ _ SA) as HT. pose proof PI_RGT_0 as PP. split.
  - destruct (gens_exist (he en) seed team) as (gens & Hg). eexists. eexists. split; [apply (hsample_spec en false true _ _ _ _ _ _ _ SA); exists gens; split; [exact Hg|reflexivity]|reflexivity].
  - intros o (oo & Ho & ->). apply (hsample_spec en false true _ _ _ _ _ _ _ SA) in Ho as (gens & Hg & ->). cbn [obind].
    set (gs := map _ gens). rewrite (map_chunks _ snd (fun g => (angle_of (fst (u01 (he en) g)), snd (u01 (he en) g)))); cycle 1.
    { intros g. unfold hsample_step. destruct (u01 (he en) g). reflexivity. }
    assert (HL : length gs = team) by (unfold gs; rewrite map_length; eapply gens_length; eauto).
    pose proof (chunks_length (fun g => (angle_of (fst (u01 (he en) g)), snd (u01 (he en) g))) team n gs ltac:(lia) HL) as CL.
    rewrite chunks_draws in *. eexists. eexists. exists gens. split; [reflexivity|]. split; [exact CL|].
    pose proof (thread_draws_range (he en) team n gs GR) as U. split; [|split; [exact Hg|split; [reflexivity|]]].
    + apply List.Forall_forall. intros r Hr. apply in_map_iff in Hr as (u & <- & Hu). specialize (U u Hu). unfold angle_of, uni. split; [|nra].
      rewrite Rminus_0_r, Rplus_0_r. apply Rmult_le_pos; lra.
    + apply Forall2_map_fun. intros u Hu. unfold angle_of, uni. ring.
Qed.
(** sampleRadiiAndAngles: both, in the ranges the edge generator needs; node i uses the draws 2i (angle) and 2i+1 (radius) of its thread, each draw once *)
Lemma concat_concat_map {A B} (f : A -> list B) ll : concat (concat (map (map f) ll)) = concat (map (fun l => concat (map f l)) ll).
Proof. induction ll as [|l ll IH]; cbn; [reflexivity|]. now rewrite concat_app, IH. Qed.
Lemma Forall2_map_snd {A B} (P : A -> B -> Prop) (f : A -> B) l : (forall u, In u l -> P u (f u)) -> Forall2 P l (map f l).
Proof. induction l as [|u l IH]; intros H; constructor; [apply H; now left|apply IH; intros; apply H; now right]. Qed.
Lemma rows_pairs {GT} (step : GT -> R * GT) k : forall g,
  rows step (k * 2) g = concat (map (fun p => [fst p; snd p]) (rows (fun g => let (a, g1) := step g in let (b, g2) := step g1 in ((a, b), g2)) k g)).
Proof.
  induction k as [|k IH]; intros g; [reflexivity|]. change (S k * 2) with (S (S (k * 2))). cbn [rows]. destruct (step g) as [a g1]. destruct (step g1) as [b g2]. cbn [map concat fst snd app]. now rewrite IH.
Qed.
Theorem C43_both : forall en n alpha Rd seed parallel omp_max team, good_rng (he en) -> sample_args n omp_max team alpha Rd seed parallel ->
  (exists o, sampleRadiiAndAngles en n alpha Rd seed parallel omp_max team o) /\
  forall o, sampleRadiiAndAngles en n alpha Rd seed parallel omp_max team o ->
  exists rs phis us gens, o = Some (rs, phis) /\ length rs = n /\ length phis = n /\
    List.Forall (fun r => 0 < r <= Rd)%R rs /\ List.Forall (fun a => 0 <= a < 2 * PI)%R phis /\
    gens_ok (he en) seed team gens /\
    (* us: the pairs of consecutive draws *)
    concat (map (fun p => [fst p; snd p]) us) = concat (thread_draws (he en) team n 2 (map (Nat.iter (warm n omp_max parallel) (raw en)) gens)) /\
    Forall2 (fun u a => a = 2 * PI * fst u)%R us phis /\
    Forall2 (fun u r => forall x, 0 <= x -> above_one < cosh (alpha * Rd) -> (r <= x <-> snd u <= radius_cdf above_one alpha Rd x))%R us rs.
Proof.
  intros en n alpha Rd seed parallel omp_max team GR SA. pose proof (sa_team _ _ _ _ _ _ _ SA) as HT. pose proof PI_RGT_0 as PP. split.
  - destruct (gens_exist (he en) seed team) as (gens & Hg). eexists. eexists. split; [apply (hsample_spec en true true _ _ _ _ _ _ _ SA); exists gens; split; [exact Hg|reflexivity]|reflexivity].
  - intros o (oo & Ho & ->). apply (hsample_spec en true true _ _ _ _ _ _ _ SA) in Ho as (gens & Hg & ->). cbn [obind].
    set (gs := map _ gens). assert (HL : length gs = team) by (unfold gs; rewrite map_length; eapply gens_length; eauto).
    pose proof (chunks_length (hsample_step (he en) true true alpha Rd) team n gs ltac:(lia) HL) as CL.
    set (pr := fun g : G (he en) => let (a, g1) := u01 (he en) g in let (b, g2) := u01 (he en) g1 in ((a, b), g2)).
    assert (EQ : chunks (hsample_step (he en) true true alpha Rd) team n gs = map (fun p => (radius_of alpha Rd (snd p), angle_of (fst p))) (chunks pr team n gs)).
    { symmetry. apply map_chunks. intros g. unfold hsample_step, pr. destruct (u01 (he en) g) as [a g1]. destruct (u01 (he en) g1). reflexivity. }
    assert (UR : forall p, In p (chunks pr team n gs) -> (0 <= snd p < 1)%R).
    { intros p Hp. apply in_chunks in Hp as (g & ->). unfold pr. destruct (u01 (he en) g) as [a g1]. pose proof (gu01 _ GR g1) as U2. destruct (u01 (he en) g1). exact U2. }
    eexists. eexists. exists (chunks pr team n gs), gens. split; [reflexivity|]. rewrite !map_length. split; [exact CL|]. split; [exact CL|]. destruct SA as [_ _ _ A1 A2 A3 _ _].
    assert (LAST2 : forall P Q S T U V : Prop, P -> Q -> S -> T -> U -> V -> P /\ Q /\ S /\ T /\ U /\ V) by tauto.
    apply LAST2; [| |exact Hg| | |]; cycle 2.
    { unfold chunks, thread_draws, draws, gs. rewrite concat_map, concat_concat_map, map_map. f_equal. apply map_ext. intros bg. symmetry. apply rows_pairs. }
    { rewrite EQ, map_map. apply Forall2_map_snd. intros u Hu. unfold angle_of, uni. cbn [snd]. ring. }
    { rewrite EQ, map_map. apply Forall2_map_snd. intros u Hu x Hx HC. cbn [fst]. apply radius_law_iff; auto. }
    all: apply List.Forall_forall; intros x Hx; apply in_map_iff in Hx as (ra & <- & Hr); apply in_chunks in Hr as (g & ->); unfold hsample_step;
      pose proof (gu01 _ GR g) as U1; destruct (u01 (he en) g) as [u1 g1]; cbn [fst] in U1; pose proof (gu01 _ GR g1) as U2; destruct (u01 (he en) g1) as [u2 g2]; cbn [fst snd] in *.
    + apply radius_range; auto; lra.
    + unfold angle_of, uni. split; [rewrite Rminus_0_r, Rplus_0_r; apply Rmult_le_pos; lra|nra].
Qed.
(** with a non-negative seed the result depends only on the arguments and the number of threads used *)
Theorem C43_reproducible : forall en n alpha Rd seed parallel omp_max team, (0 <= seed)%Z -> sample_args n omp_max team alpha Rd seed parallel ->
  (forall o1 o2, sampleRadii en n alpha Rd seed parallel omp_max team o1 -> sampleRadii en n alpha Rd seed parallel omp_max team o2 -> o1 = o2) /\
  (forall o1 o2, sampleRadiiAndAngles en n alpha Rd seed parallel omp_max team o1 -> sampleRadiiAndAngles en n alpha Rd seed parallel omp_max team o2 -> o1 = o2).
Proof.
  intros en n alpha Rd seed parallel omp_max team Hs SA.
  split; intros o1 o2 (oo1 & H1 & ->) (oo2 & H2 & ->); apply (hsample_spec en _ _ _ _ _ _ _ _ _ SA) in H1 as (g1 & G1 & ->);
    apply (hsample_spec en _ _ _ _ _ _ _ _ _ SA) in H2 as (g2 & G2 & ->); unfold gens_ok in G1, G2; rewrite (proj2 (Z.leb_le _ _) Hs) in G1, G2; subst; reflexivity.
Qed.
(** n = 0 with parallel = true: the warm-up divides by zero threads *)
Theorem C43_empty_refuted : forall en alpha Rd seed omp_max team o, sampleRadii en 0 alpha Rd seed true omp_max team o <-> o = None.
Proof.
  intros. unfold sampleRadii, hsample_outcome, hinput_threads. change (N.of_nat 0 + 9999 <? 2 ^ 31)%N with true. cbv iota.
  change (N.to_nat ((N.of_nat 0 + 9999) / 10000)) with 0. rewrite Nat.min_0_r. cbn [obind warmup Nat.eqb]. split.
  - intros (oo & -> & ->). reflexivity.
  - intros ->. exists None. split; reflexivity.
Qed.
Local Open Scope R_scope.
Lemma cosh_lower x : 0 < x -> (1 + x) / 2 < cosh x.
Proof. intros H. unfold cosh. pose proof (exp_ineq1 x ltac:(lra)). pose proof (exp_pos (- x)). lra. Qed.
Lemma above_one_lt_2 : above_one < 2.
Proof. unfold above_one. assert (/ IZR (2 ^ 52) < / 1) by (apply Rinv_lt_contravar; [apply Rmult_lt_0_compat; [lra|]|]; apply IZR_lt; reflexivity). lra. Qed.
Example ex_C43 : sample_args 25 4 1 (3 / 4) 20 12 true /\ above_one < cosh (3 / 4 * 20) /\ above_one <= cosh (3 / 4 * 10) <= cosh (3 / 4 * 20).
Proof.
  pose proof above_one_lt_2 as A. pose proof (cosh_lower (3 / 4 * 20) ltac:(lra)). pose proof (cosh_lower (3 / 4 * 10) ltac:(lra)).
  pose proof (cosh_lt (3 / 4 * 10) (3 / 4 * 20) ltac:(lra) ltac:(lra)).
  split; [|lra]. constructor; [lia|reflexivity|lia|lra|lra|lra|vm_compute; lia|lia].
Qed.

(** ** C44 *)
(** the temperature factor of the degree formula *)
Definition heat (T c : R) : Prop := (T = 0 /\ c = 1 / PI) \/ (T <> 0 /\ c = T / sin (PI * T)).
Lemma heat_lower T c : 0 <= T < 1 -> heat T c -> 1 / PI <= c.
Proof.
  intros HT [[-> ->]|[Tn ->]]; [lra|]. pose proof PI_RGT_0 as P. assert (X : 0 < PI * T) by (apply Rmult_lt_0_compat; lra).
  assert (S0 : 0 < sin (PI * T)) by (apply sin_gt_0; [exact X|nra]). pose proof (sin_lt_x _ X) as S1.
  apply Rmult_le_reg_r with (PI * sin (PI * T)); [apply Rmult_lt_0_compat; assumption|].
  replace (1 / PI * (PI * sin (PI * T))) with (sin (PI * T)) by (field; lra). replace (T / sin (PI * T) * (PI * sin (PI * T))) with (PI * T) by (field; lra). lra.
Qed.
Lemma calc_eq n alpha T deg c : (1 <= n)%nat -> 1 / 2 < alpha -> 0 <= T < 1 -> 0 < deg -> heat T c ->
  calculateRadius n alpha T deg = Some (2 * ln (INR n * 2 * alpha * alpha * c / (deg * (alpha - 1 / 2) * (alpha - 1 / 2)))) /\
  0 < INR n * 2 * alpha * alpha * c / (deg * (alpha - 1 / 2) * (alpha - 1 / 2)).
Proof.
  intros Hn Ha HT Hd Hc. pose proof (heat_lower T c HT Hc) as HL. pose proof PI_RGT_0 as P.
  assert (C0 : 0 < c) by (eapply Rlt_le_trans; [|exact HL]; apply Rdiv_lt_0_compat; lra).
  assert (N0 : 1 <= INR n) by (change 1 with (INR 1); now apply le_INR).
  assert (D0 : 0 < deg * (alpha - 1 / 2) * (alpha - 1 / 2)) by (repeat apply Rmult_lt_0_compat; lra).
  assert (Q0 : 0 < INR n * 2 * alpha * alpha * c / (deg * (alpha - 1 / 2) * (alpha - 1 / 2))) by (apply Rdiv_lt_0_compat; [repeat apply Rmult_lt_0_compat; lra|exact D0]).
  split; [|exact Q0]. unfold calculateRadius.
  assert (E : (if Req_EM_T T 0 then Some (1 / PI) else div_nz T (sin (PI * T))) = Some c).
  { destruct Hc as [[-> ->]|[Tn ->]]; destruct (Req_EM_T _ 0); try lra; [reflexivity|]. unfold div_nz.
    assert (0 < sin (PI * T)) by (apply sin_gt_0; [apply Rmult_lt_0_compat; lra|nra]). destruct (Req_EM_T _ 0); [lra|reflexivity]. }
  rewrite E. clear E. cbn [obind]. unfold div_nz. destruct (Req_EM_T _ 0) as [Z0|_]; [exfalso; revert D0; rewrite Z0; apply Rlt_irrefl|]. cbn [obind]. unfold log_pos. destruct (Rlt_dec 0 _); [reflexivity|lra].
Qed.
Theorem C44_inverts_the_degree_formula : forall n alpha T deg c, (1 <= n)%nat -> 1 / 2 < alpha -> 0 <= T < 1 -> 0 < deg -> heat T c ->
  exists Rd, calculateRadius n alpha T deg = Some Rd /\
    forall x, deg = INR n * 2 * alpha ^ 2 * c * exp (- x / 2) / (alpha - 1 / 2) ^ 2 <-> x = Rd.
Proof.
  intros n alpha T deg c Hn Ha HT Hd Hc. destruct (calc_eq n alpha T deg c Hn Ha HT Hd Hc) as [E Q]. eexists. split; [exact E|].
  set (q := INR n * 2 * alpha * alpha * c / (deg * (alpha - 1 / 2) * (alpha - 1 / 2))) in *.
  assert (A2 : 0 < (alpha - 1 / 2) ^ 2) by (apply pow_lt; lra).
  assert (QE : INR n * 2 * alpha ^ 2 * c / (alpha - 1 / 2) ^ 2 = deg * q) by (unfold q; field; split; lra).
  intros x. replace (INR n * 2 * alpha ^ 2 * c * exp (- x / 2) / (alpha - 1 / 2) ^ 2) with (deg * (q * exp (- x / 2))) by (rewrite <- Rmult_assoc, <- QE; field; lra).
  split; intros H.
  - assert (K : q * exp (- x / 2) = 1) by (apply Rmult_eq_reg_l with deg; lra).
    assert (L : ln (q * exp (- x / 2)) = 0) by (rewrite K; apply ln_1). rewrite ln_mult, ln_exp in L by (try apply exp_pos; exact Q). lra.
  - rewrite H. replace (- (2 * ln q) / 2) with (- ln q) by field. rewrite exp_Ropp, exp_ln by exact Q. field. lra.
Qed.
(** for all parameters genhrg admits except alpha = 1/2, the radius is positive, at least 2 ln (8/pi) > 1.8 *)
Theorem C44_cli_radius : forall n alpha T deg, 1 / 2 < alpha <= 1 -> 0 <= T < 1 -> 1 <= deg <= INR n - 1 ->
  exists Rd, calculateRadius n alpha T deg = Some Rd /\ 2 * ln (8 / PI) < Rd /\ 18 / 10 < 2 * ln (8 / PI).
Proof.
  intros n alpha T deg Ha HT Hd. pose proof PI_RGT_0 as P.
  assert (Hc : exists c, heat T c) by (destruct (Req_EM_T T 0); [exists (1 / PI); now left|exists (T / sin (PI * T)); now right]). destruct Hc as (c & Hc).
  assert (Hn : (1 <= n)%nat) by (apply INR_le; cbn; lra).
  destruct (calc_eq n alpha T deg c Hn ltac:(lra) HT ltac:(lra) Hc) as [E Q]. eexists. split; [exact E|].
  pose proof (heat_lower T c HT Hc) as HL.
  assert (I : 0 < 1 / PI) by (apply Rdiv_lt_0_compat; lra). split.
  - apply Rmult_lt_compat_l; [lra|]. apply ln_increasing; [apply Rdiv_lt_0_compat; lra|].
    assert (D0 : 0 < deg * (alpha - 1 / 2) * (alpha - 1 / 2)) by (repeat apply Rmult_lt_0_compat; lra).
    apply Rmult_lt_reg_r with (deg * (alpha - 1 / 2) * (alpha - 1 / 2)); [exact D0|].
    replace (INR n * 2 * alpha * alpha * c / (deg * (alpha - 1 / 2) * (alpha - 1 / 2)) * (deg * (alpha - 1 / 2) * (alpha - 1 / 2))) with (INR n * (2 * alpha * alpha) * c) by (field; lra).
    replace (8 / PI * (deg * (alpha - 1 / 2) * (alpha - 1 / 2))) with (deg * (8 * (alpha - 1 / 2) * (alpha - 1 / 2)) * (1 / PI)) by (field; lra).
    assert (G : 8 * (alpha - 1 / 2) * (alpha - 1 / 2) <= 2 * alpha * alpha) by nra. assert (G0 : 0 < 2 * alpha * alpha) by nra.
    apply Rlt_le_trans with (INR n * (2 * alpha * alpha) * (1 / PI)); [|apply Rmult_le_compat_l; [apply Rmult_le_pos; lra|exact HL]].
    apply Rmult_lt_compat_r; [exact I|]. apply Rle_lt_trans with (deg * (2 * alpha * alpha)); [apply Rmult_le_compat_l; lra|apply Rmult_lt_compat_r; lra].
  - assert (L : 9 / 10 < ln (8 / PI)); [|lra]. rewrite <- (ln_exp (9 / 10)). apply ln_increasing; [apply exp_pos|].
    pose proof PI_upper as PU. pose proof e_bounds as [_ EU].
    assert (X : exp (9 / 10) < 2462 / 1000).
    { destruct (Rlt_le_dec (exp (9 / 10)) (2462 / 1000)) as [L|L]; [exact L|exfalso].
      assert (X10 : exp (9 / 10) ^ 10 = exp 1 ^ 9).
      { rewrite <- exp_INR, <- (Rpower_pow 10 (exp (9 / 10)) (exp_pos _)). unfold Rpower. rewrite ln_exp. f_equal. cbn [INR]. lra. }
      assert (B1 : (2462 / 1000) ^ 10 <= exp (9 / 10) ^ 10) by (apply pow_incr; lra).
      assert (B2 : exp 1 ^ 9 <= (272095 / 100000) ^ 9) by (apply pow_incr; pose proof (exp_pos 1); lra).
      assert (B3 : (272095 / 100000) ^ 9 < (2462 / 1000) ^ 10) by lra. lra. }
    apply Rlt_trans with (1 := X). apply Rmult_lt_reg_r with PI; [exact P|]. unfold Rdiv at 2. rewrite Rmult_assoc, Rinv_l by lra. nra.
Qed.
(** the tool admits alpha = 0.5, where the radius is not a finite number *)
Theorem C44_half_refuted : forall n T deg, calculateRadius n (1 / 2) T deg = None.
Proof.
  intros n T deg. unfold calculateRadius. destruct (if Req_EM_T T 0 then _ else _) as [c|]; [|reflexivity]. cbn [obind]. unfold div_nz.
  destruct (Req_EM_T _ 0) as [|N]; [reflexivity|]. exfalso. apply N. ring.
Qed.
(** the densest cold graphs the tool admits have a disc of radius at most 2, for which the parallel generator never returns (C39) *)
Theorem C44_cli_deadlock : exists Rd, calculateRadius 100 1 0 99 = Some Rd /\ 1 <= Rd <= 2 /\
  forall nd part hg radii angles seed omp_max team, hrg_input radii angles Rd omp_max team -> good_rng (hb hg) -> is_partition task_eq part -> (2 <= omp_max)%nat ->
  forall o, ~ hrg_outcome nd part hg radii angles 0 Rd seed omp_max team o.
Proof.
  enough (X : exists Rd, calculateRadius 100 1 0 99 = Some Rd /\ 1 <= Rd <= 2).
  { destruct X as (Rd & E & B). exists Rd. split; [exact E|]. split; [exact B|]. intros. eapply C39_small_disc_refuted; eauto. }
  destruct (calc_eq 100 1 0 99 (1 / PI)) as [E Q]; [lia|lra|lra|lra|left; lra|]. eexists. split; [exact E|].
  destruct (C44_cli_radius 100 1 0 99) as (Rd & E2 & L1 & L2); [lra|lra|replace (INR 100) with 100 by (cbn; ring); lra|].
  rewrite E2 in E. assert (E3 := f_equal (fun o => match o with Some x => x | None => 0 end) E). cbv beta iota in E3. rewrite <- E3. split; [lra|]. rewrite E3. assert (L : ln (INR 100 * 2 * 1 * 1 * (1 / PI) / (99 * (1 - 1 / 2) * (1 - 1 / 2))) <= 1); [|lra].
  apply Rle_trans with (ln (exp 1)); [|rewrite ln_exp; lra]. left. apply ln_increasing; [exact Q|]. replace (INR 100) with 100 by (cbn; ring). pose proof PI_RGT_0 as P. pose proof e_bounds as [EL _].
  assert (3 < PI) by (pose proof PI2_3_2; lra).
  replace (100 * 2 * 1 * 1 * (1 / PI) / (99 * (1 - 1 / 2) * (1 - 1 / 2))) with (800 / 99 * / PI) by (field; lra).
  apply Rmult_lt_reg_r with PI; [exact P|]. rewrite Rmult_assoc, Rinv_l by lra. nra.
Qed.

(** ** C45 *)
(** the degree formula of the cold model, written out: xi = alpha / (alpha - 1/2) *)
Definition spec_degree (n alpha Rd : R) : R :=
  2 / PI * (alpha / (alpha - 1 / 2)) ^ 2 * n *
  (exp (- (Rd / 2)) + exp (- (alpha * Rd)) * (alpha * Rd / 2 * (PI / 4 / alpha ^ 2 - (PI - 1) / alpha + (PI - 2)) - 1)).
Lemma expected_degree_eq n alpha Rd : 1 / 2 < alpha -> expected_degree n alpha Rd = spec_degree n alpha Rd.
Proof.
  intros Ha. unfold expected_degree, spec_degree. pose proof PI_RGT_0 as P. cbv zeta.
  replace (- alpha * Rd) with (- (alpha * Rd)) by ring. replace (- Rd / 2) with (- (Rd / 2)) by field. field. repeat split; lra.
Qed.
(** the bracket the factor of the second summand obeys *)
Lemma bracket_bounds alpha : 1 / 2 < alpha <= 1 ->
  - (2 * alpha - 1) <= alpha * (PI / 4 / alpha ^ 2 - (PI - 1) / alpha + (PI - 2)) <= 0.
Proof.
  intros Ha. pose proof PI_RGT_0 as P. assert (P4 : PI < 4) by (pose proof PI_upper; lra).
  set (w := PI / 4 / alpha - PI / 2 + 1).
  assert (E : alpha * (PI / 4 / alpha ^ 2 - (PI - 1) / alpha + (PI - 2)) = - ((2 * alpha - 1) * w)) by (unfold w; field; lra).
  assert (W1 : w <= 1).
  { unfold w. assert (PI / 4 / alpha <= PI / 2); [|lra]. apply Rmult_le_reg_r with alpha; [lra|]. replace (PI / 4 / alpha * alpha) with (PI / 4) by (field; lra). nra. }
  assert (W0 : 0 <= w).
  { unfold w. assert (PI / 4 <= PI / 4 / alpha); [|lra]. apply Rmult_le_reg_r with alpha; [lra|]. replace (PI / 4 / alpha * alpha) with (PI / 4) by (field; lra). nra. }
  rewrite E. nra.
Qed.
(** the start value is the radius calculateRadius computes for the same graph *)
Lemma start_is_calc n alpha deg : (1 <= n)%nat -> 1 / 2 < alpha -> 0 < deg ->
  start_radius (INR n) deg alpha = calculateRadius n alpha 0 deg.
Proof.
  intros Hn Ha Hd. destruct (calc_eq n alpha 0 deg (1 / PI) Hn Ha ltac:(lra) Hd ltac:(left; lra)) as [E Q]. rewrite E. clear E.
  pose proof PI_RGT_0 as P.
  assert (X : (2 * alpha + 1 - 2) / (2 * alpha + 1 - 1) = (alpha - 1 / 2) / alpha) by (field; lra).
  unfold start_radius. cbv zeta. rewrite X.
  assert (V : 0 < deg * (PI / 2) * ((alpha - 1 / 2) / alpha) * ((alpha - 1 / 2) / alpha)) by (assert (0 < (alpha - 1 / 2) / alpha) by (apply Rdiv_lt_0_compat; lra); repeat (apply Rmult_lt_0_compat; [|lra]); lra).
  assert (EQ : INR n / (deg * (PI / 2) * ((alpha - 1 / 2) / alpha) * ((alpha - 1 / 2) / alpha)) = INR n * 2 * alpha * alpha * (1 / PI) / (deg * (alpha - 1 / 2) * (alpha - 1 / 2))) by (field; repeat split; lra).
  unfold div_nz. destruct (Req_EM_T _ 0) as [Z|_]; [exfalso; lra|]. cbn [obind]. rewrite EQ. unfold log_pos. destruct (Rlt_dec 0 _); [reflexivity|contradiction].
Qed.
Lemma target_eq n deg : (1 <= n)%nat -> 1 / 2 * deg * INR n / INR n * 2 = deg.
Proof. intros Hn. assert (1 <= INR n) by (change 1 with (INR 1); now apply le_INR). field. lra. Qed.

Lemma rsteps_exit f k eps s x : rsteps f k eps s (RDone x) -> (exists y, s = RDone y /\ x = y) \/ Rabs (f x - k) <= eps.
Proof.
  intros H. remember (RDone x) as d eqn:Hd. revert x Hd. induction H as [s|s1 s2 s3 H1 H2 IH]; intros x Hx; subst.
  - left. eauto.
  - right. destruct (IH x eq_refl) as [(y & -> & ->)|D]; [|exact D]. inversion H1; subst. assumption.
Qed.
Lemma rsteps_range f k eps s x : rsteps f k eps s (RDone x) -> forall lo hi, s = RLoop lo hi -> lo < hi -> lo < x < hi.
Proof.
  intros H. remember (RDone x) as d eqn:Hd. revert x Hd. induction H as [s|s1 s2 s3 H1 H2 IH]; intros x Hx lo hi Hs L; subst; [discriminate|].
  inversion H1; subst.
  - inversion H2 as [|? ? ? K]; subst; [lra|inversion K].
  - specialize (IH x eq_refl _ _ eq_refl). lra.
  - specialize (IH x eq_refl _ _ eq_refl). lra.
Qed.
Lemma rstep_det f k eps s a b : rstep f k eps s a -> rstep f k eps s b -> a = b.
Proof. intros H1 H2; inversion H1; subst; inversion H2; subst; try reflexivity; exfalso; lra. Qed.
Lemma rsteps_det f k eps s x y : rsteps f k eps s (RDone x) -> rsteps f k eps s (RDone y) -> x = y.
Proof.
  intros H. remember (RDone x) as d eqn:Hd. revert x Hd. induction H as [s|s1 s2 s3 H1 H2 IH]; intros x Hx K; subst.
  - inversion K as [|? ? ? K1]; subst; [reflexivity|inversion K1].
  - inversion K as [|? s2' ? K1 K2]; subst; [inversion H1|]. rewrite (rstep_det _ _ _ _ _ _ K1 H1) in K2. now apply IH.
Qed.
(** every returned radius meets the accuracy and lies between half and twice the closed-form radius *)
Theorem C45_accuracy : forall n alpha deg x, (1 <= n)%nat -> 1 / 2 < alpha -> 0 < deg -> networkit_radius n alpha 0 deg (Some x) ->
  Rabs (spec_degree (INR n) alpha x - deg) <= 1 / 100 /\
  exists r0, calculateRadius n alpha 0 deg = Some r0 /\ (0 < r0 -> r0 / 2 < x < 2 * r0).
Proof.
  intros n alpha deg x Hn Ha Hd H. unfold networkit_radius in H. cbv zeta in H. rewrite target_eq in H by exact Hn.
  destruct (Req_EM_T 0 0) as [_|N]; [|lra]. rewrite (start_is_calc n alpha deg Hn Ha Hd) in H. destruct (calculateRadius n alpha 0 deg) as [r0|]; [|discriminate].
  destruct H as (x' & E & H). injection E as <-. split.
  - destruct (rsteps_exit _ _ _ _ _ H) as [(y & C & _)|A]; [discriminate|]. rewrite expected_degree_eq in A by exact Ha. exact A.
  - exists r0. split; [reflexivity|]. intros P. pose proof (rsteps_range _ _ _ _ _ H _ _ eq_refl ltac:(lra)). lra.
Qed.
Theorem C45_deterministic : forall n alpha T deg a b, networkit_radius n alpha T deg a -> networkit_radius n alpha T deg b -> a = b.
Proof.
  intros n alpha T deg a b. unfold networkit_radius. cbv zeta. destruct (Req_EM_T T 0).
  - destruct (start_radius _ _ _) as [r0|]; [|congruence]. intros (x & -> & H1) (y & -> & H2). f_equal. eapply rsteps_det; eauto.
  - destruct (Rlt_dec T 1); congruence.
Qed.

(** bisection terminates when the start values bracket the target, whatever the continuous function *)
Lemma bisect_ends f k eps : 0 < eps -> (forall x, continuity_pt f x) -> forall lo hi, lo < hi -> k <= f lo -> f hi < k ->
  exists x, rsteps f k eps (RLoop lo hi) (RDone x).
Proof.
  intros He HC lo0 hi0 L0 Hlo Hhi.
  destruct (Heine_cor2 (f := f) (a := lo0) (b := hi0)) with (eps := mkposreal eps He) as [[eta Heta] HU]; [intros; apply HC|]. cbn [pos] in HU.
  assert (Hm : exists m : nat, hi0 - lo0 < eta * 2 ^ m).
  { destruct (Pow_x_infinity 2) with (b := (hi0 - lo0) / eta + 1) as [m Hm]; [rewrite Rabs_pos_eq; lra|]. exists m. specialize (Hm m (le_n _)). rewrite Rabs_pos_eq in Hm by (apply pow_le; lra).
    apply Rmult_lt_reg_r with (/ eta); [now apply Rinv_0_lt_compat|]. replace (eta * 2 ^ m * / eta) with (2 ^ m) by (field; lra). unfold Rdiv in Hm. lra. }
  destruct Hm as [m Hm].
  assert (G : forall m lo hi, lo0 <= lo -> lo < hi -> hi <= hi0 -> hi - lo < eta * 2 ^ m -> k <= f lo -> f hi < k -> exists x, rsteps f k eps (RLoop lo hi) (RDone x)).
  { clear m Hm. induction m as [|m IH]; intros lo hi H1 H2 H3 Hm Vl Vh; (destruct (Rle_lt_dec (Rabs (f ((lo + hi) / 2) - k)) eps) as [D|D];
      [eexists; eapply rss_step; [now apply rs_exit|apply rss_refl]|]).
    - exfalso. cbn [pow] in Hm. pose proof (HU ((lo + hi) / 2) lo ltac:(lra) ltac:(lra)) as U1. rewrite (Rabs_pos_eq ((lo + hi) / 2 - lo)) in U1 by lra. specialize (U1 ltac:(lra)).
      pose proof (HU hi ((lo + hi) / 2) ltac:(lra) ltac:(lra)) as U2. rewrite (Rabs_pos_eq (hi - (lo + hi) / 2)) in U2 by lra. specialize (U2 ltac:(lra)).
      apply Rabs_def2 in U1. apply Rabs_def2 in U2. destruct (Rle_lt_dec k (f ((lo + hi) / 2))); [rewrite Rabs_pos_eq in D by lra|rewrite Rabs_left in D by lra]; lra.
    - cbn [pow] in Hm. destruct (Rle_lt_dec k (f ((lo + hi) / 2))) as [C|C].
      + destruct (IH ((lo + hi) / 2) hi) as (x & Hx); try lra. exists x. eapply rss_step; [now apply rs_lower|exact Hx].
      + destruct (IH lo ((lo + hi) / 2)) as (x & Hx); try lra. exists x. eapply rss_step; [now apply rs_upper|exact Hx]. }
  apply (G m lo0 hi0); lra.
Qed.
Lemma expected_cont n alpha x : continuity_pt (expected_degree n alpha) x.
Proof.
  apply derivable_continuous_pt. apply ex_derive_Reals_0. unfold expected_degree. auto_derive. exact I.
Qed.
Theorem C45_terminates : forall n alpha deg r0, (1 <= n)%nat -> 1 / 2 < alpha -> 0 < deg -> calculateRadius n alpha 0 deg = Some r0 -> 0 < r0 ->
  deg <= spec_degree (INR n) alpha (r0 / 2) -> spec_degree (INR n) alpha (2 * r0) < deg ->
  exists x, networkit_radius n alpha 0 deg (Some x).
Proof.
  intros n alpha deg r0 Hn Ha Hd E P H1 H2. rewrite <- expected_degree_eq in H1, H2 by exact Ha.
  destruct (bisect_ends (expected_degree (INR n) alpha) deg (1 / 100) ltac:(lra) (expected_cont _ _) (r0 / 2) (r0 * 2)) as (x & Hx); [lra|exact H1|rewrite Rmult_comm; exact H2|].
  exists x. unfold networkit_radius. cbv zeta. destruct (Req_EM_T 0 0) as [_|N]; [|lra]. rewrite target_eq, (start_is_calc n alpha deg Hn Ha Hd), E by exact Hn. eauto.
Qed.
Lemma spec_scaled n alpha deg r0 x : (1 <= n)%nat -> 1 / 2 < alpha -> 0 < deg -> calculateRadius n alpha 0 deg = Some r0 ->
  spec_degree (INR n) alpha x = deg * exp (r0 / 2) * (exp (- (x / 2)) + exp (- (alpha * x)) * (x / 2 * (alpha * (PI / 4 / alpha ^ 2 - (PI - 1) / alpha + (PI - 2))) - 1)).
Proof.
  intros Hn Ha Hd E. destruct (calc_eq n alpha 0 deg (1 / PI) Hn Ha ltac:(lra) Hd ltac:(left; lra)) as [E2 Q]. rewrite E in E2.
  assert (E3 := f_equal (fun o => match o with Some x => x | None => 0 end) E2). cbv beta iota in E3. pose proof PI_RGT_0 as P.
  replace (r0 / 2) with (ln (INR n * 2 * alpha * alpha * (1 / PI) / (deg * (alpha - 1 / 2) * (alpha - 1 / 2)))) by (rewrite E3; field; repeat split; lra).
  rewrite exp_ln by exact Q. unfold spec_degree. field. repeat split; lra.
Qed.
Lemma exp_5_4 z : 5 / 4 <= z -> 2 + z < exp z.
Proof.
  intros H. assert (E : exp (5 / 4) * exp (z - 5 / 4) = exp z) by (rewrite <- exp_plus; f_equal; lra).
  assert (X : 13 / 4 < exp (5 / 4)).
  { destruct (Rlt_le_dec (13 / 4) (exp (5 / 4))) as [L|L]; [exact L|exfalso]. pose proof e_bounds as [EL _]. pose proof (exp_pos (5 / 4)).
    assert (X4 : exp (5 / 4) ^ 4 = exp 1 ^ 5).
    { rewrite <- exp_INR, <- (Rpower_pow 4 (exp (5 / 4)) (exp_pos _)). unfold Rpower. rewrite ln_exp. f_equal. cbn [INR]. lra. }
    assert (B1 : exp (5 / 4) ^ 4 <= (13 / 4) ^ 4) by (apply pow_incr; lra).
    assert (B2 : (2715 / 1000) ^ 5 <= exp 1 ^ 5) by (apply pow_incr; lra). lra. }
  destruct (Req_dec z (5 / 4)) as [->|N]; [lra|]. pose proof (exp_ineq1 (z - 5 / 4) ltac:(lra)) as I. rewrite <- E. nra.
Qed.
(** the start values bracket the target for every large enough disc; so both debug assertions hold and the search terminates *)
Theorem C45_bracket : forall n alpha deg r0, (1 <= n)%nat -> 1 / 2 < alpha <= 1 -> 0 < deg -> calculateRadius n alpha 0 deg = Some r0 -> 5 <= (2 * alpha - 1) * r0 ->
  deg < spec_degree (INR n) alpha (r0 / 2) /\ spec_degree (INR n) alpha (2 * r0) < deg /\ networkit_asserts n alpha deg /\
  exists x, networkit_radius n alpha 0 deg (Some x).
Proof.
  intros n alpha deg r0 Hn Ha Hd E HR. assert (R0 : 0 < r0) by nra. pose proof (bracket_bounds alpha Ha) as [BL BU].
  assert (L : deg < spec_degree (INR n) alpha (r0 / 2)).
  { rewrite (spec_scaled n alpha deg r0 _ Hn (proj1 Ha) Hd E). set (A := alpha * _) in *. set (z := (2 * alpha - 1) * r0 / 4).
    assert (Z : 5 / 4 <= z) by (unfold z; lra). pose proof (exp_5_4 z Z) as X.
    replace (deg * exp (r0 / 2) * (exp (- (r0 / 2 / 2)) + exp (- (alpha * (r0 / 2))) * (r0 / 2 / 2 * A - 1)))
      with (deg * (exp (r0 / 2) * exp (- (r0 / 2 / 2)) + exp (r0 / 2) * exp (- (alpha * (r0 / 2))) * (r0 / 2 / 2 * A - 1))) by ring.
    rewrite <- !exp_plus. replace (r0 / 2 + - (r0 / 2 / 2)) with (z + (r0 / 4 - z)) by field. replace (r0 / 2 + - (alpha * (r0 / 2))) with (r0 / 4 - z) by (unfold z; field).
    rewrite exp_plus. set (d := r0 / 4 - z). assert (D : 0 <= d) by (unfold d, z; nra).
    assert (ED : 1 <= exp d) by (rewrite <- exp_0; destruct D as [D|<-]; [left; now apply exp_increasing|right; reflexivity]).
    assert (ZA : - z <= r0 / 2 / 2 * A) by (unfold z; nra). rewrite <- (Rmult_1_r deg) at 1. apply Rmult_lt_compat_l; [exact Hd|]. nra. }
  assert (U : spec_degree (INR n) alpha (2 * r0) < deg).
  { rewrite (spec_scaled n alpha deg r0 _ Hn (proj1 Ha) Hd E). set (A := alpha * _) in *.
    replace (deg * exp (r0 / 2) * (exp (- (2 * r0 / 2)) + exp (- (alpha * (2 * r0))) * (2 * r0 / 2 * A - 1)))
      with (deg * (exp (r0 / 2) * exp (- (2 * r0 / 2)) + exp (r0 / 2) * exp (- (alpha * (2 * r0))) * (2 * r0 / 2 * A - 1))) by ring.
    rewrite <- !exp_plus. replace (r0 / 2 + - (2 * r0 / 2)) with (- (r0 / 2)) by field. pose proof (exp_pos (r0 / 2 + - (alpha * (2 * r0)))) as X.
    assert (Y : exp (- (r0 / 2)) < 1) by (rewrite <- exp_0; apply exp_increasing; lra). assert (Z : 2 * r0 / 2 * A <= 0) by nra.
    rewrite <- (Rmult_1_r deg) at 2. apply Rmult_lt_compat_l; [exact Hd|]. nra. }
  split; [exact L|]. split; [exact U|]. split.
  - exists r0. rewrite (start_is_calc n alpha deg Hn (proj1 Ha) Hd), !expected_degree_eq by lra. rewrite (Rmult_comm r0 2). auto.
  - apply (C45_terminates n alpha deg r0); auto; lra.
Qed.
(** with a temperature in (0,1) the function agrees with calculateRadius *)
Theorem C45_warm : forall n alpha T deg r, (1 <= n)%nat -> 1 / 2 < alpha -> 0 < T < 1 -> 0 < deg ->
  (networkit_radius n alpha T deg r <-> r = calculateRadius n alpha T deg).
Proof.
  intros n alpha T deg r Hn Ha HT Hd. pose proof PI_RGT_0 as P.
  destruct (calc_eq n alpha T deg (T / sin (PI * T)) Hn Ha ltac:(lra) Hd ltac:(right; lra)) as [E Q]. rewrite E. clear E.
  assert (S0 : 0 < sin (PI * T)) by (apply sin_gt_0; nra).
  unfold networkit_radius. cbv zeta. rewrite target_eq by exact Hn. destruct (Req_EM_T T 0) as [|_]; [lra|]. destruct (Rlt_dec T 1) as [_|]; [|lra].
  assert (X : (2 * alpha + 1 - 2) / (2 * alpha + 1 - 1) = (alpha - 1 / 2) / alpha) by (field; lra). rewrite X. clear X.
  replace (PI / (1 / T)) with (PI * T) by (field; lra).
  assert (V : 0 < deg * (1 / T / PI * sin (PI * T)) * (PI / 2) * ((alpha - 1 / 2) / alpha) * ((alpha - 1 / 2) / alpha)).
  { assert (0 < (alpha - 1 / 2) / alpha) by (apply Rdiv_lt_0_compat; lra). assert (0 < 1 / T / PI) by (repeat apply Rdiv_lt_0_compat; lra). assert (0 < 1 / T / PI * sin (PI * T)) by (apply Rmult_lt_0_compat; lra). repeat (apply Rmult_lt_0_compat; [|lra]); lra. }
  assert (EQ : INR n / (deg * (1 / T / PI * sin (PI * T)) * (PI / 2) * ((alpha - 1 / 2) / alpha) * ((alpha - 1 / 2) / alpha)) =
    INR n * 2 * alpha * alpha * (T / sin (PI * T)) / (deg * (alpha - 1 / 2) * (alpha - 1 / 2))) by (field; repeat split; lra).
  unfold div_nz. destruct (Req_EM_T _ 0) as [Z|_]; [exfalso; lra|]. cbn [obind]. rewrite EQ. unfold log_pos. destruct (Rlt_dec 0 _); [reflexivity|contradiction].
Qed.
(** dense cold graphs: the formula never reaches the target, the search does not terminate (assertions are off) and nothing is returned *)
Theorem C45_endless_refuted : forall n deg, (1 <= n)%nat -> 2 * INR n / PI + 1 / 100 < deg <= INR n - 1 -> forall r, ~ networkit_radius n 1 0 deg r.
Proof.
  intros n deg Hn Hd r H. pose proof PI_RGT_0 as P. assert (N0 : 1 <= INR n) by (change 1 with (INR 1); now apply le_INR).
  assert (D0 : 0 < deg) by (assert (0 < 2 * INR n / PI) by (apply Rdiv_lt_0_compat; lra); lra).
  destruct (calc_eq n 1 0 deg (1 / PI) Hn ltac:(lra) ltac:(lra) D0 ltac:(left; lra)) as [E Q].
  set (r0 := 2 * ln _) in E.
  assert (R0 : 0 < r0).
  { unfold r0. apply Rmult_lt_0_compat; [lra|]. rewrite <- ln_1. apply ln_increasing; [lra|]. replace (INR n * 2 * 1 * 1 * (1 / PI) / (deg * (1 - 1 / 2) * (1 - 1 / 2))) with (8 * INR n / (PI * deg)) by (field; lra).
    pose proof PI_upper as PU. apply Rmult_lt_reg_r with (PI * deg); [apply Rmult_lt_0_compat; lra|]. replace (8 * INR n / (PI * deg) * (PI * deg)) with (8 * INR n) by (field; lra). nra. }
  unfold networkit_radius in H. cbv zeta in H. rewrite target_eq, (start_is_calc n 1 deg Hn ltac:(lra) D0), E in H by exact Hn.
  destruct (Req_EM_T 0 0) as [_|]; [|lra]. destruct H as (x & -> & H).
  pose proof (rsteps_range _ _ _ _ _ H _ _ eq_refl ltac:(lra)) as XR.
  destruct (rsteps_exit _ _ _ _ _ H) as [(y & C & _)|A]; [discriminate|]. rewrite expected_degree_eq in A by lra.
  assert (F : spec_degree (INR n) 1 x <= 2 * INR n / PI).
  { unfold spec_degree. replace (exp (- (1 * x))) with (exp (- (x / 2)) * exp (- (x / 2))) by (rewrite <- exp_plus; f_equal; field).
    set (y := exp (- (x / 2))). assert (Y : 0 < y) by apply exp_pos. pose proof PI_upper as PU.
    replace (2 / PI * (1 / (1 - 1 / 2)) ^ 2 * INR n * (y + y * y * (1 * x / 2 * (PI / 4 / 1 ^ 2 - (PI - 1) / 1 + (PI - 2)) - 1)))
      with (2 * INR n / PI * (4 * (y - y * y) - y * y * (2 * x * (1 - PI / 4)))) by (field; lra).
    rewrite <- (Rmult_1_r (2 * INR n / PI)) at 2. apply Rmult_le_compat_l; [left; apply Rdiv_lt_0_compat; lra|].
    assert (0 <= y * y * (2 * x * (1 - PI / 4))) by (apply Rmult_le_pos; [|apply Rmult_le_pos]; try lra; left; apply Rmult_lt_0_compat; lra). pose proof (pow2_ge_0 (2 * y - 1)) as SQ. lra. }
  rewrite Rabs_left in A by lra. lra.
Qed.
(** alpha = 1/2 and T = 1 give no finite radius *)
Theorem C45_no_value_refuted : forall n deg, (1 <= n)%nat ->
  (forall T r, T < 1 -> networkit_radius n (1 / 2) T deg r -> r = None) /\ (forall alpha r, networkit_radius n alpha 1 deg r -> r = None).
Proof.
  intros n deg Hn. assert (X : (2 * (1 / 2) + 1 - 2) / (2 * (1 / 2) + 1 - 1) = 0) by field. split.
  - intros T r HT H. unfold networkit_radius in H. cbv zeta in H. destruct (Req_EM_T T 0) as [_|_].
    + unfold start_radius in H. cbv zeta in H. rewrite X, Rmult_0_r in H. unfold div_nz in H. destruct (Req_EM_T 0 0) as [|N]; [exact H|]. exfalso. now apply N.
    + destruct (Rlt_dec T 1) as [_|]; [|lra]. rewrite X, Rmult_0_r in H. unfold div_nz in H. destruct (Req_EM_T 0 0) as [|N]; [exact H|]. exfalso. now apply N.
  - intros alpha r H. unfold networkit_radius in H. cbv zeta in H. destruct (Req_EM_T 1 0) as [|_]; [lra|]. destruct (Rlt_dec 1 1) as [|_]; [lra|].
    unfold div_nz in H. destruct (Req_EM_T (_ * _ * _) 0) as [|N]; [exact H|]. exfalso. apply N. replace (1 - 1 / 1) with 0 by field. ring.
Qed.

(** the searches of the property's claims, on concrete parameters *)
Lemma calc_8 : exists r0, calculateRadius 1000 1 0 10 = Some r0 /\ 5 <= r0.
Proof.
  destruct (calc_eq 1000 1 0 10 (1 / PI)) as [E Q]; [lia|lra|lra|lra|left; lra|]. eexists. split; [exact E|]. pose proof PI_RGT_0 as P. pose proof PI_upper as PU. pose proof e_bounds as [_ EU]. pose proof (exp_pos 1) as EP.
  replace (INR 1000) with 1000 in * by (rewrite INR_IZR_INZ; reflexivity).
  assert (L : 3 <= ln (1000 * 2 * 1 * 1 * (1 / PI) / (10 * (1 - 1 / 2) * (1 - 1 / 2)))); [|lra].
  rewrite <- (ln_exp 3) at 1. left. apply ln_increasing; [apply exp_pos|].
  replace 3 with (INR 3) by (cbn; ring). rewrite exp_INR.
  assert (B : exp 1 ^ 3 <= (272095 / 100000) ^ 3) by (apply pow_incr; lra). apply Rle_lt_trans with (1 := B).
  replace (1000 * 2 * 1 * 1 * (1 / PI) / (10 * (1 - 1 / 2) * (1 - 1 / 2))) with (800 * / PI) by (field; lra).
  apply Rmult_lt_reg_r with PI; [exact P|]. rewrite Rmult_assoc, Rinv_l by lra. lra.
Qed.
Example ex_C45 : (exists x, networkit_radius 1000 1 0 10 (Some x)) /\ (forall r, ~ networkit_radius 10 1 0 9 r).
Proof.
  split.
  - destruct calc_8 as (r0 & E & L). destruct (C45_bracket 1000 1 10 r0) as (_ & _ & _ & X); [lia|lra|lra|exact E|lra|exact X].
  - apply C45_endless_refuted; [lia|]. replace (INR 10) with 10 by (cbn; ring). split; [|lra].
    assert (P : 3 < PI) by (pose proof PI2_3_2; lra). assert (2 * 10 / PI < 7); [|lra].
    apply Rmult_lt_reg_r with PI; [lra|]. unfold Rdiv. rewrite Rmult_assoc, Rinv_l by lra. lra.
Qed.

Print Assumptions C43_law.
Print Assumptions C43_law_bias.
Print Assumptions C43_angle_law.
Print Assumptions C43_radii.
Print Assumptions C43_angles.
Print Assumptions C43_both.
Print Assumptions C43_reproducible.
Print Assumptions C43_empty_refuted.
Print Assumptions C44_inverts_the_degree_formula.
Print Assumptions C44_cli_radius.
Print Assumptions C44_half_refuted.
Print Assumptions C44_cli_deadlock.
Print Assumptions C45_accuracy.
Print Assumptions C45_deterministic.
Print Assumptions C45_terminates.
Print Assumptions C45_bracket.
Print Assumptions C45_warm.
Print Assumptions C45_endless_refuted.
Print Assumptions C45_no_value_refuted.
