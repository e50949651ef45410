(** Property C64: a debug build of hypergirgs::generateEdges never fails an assertion, and computes what the model of C36-C48 computes.
    [hrg_debug] (HypDbg_Model) is the program of Hyp_Model with every assert() executed; [None] = failed assertion or undefined behaviour. *)
From Coq Require Import Arith NArith ZArith List Bool Reals Permutation Lia Lra.
From Flocq Require Import Core.
From Verif Require Import Base Sched Coord_Model Coord_Proofs Coord_Geo IntSort_Model IntSort_Proofs Prop_IntSort Prefix_Model
  Tree_Model Cover Tree_Proofs Tree_Build Tree_Plan Tree_Run Girg_Model Girg_Proofs Girg_Num Prop_Girg Hyp_Model Hyp_Math Hyp_Angle Hyp_Levels Hyp_Build Hyp_Run
  Hyp_Filter Hyp_Sched Hyp_Threads Hyp_Gen Prop_Hyp Dbg_Base HypDbg_Model HypDbg_Proofs HypDbg_Gen.
Import ListNotations.
Local Open Scope nat_scope.

(** ** C64: for a disc of radius at least 1, no point on its boundary, and 2 T ln 99 <= R, no assertion can fail: the debug build has exactly the
    outcomes of the program without assertions, none of them is undefined behaviour, and it returns under the same condition *)
Theorem C64_no_assertion_fails : forall part hg radii angles T Rd seed omp_max team,
  hrg_input radii angles Rd omp_max team -> Forall (fun r => r < Rd)%R radii -> (1 <= Rd)%R -> (0 <= T)%R -> (2 * T * ln 99 <= Rd)%R ->
  good_rng (hb hg) -> is_partition task_eq part ->
  ~ hrg_debug radii angles part hg T Rd seed omp_max team None /\
  (returns Rd omp_max team <-> exists o, hrg_debug radii angles part hg T Rd seed omp_max team o) /\
  forall o, hrg_debug radii angles part hg T Rd seed omp_max team o <-> hrg_outcome false part hg radii angles T Rd seed omp_max team o.
Proof.
  intros part hg radii angles T Rd seed omp_max team HI Hin HR1 HT HTR GG HP. destruct (omp_nat _ (hi_omp _ _ _ _ _ HI)) as [O1 O2].
  pose proof (hrg_debug_iff radii angles T Rd hg part seed omp_max team (use_di HI) Hin HR1 HT HTR GG HP O1 O2 (hi_team _ _ _ _ _ HI)) as K.
  split; [intros H; apply K in H; exact (proj1 (C37_no_undefined_behaviour false part hg radii angles T Rd seed omp_max team HI GG HP) H)|].
  split; [|exact K]. rewrite (C39_returns_iff false part hg radii angles T Rd seed omp_max team HI GG HP).
  split; intros [o Ho]; exists o; now apply K.
Qed.

(** executions that never return are covered too: whatever unit of work a thread runs, at any time, no assertion in it fails.
    (Units of one parallel execution are the first [threads-1] sampling shares, and the tasks if the tree has more levels than the first parallel level.) *)
Theorem C64_no_assertion_fails_while_running : forall part hg radii angles T Rd omp_max team t fpl ntask created gens u,
  hrg_input radii angles Rd omp_max team -> Forall (fun r => r < Rd)%R radii -> (1 <= Rd)%R -> (0 <= T)%R -> (2 * T * ln 99 <= Rd)%R ->
  good_rng (hb hg) -> is_partition task_eq part -> htree_debug radii angles T Rd omp_max (Some t) ->
  2 <= omp_max -> hfirst_parallel_level omp_max = Some fpl -> num_tasks fpl = Some ntask -> hcreate fpl (N.to_nat fpl) 0 0 0 = Some created ->
  length gens = omp_max - 1 + N.to_nat ntask ->
  match u with USample tid => tid < omp_max - 1 | UTask i => (fpl < h_levels t)%N /\ i < length created end ->
  exists r, dunit_result radii angles t hg fpl omp_max (part created) gens u = Some r /\
            unit_result false t hg fpl omp_max (part created) gens u = Some r.
Proof.
  intros part hg radii angles T Rd omp_max team t fpl ntask created gens u HI Hin HR1 HT HTR GG HP HO H2 Ef En Ec Lg Hu.
  destruct (omp_nat _ (hi_omp _ _ _ _ _ HI)) as [O1 O2].
  destruct (hbuild_ok radii angles T Rd (use_di HI) omp_max O1) as (t' & ord & TS & _ & HU). destruct HO as (ot & HO & E).
  rewrite (HU _ HO) in E. destruct (dassert _); [|discriminate]. cbn [obind] in E. destruct (dassert _); [|discriminate]. cbn [obind] in E.
  injection E as <-. destruct (fpl_defined omp_max ltac:(lia)) as (f & Ef' & Hf & _). rewrite Ef in Ef'. injection Ef' as <-.
  apply (dunit_eq radii angles T Rd (use_di HI) Hin HR1 HT HTR t ord TS hg GG part HP omp_max fpl ntask gens u H2 ltac:(lia) En Lg created Ec Hu).
Qed.

(** ** the conditions are needed: each of them can make every debug run fail *)
(** a point on the boundary (radius = R), which a release build accepts *)
Theorem C64_boundary_point_refuted : forall part hg radii angles T Rd seed omp_max team,
  hrg_input radii angles Rd omp_max team -> In Rd radii ->
  hrg_debug radii angles part hg T Rd seed omp_max team None /\
  forall o, hrg_debug radii angles part hg T Rd seed omp_max team o -> o = None.
Proof.
  intros part hg radii angles T Rd seed omp_max team HI HIn. destruct (omp_nat _ (hi_omp _ _ _ _ _ HI)) as [O1 _].
  destruct (hbuild_ok radii angles T Rd (use_di HI) omp_max O1) as (t & ord & _ & HO & _).
  assert (A : input_asserts radii angles Rd = false).
  { unfold input_asserts. destruct (forallb (fun r => Rleb 0 r && Rltb r Rd) radii) eqn:E; [|rewrite andb_false_r; reflexivity].
    exfalso. rewrite forallb_forall in E. specialize (E _ HIn). apply andb_prop in E as [_ E]. apply Rltb_true in E. lra. }
  split.
  - exists None. split; [|reflexivity]. exists (Some t). split; [exact HO|]. rewrite A. reflexivity.
  - intros o (ot & (ot' & _ & ->) & H). rewrite A in H. exact H.
Qed.
(** a disc of radius less than 1 *)
Theorem C64_small_disc_refuted : forall part hg radii angles T Rd seed omp_max team,
  hrg_input radii angles Rd omp_max team -> (Rd < 1)%R ->
  hrg_debug radii angles part hg T Rd seed omp_max team None /\
  forall o, hrg_debug radii angles part hg T Rd seed omp_max team o -> o = None.
Proof.
  intros part hg radii angles T Rd seed omp_max team HI HR. destruct (omp_nat _ (hi_omp _ _ _ _ _ HI)) as [O1 _].
  destruct (hbuild_ok radii angles T Rd (use_di HI) omp_max O1) as (t & ord & _ & HO & _).
  assert (A : input_asserts radii angles Rd = false).
  { unfold input_asserts. assert (E : Rleb 1 Rd = false) by (apply Rleb_false; lra). rewrite E, andb_false_r. reflexivity. }
  split.
  - exists None. split; [|reflexivity]. exists (Some t). split; [exact HO|]. rewrite A. reflexivity.
  - intros o (ot & (ot' & _ & ->) & H). rewrite A in H. exact H.
Qed.
(** a temperature that is high for the disc: T = R = 1, two points at the same place and one draw of 0.985 *)
Definition hot_rng : rng := {| G := unit; rseed := fun _ => tt; u01 := fun g => (985 / 1000, g)%R; uni0 := fun p g => (p / 2, g)%R; geo := fun _ g => (0%N, g) |}.
Definition hot_hrng : hrng := {| hb := hot_rng; draw_u32 := fun g => (7%N, g); seed_seq := fun _ => tt |}.
Lemma hot_good : good_rng hot_rng.
Proof. constructor; cbn; intros; [lra|lra|]. reflexivity. Qed.
Lemma hot_input : hrg_input [1/2; 1/2]%R [0; 0]%R 1 1 1.
Proof.
  assert (P : (3 < PI)%R) by (pose proof PI2_3_2; lra).
  constructor; try (cbn; lia); try lra; try (split; [apply N.leb_le|apply N.leb_le]; reflexivity); repeat (apply Forall_cons; [lra|]); apply Forall_nil.
Qed.
Lemma hot_decide p q : distanceCosh p q = 1%R -> dfilter_decide {| f_max := 1; f_R := 1; f_T := 1 |} 1 1 p q (985 / 1000) = None.
Proof.
  intros Ec. unfold dfilter_decide. rewrite Ec. cbn [f_max].
  assert (E1 : Rltb (985 / 1000) 1 = true) by (apply Rltb_true; lra). rewrite E1. cbn [dassert obind].
  assert (U : filter_upper {| f_max := 1; f_R := 1; f_T := 1 |} (985 / 1000) = Some (XFin (cosh (1 + 2 * 1 * ln (1 / (1 / 100 * 98) - 1))))).
  { unfold filter_upper. cbn [f_max]. unfold double_to_int. replace (100 / 1 * (985 / 1000))%R with (197 / 2)%R by field.
    assert (Z : Ztrunc (197 / 2) = 98%Z) by (rewrite Ztrunc_floor by lra; apply Zfloor_imp; change (98 + 1)%Z with 99%Z; lra). rewrite Z. reflexivity. }
  rewrite U. cbn [obind]. assert (F1 : forall y, (1 <= y)%R -> Rltb y 1 = false) by (intros y Hy; apply Rltb_false; lra).
  rewrite F1 by apply cosh_ge_1.
  assert (L : filter_lower {| f_max := 1; f_R := 1; f_T := 1 |} (985 / 1000) = Some (XFin (cosh (1 + 2 * 1 * ln (1 / (1 / 100 * 99) - 1))))).
  { unfold filter_lower. cbn [f_max]. unfold double_to_int. replace (100 / 1 * (985 / 1000))%R with (197 / 2)%R by field.
    assert (Z : Zceil (197 / 2) = 99%Z) by (apply Zceil_imp; change (99 - 1)%Z with 98%Z; lra). rewrite Z, Ztrunc_IZR. reflexivity. }
  rewrite L. cbn [obind xlt].
  assert (B : Rltb 1 (cosh (1 + 2 * 1 * ln (1 / (1 / 100 * 99) - 1))) = true).
  { apply Rltb_true. replace (1 / (1 / 100 * 99) - 1)%R with (/ 99)%R by field. rewrite ln_Rinv by lra.
    assert (L99 : (1 < ln 99)%R).
    { rewrite <- (ln_exp 1). apply ln_increasing; [apply exp_pos|]. destruct e_bounds. lra. }
    replace (1 + 2 * 1 * - ln 99)%R with (- (2 * ln 99 - 1))%R by ring.
    assert (EV : forall x, cosh (- x) = cosh x) by (intros x; unfold cosh; rewrite Ropp_involutive; field). rewrite EV.
    apply Rle_lt_trans with (cosh 0); [rewrite cosh_0; lra|]. apply cosh_lt; lra. }
  rewrite B. assert (A0 : acosh 1 = 0%R) by (rewrite <- cosh_0; apply acosh_cosh; lra). rewrite A0.
  assert (C : Rltb (985 / 1000 * connectionProbRec 1 1 0) 1 = false); [|rewrite C; reflexivity].
  apply Rltb_false. unfold connectionProbRec. replace (1 / 2 / 1 * (0 - 1))%R with (- (1 / 2))%R by field. pose proof (exp_ineq1_le (- (1 / 2))). lra.
Qed.
Theorem C64_high_temperature_refuted : forall part seed,
  hrg_debug [1/2; 1/2]%R [0; 0]%R part hot_hrng 1 1 seed 1 1 None /\
  forall o, hrg_debug [1/2; 1/2]%R [0; 0]%R part hot_hrng 1 1 seed 1 1 o -> o = None.
Proof.
  intros part seed. pose proof (use_di hot_input) as DI. pose proof hot_input as HI.
  set (radii := [1/2; 1/2]%R) in *. set (angles := [0; 0]%R) in *.
  assert (Hin : Forall (fun r => r < 1)%R radii) by (repeat (apply Forall_cons; [lra|]); apply Forall_nil).
  destruct (hbuild_ok radii angles 1 1 DI 1 ltac:(split; [lia|]; clear; lia)) as (t & ord & TS & HO & HU).
  destruct (build_asserts radii angles 1 1 DI Hin ltac:(lra) t ord TS) as [A1 A2].
  assert (EL : lev 1 0 = 0%N).
  { destruct (lev_spec 1 0 ltac:(lra) ltac:(cbn; lra)) as (E & _ & _). rewrite (pbl_0 (rmin 1 0) (1 - 1) 1) in E; [now injection E|lra|].
    rewrite rmin_eq. cbn [INR]. apply Rabs_le. lra. }
  assert (Elv : h_levels t = 1%N) by (rewrite (hs_levels _ _ _ _ _ _ TS), EL; reflexivity).
  assert (Ehm : hm 1 = 1) by (unfold hm; change 1%R with (IZR 1); rewrite Zceil_IZR; reflexivity).
  assert (Ely : h_layers t = 1).
  { pose proof (hs_layers _ _ _ _ _ _ TS). pose proof (hs_lay _ _ _ _ _ _ TS 0 ltac:(cbn; lia)). lia. }
  assert (EV : hvisit false t (N.to_nat (h_levels t)) 0 0 0 = Some [CallI 0 0 0 0 0]).
  { rewrite Elv. change (N.to_nat 1) with 1. cbn [hvisit].
    assert (Et : htouching 0 0 0 = Some true) by reflexivity. rewrite Et. cbn [obind negb]. rewrite Elv. cbn [N.eqb N.sub].
    unfold hnear_calls, h_layer_pairs. rewrite Ely. cbn [seq list_prod map app filter fst snd].
    assert (Eb : h_base t 0 0 = 0%N).
    { unfold h_base. rewrite (hs_R _ _ _ _ _ _ TS), pbl_0; [reflexivity|lra|]. unfold layer_rad_min. cbn [INR]. apply Rabs_le. lra. }
    rewrite Eb. reflexivity. }
  assert (EP : dpoints_in t 0 0 0 = Some (map (hmk radii angles 1) ord)).
  { rewrite (dpoints_in_eq radii angles 1 1 DI t ord TS 0 0 0); [|lia|lia|split; reflexivity]. do 2 f_equal.
    assert (Q : forall l, (forall u, In u l -> u < 2) -> filter (fun u => (hlay radii 1 u =? 0) && (cel angles 0 u =? 0)%N) l = l).
    { induction l as [|u l IH]; intros Hl; [reflexivity|]. cbn [filter]. rewrite IH by (intros; apply Hl; now right).
      assert (Hu : u < 2) by (apply Hl; now left).
      assert (E1 : rad radii u = (1 / 2)%R) by (destruct u as [|[|u]]; [reflexivity|reflexivity|lia]).
      assert (E2 : phi angles u = 0%R) by (destruct u as [|[|u]]; [reflexivity|reflexivity|lia]).
      assert (E3 : hlay radii 1 u = 0).
      { unfold hlay. rewrite E1. assert (Z : Zfloor (1 - 1 / 2) = 0%Z) by (apply Zfloor_imp; change (0 + 1)%Z with 1%Z; lra). rewrite Z. reflexivity. }
      assert (E4 : cel angles 0 u = 0%N).
      { unfold cel. rewrite E2. pose proof (hcel_in 0 0 ltac:(split; [lra|pose proof PI_RGT_0; lra])) as [_ H1]. change (hfc (0 + 1)) with 1%N in H1. lia. }
      rewrite E3, E4. reflexivity. }
    apply Q. intros u Hu. apply (Permutation_in _ (hs_perm _ _ _ _ _ _ TS)), in_seq in Hu. cbn in Hu. lia. }
  assert (EN : exists u v, ord = [u; v] /\ u < 2 /\ v < 2).
  { pose proof (hs_perm _ _ _ _ _ _ TS) as P. pose proof (Permutation_length P) as L. cbn in L.
    destruct ord as [|u [|v [|w r]]]; try discriminate. exists u, v. split; [reflexivity|].
    split; [assert (I : In u [u; v]) by now left|assert (I : In v [u; v]) by (right; now left)]; apply (Permutation_in _ P), in_seq in I; cbn in I; lia. }
  destruct EN as (u & v & -> & Hu & Hv).
  assert (ER : drun_calls radii angles t hot_rng [CallI 0 0 0 0 0] tt = None).
  { cbn [drun_calls drun_call]. unfold dsampleTypeI. rewrite EP. cbn [obind map]. cbn [N.eqb Nat.eqb andb].
    unfold numbered. cbn [length seq combine]. cbn [pairsI]. cbn [Nat.add]. cbn [skipn map app]. cbn [ddecideI].
    match goal with |- context [dpairI ?a ?b ?c ?d ?e ?f ?g ?h ?i ?j ?k ?l] => destruct (dpairI a b c d e f g h i j k l); [|reflexivity] end. cbn [obind].
    rewrite (hs_T _ _ _ _ _ _ TS). assert (ET : threshold_mode 1 = false) by (apply Rleb_false; lra). rewrite ET.
    cbn [u01 hot_rng]. unfold typeI_filter. rewrite (hs_T _ _ _ _ _ _ TS), (hs_R _ _ _ _ _ _ TS). rewrite hot_decide; [reflexivity|].
    rewrite (mk_cosh radii angles 1 DI Hin u v) by assumption.
    assert (E1 : forall w, w < 2 -> rad radii w = (1 / 2)%R) by (intros [|[|w]] Hw; [reflexivity|reflexivity|lia]).
    assert (E2 : forall w, w < 2 -> phi angles w = 0%R) by (intros [|[|w]] Hw; [reflexivity|reflexivity|lia]).
    rewrite !E1, !E2 by assumption. unfold hc. replace (0 - 0)%R with 0%R by ring. rewrite cos_0.
    replace (sinh (1 / 2) * sinh (1 / 2) * 1)%R with (sinh (1 / 2) * sinh (1 / 2))%R by ring. pose proof (cosh_sqr (1 / 2)). lra. }
  assert (GD : forall ors, generate_debug radii angles part t hot_hrng seed 1 1 ors <-> ors = None).
  { intros ors. unfold generate_debug. cbn [Nat.eqb]. rewrite EV. cbn [obind hb hot_hrng rseed hot_rng]. split.
    - intros (s & _ & ->). change (rseed hot_rng s) with tt. rewrite ER. reflexivity.
    - intros ->. exists seed. split; [auto|]. rewrite ER. reflexivity. }
  split.
  - exists (Some t). split; [exists (Some t); split; [exact HO|]; rewrite A1; cbn [obind]; rewrite A2; reflexivity|].
    exists None. split; [now apply GD|reflexivity].
  - intros o (ot & (ot' & H1 & ->) & H). rewrite (HU _ H1), A1 in H. cbn [obind] in H. rewrite A2 in H. cbn [obind] in H.
    destruct H as (ors & G1 & H). apply GD in G1. subst ors. exact H.
Qed.

(** ** a concrete case: three points, two threads, threshold and T = 1/2 *)
Example ex_hrg_debug : forall T, (T = 0 \/ T = 1 / 2)%R ->
  ~ hrg_debug [1/2; 3; 5]%R [0; 1; 3]%R ex_part ex_hrng T 6 5 2 2 None /\
  exists edges, hrg_debug [1/2; 3; 5]%R [0; 1; 3]%R ex_part ex_hrng T 6 5 2 2 (Some edges).
Proof.
  intros T HT. assert (P : (3 < PI)%R) by (pose proof PI2_3_2; lra).
  assert (HI : hrg_input [1/2; 3; 5]%R [0; 1; 3]%R 6 2 2).
  { constructor; try (cbn; lia); try lra; try (split; [apply N.leb_le|apply N.leb_le]; reflexivity); repeat (apply Forall_cons; [lra|]); apply Forall_nil. }
  assert (Hin : Forall (fun r => r < 6)%R [1/2; 3; 5]%R) by (repeat (apply Forall_cons; [lra|]); apply Forall_nil).
  assert (L99 : (ln 99 <= 6)%R).
  { rewrite <- (ln_exp 6). left. apply ln_increasing; [lra|]. replace 6%R with (1 + 1 + 1 + 1 + 1 + 1)%R by ring. rewrite !exp_plus. destruct e_bounds as [B _].
    assert (X2 : (25 / 4 <= exp 1 * exp 1)%R) by nra. assert (X4 : (39 <= exp 1 * exp 1 * exp 1 * exp 1)%R) by nra. nra. }
  assert (L0 : (0 <= ln 99)%R) by (rewrite <- ln_1; left; apply ln_increasing; lra).
  assert (HTR : (2 * T * ln 99 <= 6)%R) by (destruct HT as [-> | ->]; lra).
  destruct (C64_no_assertion_fails ex_part ex_hrng _ _ T 6 5 2 2 HI Hin ltac:(lra) ltac:(lra) HTR ex_rng_good ex_part_ok) as (N & R & _).
  split; [exact N|]. destruct (proj1 R ex_hrg_returns) as [[edges|] Ho]; [eauto|]. exfalso. exact (N Ho).
Qed.
Example ex_boundary_point : forall o, hrg_debug [1/2; 3; 6]%R [0; 1; 3]%R ex_part ex_hrng 0 6 5 2 2 o -> o = None.
Proof.
  apply (C64_boundary_point_refuted ex_part ex_hrng _ _ 0 6 5 2 2 (ex_hrg_input 2 2 ltac:(split; [apply N.leb_le|apply N.leb_le]; reflexivity) ltac:(lia))).
  right. right. now left.
Qed.

Print Assumptions C64_no_assertion_fails.
Print Assumptions C64_no_assertion_fails_while_running.
Print Assumptions C64_boundary_point_refuted.
Print Assumptions C64_small_disc_refuted.
Print Assumptions C64_high_temperature_refuted.
