(** Property C61: which seed determines what in a run of the command line tools. *)
From Coq Require Import String Arith NArith ZArith List Bool Reals Lia Lra Permutation.
From Verif Require Import Base Sched Coord_Model Tree_Model Tree_Run Girg_Model Girg_Num
  Hyp_Model Hyp_Math Hyp_Levels Hyp_Gen Prop_Hyp HypIn_Model Prop_HypIn Sampling_Model Sampling_Proofs Prop_Girg Prop_Sampling
  Scaling_Model Scaling_Loops Scaling_Search Prop_Scaling Scaling_Det Cli_Model Cli_Proofs Prop_Cli Run_Model Prop_Run HrgRun_Model Prop_HrgRun.
Import ListNotations.
Local Open Scope R_scope.

(** ** Specification *)
(** a run to which C58 applies *)
Definition valid_girg (rg : rng) (c : gparams) : Prop := exists stod omp_max args ple deg,
  gengirg stod omp_max args = Run c /\ g_ple c = DFin ple /\ g_deg c = DFin deg /\ g_alpha c <> DNaN /\ (omp_max <= 2 ^ 17)%Z /\ seeds_fit c /\ weights_moderate rg c ple deg.
(** a run to which C60 applies *)
Definition valid_hrg (c : hparams) : Prop := exists stod omp_max args alpha T deg,
  genhrg stod omp_max args = Run c /\ h_alpha c = DFin alpha /\ h_T c = DFin T /\ h_deg c = DFin deg /\ 1 / 2 < alpha /\ (omp_max <= 2 ^ 17)%Z /\ (h_n c + 9999 < 2 ^ 31)%Z /\ hrg_seeds_fit c /\ radius_moderate c alpha T deg.
(** the same undirected edges *)
Definition same_graph (e1 e2 : list (nat * nat)) : Prop := forall u v, u <> v -> (In (u, v) e1 \/ In (v, u) e1 <-> In (u, v) e2 \/ In (v, u) e2).

(** ** Proofs *)
Lemma scale_deterministic : forall ws deg d alpha r1 r2 ws1 ws2, scale_weights ws deg d alpha r1 ws1 -> scale_weights ws deg d alpha r2 ws2 -> r1 = r2 /\ ws1 = ws2.
Proof. exact scale_weights_det. Qed.
Lemma finished_parts cfg rg c ws ps s es txt dot : gengirg_main cfg rg c (Finished ws ps s es txt dot) ->
  exists ple deg tw tp te alpha ws', g_ple c = DFin ple /\ g_deg c = DFin deg /\ edge_alpha (g_alpha c) = Some alpha /\
    generateWeights ideal_env rg (Z.to_nat (g_n c)) ple (g_wseed c) (1 <? g_threads c)%Z (Z.to_nat (g_threads c)) tw (Some ws) /\
    generatePositions rg (Z.to_nat (g_n c)) (Z.to_nat (g_d c)) (g_pseed c) true (Z.to_nat (g_threads c)) tp (Some ps) /\
    scale_weights ws deg (Z.to_nat (g_d c)) (g_alpha c) (Returned s) ws' /\
    (1 <= te <= Z.to_nat (g_threads c))%nat /\ girg_outcome ideal_env cfg rg ws' ps alpha (g_sseed c) (Z.to_nat (g_threads c)) te (Some es) /\
    Finished ws ps s es txt dot = write_files c ws ps s ws' es.
Proof.
  unfold gengirg_main. destruct (g_ple c) as [| |ple] eqn:E1; try tauto. destruct (g_deg c) as [| |deg] eqn:E2; try tauto. destruct (_ <? 0)%Z; [discriminate|]. destruct (_ =? 0)%Z; [discriminate|]. cbv zeta.
  intros (tw & ow & GW & H). destruct ow as [ws0|]; [|discriminate]. destruct H as (tp & op & GP & H). destruct op as [ps0|]; [|discriminate]. destruct H as (sr & ws' & SW & H). destruct sr as [|s0]; [discriminate|].
  destruct (edge_alpha (g_alpha c)) as [al|] eqn:E3; [|discriminate]. destruct H as (te & oe & Ht & HO & H). destruct oe as [es0|]; [|discriminate].
  assert (EQ : ws0 = ws /\ ps0 = ps /\ s0 = s /\ es0 = es). { unfold write_files in H. destruct (g_dot c); [destruct (dot_file ws' ps0 (index_pairs es0)); [|discriminate]|]; injection H as -> -> -> -> _ _; repeat split; reflexivity. }
  destruct EQ as (-> & -> & -> & ->). exists ple, deg, tw, tp, te, al, ws'. repeat split; try assumption; try apply GW; try apply GP; try apply Ht.
Qed.
Lemma finished_input rg c cfg ws ps s es txt dot : valid_girg rg c -> good_rng rg -> gengirg_main cfg rg c (Finished ws ps s es txt dot) ->
  exists alpha te, edge_alpha (g_alpha c) = Some alpha /\ (1 <= te <= Z.to_nat (g_threads c))%nat /\ girg_outcome ideal_env cfg rg (scaled s ws) ps alpha (g_sseed c) (Z.to_nat (g_threads c)) te (Some es) /\
    girg_input (Z.to_N (g_d c)) (scaled s ws) ps (g_sseed c) (Z.to_nat (g_threads c)) te.
Proof.
  intros (stod & omp_max & args & ple & deg & HR & Hple & Hdeg & Hnan & Homp & HS & HM) GR HF.
  destruct (finished_parts _ _ _ _ _ _ _ _ _ HF) as (ple' & deg' & tw & tp & te & al & ws' & E1 & E2 & EA & GW & GP & SW & Hte & HO & _). rewrite Hple in E1. rewrite Hdeg in E2. injection E1 as <-. injection E2 as <-.
  pose proof (n_is_int _ _ _ _ HR) as Hn31. pose proof (ranges HR Hple Hdeg) as (N2 & DD & PL & AL & DG & TH).
  set (n := Z.to_nat (g_n c)) in *. set (threads := Z.to_nat (g_threads c)) in *. set (d := Z.to_nat (g_d c)) in *.
  assert (Hn : (2 <= n)%nat) by (unfold n; lia). assert (HnZ : Z.of_nat n = g_n c) by (unfold n; lia). assert (En : INR n = IZR (g_n c)) by (rewrite INR_IZR_INZ, HnZ; reflexivity).
  assert (TL : forall par t, (1 <= t <= input_threads par threads n)%nat -> (1 <= t <= threads)%nat).
  { intros par t Ht. pose proof (input_threads_le HR Hple Hdeg par) as Q. fold threads in Q. fold n in Q. lia. }
  destruct (weights_bounds rg n ple (g_wseed c) tw GR Hn ltac:(lra) ltac:(destruct GW; lia)) as [_ WB]; [eapply team_seed; try eassumption; [now left|apply (TL _ _ (proj1 GW))]|].
  destruct (WB _ (proj2 GW)) as (ws0 & E0 & L & B). injection E0 as <-.
  destruct (C28_positions rg n d (g_pseed c) tp GR ltac:(destruct GP; lia)) as [_ PB]; [eapply team_seed; try eassumption; [right; now left|apply (TL _ _ (proj1 GP))]|].
  destruct (PB _ (proj2 GP)) as (ps0 & gens & E0 & _ & LP & F1 & F2 & _). injection E0 as <-. rewrite List.Forall_forall in F1, F2.
  assert (Hne : ws <> []) by (intros ->; cbn in L; lia).
  assert (AR : match g_alpha c with DFin a => 1 < a | _ => True end) by (destruct (g_alpha c); [exact I|exact I|exact AL]).
  destruct (moderate_ok ws n deg d (g_alpha c) s ws' Hne L Hn ltac:(lia) B ltac:(unfold d; lia) ltac:(rewrite En; lra) AR (HM tw ws GW) SW) as [E WO]. subst ws'.
  exists al, te. split; [exact EA|]. split; [exact Hte|]. split; [exact HO|].
  assert (LW : List.length (scaled s ws) = n) by (unfold scaled; now rewrite map_length). constructor; auto.
  - lia.
  - congruence.
  - rewrite LW. lia.
  - apply List.Forall_forall. intros p Hp. split; [rewrite (F1 p Hp); unfold d; lia|]. apply List.Forall_forall. intros x Hx. specialize (F2 p Hp). rewrite List.Forall_forall in F2. specialize (F2 x Hx). lra.
  - unfold threads. change (2 ^ 17)%N with 131072%N. change (2 ^ 17)%Z with 131072%Z in Homp. lia.
  - unfold threads. specialize (HS (g_sseed c) ltac:(cbn; tauto)). lia.
Qed.

(** ** gengirg: for any two runs *)
Theorem C61_gengirg_seeds : forall cfg rg c1 c2 ws1 ps1 s1 es1 txt1 dot1 ws2 ps2 s2 es2 txt2 dot2,
  good_rng rg -> valid_girg rg c1 -> valid_girg rg c2 ->
  gengirg_main cfg rg c1 (Finished ws1 ps1 s1 es1 txt1 dot1) -> gengirg_main cfg rg c2 (Finished ws2 ps2 s2 es2 txt2 dot2) ->
  let small := (g_n c1 < 20000)%Z \/ (g_threads c1 = 1%Z /\ g_threads c2 = 1%Z) in
  (* -n, -ple and -wseed determine the weights *)
  (g_n c1 = g_n c2 -> g_ple c1 = g_ple c2 -> g_wseed c1 = g_wseed c2 -> (0 <= g_wseed c1)%Z -> small -> ws1 = ws2) /\
  (* -n, -d and -pseed determine the positions *)
  (g_n c1 = g_n c2 -> g_d c1 = g_d c2 -> g_pseed c1 = g_pseed c2 -> (0 <= g_pseed c1)%Z -> small -> ps1 = ps2) /\
  (* the weights, -deg, -d and -alpha determine the scaling *)
  (ws1 = ws2 -> g_deg c1 = g_deg c2 -> g_d c1 = g_d c2 -> g_alpha c1 = g_alpha c2 -> s1 = s2) /\
  (* weights, scaling, positions, -alpha and -sseed determine the edges; with one thread even their order *)
  (ws1 = ws2 -> ps1 = ps2 -> s1 = s2 -> g_d c1 = g_d c2 -> g_alpha c1 = g_alpha c2 -> g_sseed c1 = g_sseed c2 -> (0 <= g_sseed c1)%Z -> g_threads c1 = 1%Z -> g_threads c2 = 1%Z -> es1 = es2) /\
  (* the edges of a threshold graph depend neither on -sseed nor on -threads *)
  (ws1 = ws2 -> ps1 = ps2 -> s1 = s2 -> g_d c1 = g_d c2 -> g_alpha c1 = DInf true -> g_alpha c2 = DInf true -> same_graph es1 es2).
Proof.
  intros cfg rg c1 c2 ws1 ps1 s1 es1 txt1 dot1 ws2 ps2 s2 es2 txt2 dot2 GR V1 V2 F1 F2 small.
  destruct (finished_parts _ _ _ _ _ _ _ _ _ F1) as (ple1 & deg1 & tw1 & tp1 & te1 & al1 & ws1' & P1 & D1 & A1 & GW1 & GP1 & SW1 & Ht1 & HO1 & _).
  destruct (finished_parts _ _ _ _ _ _ _ _ _ F2) as (ple2 & deg2 & tw2 & tp2 & te2 & al2 & ws2' & P2 & D2 & A2 & GW2 & GP2 & SW2 & Ht2 & HO2 & _).
  assert (TR : forall (T1 T2 : Z), T1 = 1%Z -> T2 = 1%Z -> (1 <? T1)%Z = false /\ (1 <? T2)%Z = false) by (intros T1 T2 -> ->; split; reflexivity).
  split; [|split; [|split; [|split]]].
  - intros En Ep Es H0 Hs. rewrite P1, P2 in Ep. injection Ep as <-. rewrite <- En, <- Es in GW2.
    assert (X : (N.of_nat (Z.to_nat (g_n c1)) < 20000)%N \/ ((1 <? g_threads c1)%Z = false /\ (1 <? g_threads c2)%Z = false)) by (destruct Hs as [Hs|[Hs1 Hs2]]; [left; lia|right; now apply TR]).
    destruct (C29_thread_count_irrelevant ideal_env rg (Z.to_nat (g_n c1)) 0 ple1 (g_wseed c1) _ (Z.to_nat (g_threads c1)) tw1 _ (Z.to_nat (g_threads c2)) tw2 H0 X) as [Y _]. specialize (Y _ _ GW1 GW2). now injection Y.
  - intros En Ed Es H0 Hs. rewrite <- En, <- Ed, <- Es in GP2. destruct Hs as [Hs|[Hs1 Hs2]].
    + destruct (C29_thread_count_irrelevant ideal_env rg (Z.to_nat (g_n c1)) (Z.to_nat (g_d c1)) 0 (g_pseed c1) true (Z.to_nat (g_threads c1)) tp1 true (Z.to_nat (g_threads c2)) tp2 H0 ltac:(left; lia)) as [_ Y]. specialize (Y _ _ GP1 GP2). now injection Y.
    + assert (T1 : tp1 = 1%nat) by (destruct GP1 as [G _]; unfold input_threads in G; rewrite Hs1 in G; lia). assert (T2 : tp2 = 1%nat) by (destruct GP2 as [G _]; unfold input_threads in G; rewrite Hs2 in G; lia). subst tp1 tp2.
      destruct (C29_reproducible ideal_env rg (Z.to_nat (g_n c1)) (Z.to_nat (g_d c1)) 0 (g_pseed c1) true (Z.to_nat (g_threads c1)) true (Z.to_nat (g_threads c2)) 1 H0) as [_ Y]. specialize (Y _ _ GP1 GP2). now injection Y.
  - intros <- Eg Ed Ea. rewrite D1, D2 in Eg. injection Eg as <-. rewrite <- Ed, <- Ea in SW2. destruct (scale_weights_det _ _ _ _ _ _ _ _ SW1 SW2) as [E _]. now injection E.
  - intros <- <- <- Ed Ea Es H0 T1 T2. destruct (finished_input _ _ _ _ _ _ _ _ _ V1 GR F1) as (b1 & t1 & B1 & K1 & O1 & I1). destruct (finished_input _ _ _ _ _ _ _ _ _ V2 GR F2) as (b2 & t2 & B2 & K2 & O2 & I2).
    rewrite <- Ea, B1 in B2. injection B2 as <-. rewrite <- Es, T2 in O2. rewrite T1 in O1, I1, K1. rewrite T2 in K2. change (Z.to_nat 1) with 1%nat in *. assert (t1 = 1%nat) by lia. assert (t2 = 1%nat) by lia. subst t1 t2.
    destruct (C09_reproducible cfg rg _ _ _ b1 _ _ _ I1 GR H0 _ _ O1 O2) as (e1 & e2 & X1 & X2 & _ & X & _). injection X1 as <-. injection X2 as <-. now apply X.
  - intros <- <- <- Ed Ea1 Ea2. destruct (finished_input _ _ _ _ _ _ _ _ _ V1 GR F1) as (b1 & t1 & B1 & K1 & O1 & I1). destruct (finished_input _ _ _ _ _ _ _ _ _ V2 GR F2) as (b2 & t2 & B2 & K2 & O2 & I2).
    rewrite Ea1 in B1. rewrite Ea2 in B2. injection B1 as <-. injection B2 as <-.
    destruct (C01_threshold_graph_is_exact cfg rg _ _ _ _ _ _ I1 GR) as [_ X1]. destruct (X1 _ O1) as (e1 & Y1 & Z1). injection Y1 as <-. destruct (C01_threshold_graph_is_exact cfg rg _ _ _ _ _ _ I2 GR) as [_ X2]. destruct (X2 _ O2) as (e2 & Y2 & Z2). injection Y2 as <-.
    destruct (C03_endpoints_are_node_indices cfg rg _ _ _ _ _ _ _ I1 GR _ O1) as (e1 & Y1 & W1). injection Y1 as <-. destruct (C03_endpoints_are_node_indices cfg rg _ _ _ _ _ _ _ I2 GR _ O2) as (e2 & Y2 & W2). injection Y2 as <-.
    intros u v Huv. destruct (Nat.lt_ge_cases u (List.length (scaled s1 ws1))) as [Hu|Hu]; [destruct (Nat.lt_ge_cases v (List.length (scaled s1 ws1))) as [Hv|Hv]|].
    + rewrite (Z1 u v Hu Hv Huv), (Z2 u v Hu Hv Huv). rewrite Ed. reflexivity.
    + split; intros [C|C]; first [apply W1 in C|apply W2 in C]; lia.
    + split; intros [C|C]; first [apply W1 in C|apply W2 in C]; lia.
Qed.
(** the same command with one thread and non-negative seeds always gives the same result *)
Theorem C61_gengirg_reproducible : forall cfg rg c r1 r2, good_rng rg -> valid_girg rg c -> g_threads c = 1%Z -> (0 <= g_wseed c)%Z -> (0 <= g_pseed c)%Z -> (0 <= g_sseed c)%Z ->
  gengirg_main cfg rg c r1 -> gengirg_main cfg rg c r2 -> r1 = r2.
Proof.
  intros cfg rg c r1 r2 GR V T1 H1 H2 H3 R1 R2. pose proof V as (stod & omp_max & args & ple & deg & HR & Hple & Hdeg & Hnan & Homp & HS & HM).
  destruct (C58_gengirg_run stod omp_max args c cfg rg ple deg HR Hple Hdeg Hnan Homp HS GR HM) as [_ X].
  destruct (X r1 R1) as (ws1 & ps1 & s1 & es1 & txt1 & dot1 & -> & _). destruct (X r2 R2) as (ws2 & ps2 & s2 & es2 & txt2 & dot2 & -> & _).
  destruct (C61_gengirg_seeds cfg rg c c _ _ _ _ _ _ _ _ _ _ _ _ GR V V R1 R2) as (Y1 & Y2 & Y3 & Y4 & _).
  assert (E1 : ws1 = ws2) by (apply Y1; auto). assert (E2 : ps1 = ps2) by (apply Y2; auto). assert (E3 : s1 = s2) by (apply Y3; auto). assert (E4 : es1 = es2) by (apply Y4; auto).
  destruct (finished_parts _ _ _ _ _ _ _ _ _ R1) as (? & deg1 & ? & ? & ? & ? & ws1' & _ & D1 & _ & _ & _ & SW1 & _ & _ & W1). destruct (finished_parts _ _ _ _ _ _ _ _ _ R2) as (? & deg2 & ? & ? & ? & ? & ws2' & _ & D2 & _ & _ & _ & SW2 & _ & _ & W2).
  subst. rewrite D1 in D2. injection D2 as <-. destruct (scale_weights_det _ _ _ _ _ _ _ _ SW1 SW2) as [_ <-]. congruence.
Qed.

(** ** genhrg: for any two runs *)
Lemma hfinished_parts nd part hg raw0 c Rd radii angles es txt hyp : genhrg_main nd part hg raw0 c (HFinished Rd radii angles es txt hyp) ->
  exists alpha T deg tr ta te, h_alpha c = DFin alpha /\ h_T c = DFin T /\ h_deg c = DFin deg /\ estimate c alpha T deg (Some Rd) /\
    sampleRadii {| he := hb hg; raw := raw0 |} (Z.to_nat (h_n c)) alpha Rd (h_rseed c) (1 <? h_threads c)%Z (Z.to_nat (h_threads c)) tr (Some radii) /\
    sampleAngles {| he := hb hg; raw := raw0 |} (Z.to_nat (h_n c)) (h_aseed c) (1 <? h_threads c)%Z (Z.to_nat (h_threads c)) ta (Some angles) /\
    (1 <= te <= Z.to_nat (h_threads c))%nat /\ hrg_outcome nd part hg radii angles T Rd (h_sseed c) (Z.to_nat (h_threads c)) te (Some es) /\
    HFinished Rd radii angles es txt hyp = write_hrg c Rd radii angles es.
Proof.
  unfold genhrg_main. destruct (h_alpha c) as [| |alpha] eqn:E1; try tauto. destruct (h_T c) as [| |T] eqn:E2; try tauto. destruct (h_deg c) as [| |deg] eqn:E3; try tauto. cbv zeta.
  intros (er & HE & H). destruct er as [Rd0|]; [|discriminate]. destruct H as (tr & orad & HR & H). destruct orad as [rs0|]; [|discriminate]. destruct H as (ta & oang & HA & H). destruct oang as [as0|]; [|discriminate].
  destruct H as (te & oe & Ht & HO & H). destruct oe as [es0|]; [|discriminate].
  assert (EQ : Rd0 = Rd /\ rs0 = radii /\ as0 = angles /\ es0 = es). { unfold write_hrg in H. cbv zeta in H. destruct (h_coord c); [destruct (hyp_file _ rs0 as0); [|discriminate]|]; injection H as -> -> -> -> _ _; repeat split; reflexivity. }
  destruct EQ as (-> & -> & -> & ->). exists alpha, T, deg, tr, ta, te. repeat split; try assumption; try apply Ht.
Qed.
Lemma estimate_det c1 c2 alpha T deg a b : h_n c1 = h_n c2 -> h_nkr c1 = h_nkr c2 -> estimate c1 alpha T deg a -> estimate c2 alpha T deg b -> a = b.
Proof. unfold estimate. intros -> ->. destruct (h_nkr c2); [apply C45_deterministic|congruence]. Qed.
(** one sampling thread: because of -threads 1 or because n <= 10000 *)
Lemma hsample_det en Radii Angles n alpha Rd seed par1 omp1 team1 par2 omp2 team2 o1 o2 : (1 <= n)%nat -> (1 <= omp1)%nat -> (1 <= omp2)%nat -> (0 <= seed)%Z ->
  (N.of_nat n <= 10000)%N \/ (par1 = false /\ par2 = false) ->
  hsample_outcome en Radii Angles n alpha Rd seed par1 omp1 team1 (Some o1) -> hsample_outcome en Radii Angles n alpha Rd seed par2 omp2 team2 (Some o2) -> o1 = o2.
Proof.
  intros Hn H1 H2 Hs Hp.
  assert (TH : hinput_threads par1 omp1 n = Some 1%nat /\ hinput_threads par2 omp2 n = Some 1%nat).
  { destruct Hp as [Hp|[-> ->]]; [|split; reflexivity]. assert (D : ((N.of_nat n + 9999) / 10000 = 1)%N).
    { apply N.le_antisymm; [apply N.lt_succ_r; apply N.div_lt_upper_bound; lia|apply N.div_le_lower_bound; lia]. }
    assert (L : (N.of_nat n + 9999 <? 2 ^ 31)%N = true) by (apply N.ltb_lt; change (2 ^ 31)%N with 2147483648%N; lia).
    unfold hinput_threads. rewrite L, D. change (N.to_nat 1) with 1%nat. rewrite !Nat.min_r by lia. destruct par1, par2; split; reflexivity. }
  destruct TH as [E1 E2]. unfold hsample_outcome. rewrite E1, E2. cbn [obind warmup Nat.eqb]. intros [T1 O1] [T2 O2]. assert (team1 = 1%nat) by lia. assert (team2 = 1%nat) by lia. subst team1 team2.
  destruct (_ && _)%bool; [|discriminate]. destruct O1 as (g1 & G1 & F1), O2 as (g2 & G2 & F2). unfold gens_ok in G1, G2. rewrite (proj2 (Z.leb_le _ _) Hs) in G1, G2. subst g1 g2.
  apply filled_iff in F1; [|lia|now rewrite map_length, map_length, seq_length]. apply filled_iff in F2; [|lia|now rewrite map_length, map_length, seq_length]. congruence.
Qed.
Lemma hfinished_input nd part hg raw0 c Rd radii angles es txt hyp : good_rng (hb hg) -> is_partition task_eq part -> valid_hrg c -> genhrg_main nd part hg raw0 c (HFinished Rd radii angles es txt hyp) ->
  exists T te, h_T c = DFin T /\ (1 <= te <= Z.to_nat (h_threads c))%nat /\ hrg_outcome nd part hg radii angles T Rd (h_sseed c) (Z.to_nat (h_threads c)) te (Some es) /\
    hrg_input radii angles Rd (Z.to_nat (h_threads c)) te /\ (h_threads c = 1%Z \/ te = Z.to_nat (h_threads c)) /\ (1 <= h_threads c)%Z /\ (2 <= h_n c)%Z /\ List.length radii = Z.to_nat (h_n c).
Proof.
  intros GR HP (stod & omp_max & args & alpha & T & deg & HR & EA & ET & ED & Ha & Homp & HN & HS & HM) HF.
  destruct (hrg_in_range _ _ _ _ _ _ _ HR EA ET ED) as (AR & TR & DR & TH & N2). pose proof (hrg_n_is_int _ _ _ _ HR) as N31.
  destruct (C60_genhrg_run stod omp_max args c alpha T deg nd part hg raw0 HR EA ET ED Ha Homp HN HS GR HP HM) as [_ X]. destruct (X _ HF) as (Rd0 & rs0 & as0 & es0 & txt0 & hyp0 & E & HE & L1 & F1 & L2 & F2 & _).
  injection E as <- <- <- <- <- <-. destruct (hfinished_parts _ _ _ _ _ _ _ _ _ _ _ HF) as (alpha' & T' & deg' & tr & ta & te & _ & ET' & _ & _ & _ & _ & Hte & HO & _). rewrite ET in ET'. injection ET' as <-.
  pose proof (HM Rd HE) as HRd.
  assert (HI : hrg_input radii angles Rd (Z.to_nat (h_threads c)) te).
  { constructor; try lia; try lra.
    - now apply List.Forall_forall.
    - now apply List.Forall_forall.
  }
  exists T, te. split; [exact ET|]. split; [exact Hte|]. split; [exact HO|]. split; [exact HI|]. split; [|split; [lia|split; [lia|exact L1]]].
  assert (RT : returns Rd (Z.to_nat (h_threads c)) te) by (apply (C39_returns_iff nd part hg radii angles T Rd (h_sseed c) _ te HI GR HP); eauto). destruct RT as [RT|[RT _]]; [left; lia|right; exact RT].
Qed.
Theorem C61_genhrg_seeds : forall nd part hg raw0 c1 c2 Rd1 radii1 angles1 es1 txt1 hyp1 Rd2 radii2 angles2 es2 txt2 hyp2,
  good_rng (hb hg) -> is_partition task_eq part -> valid_hrg c1 -> valid_hrg c2 ->
  genhrg_main nd part hg raw0 c1 (HFinished Rd1 radii1 angles1 es1 txt1 hyp1) -> genhrg_main nd part hg raw0 c2 (HFinished Rd2 radii2 angles2 es2 txt2 hyp2) ->
  let small := (h_n c1 <= 10000)%Z \/ (h_threads c1 = 1%Z /\ h_threads c2 = 1%Z) in
  (* no seed is involved in the radius of the disc *)
  (h_n c1 = h_n c2 -> h_alpha c1 = h_alpha c2 -> h_T c1 = h_T c2 -> h_deg c1 = h_deg c2 -> h_nkr c1 = h_nkr c2 -> Rd1 = Rd2) /\
  (* -n, -alpha, the radius of the disc and -rseed determine the radii *)
  (h_n c1 = h_n c2 -> h_alpha c1 = h_alpha c2 -> Rd1 = Rd2 -> h_rseed c1 = h_rseed c2 -> (0 <= h_rseed c1)%Z -> small -> radii1 = radii2) /\
  (* -n and -aseed determine the angles *)
  (h_n c1 = h_n c2 -> h_aseed c1 = h_aseed c2 -> (0 <= h_aseed c1)%Z -> small -> angles1 = angles2) /\
  (* coordinates, radius of the disc, -t, -sseed and -threads determine the edges up to their order; with one thread also the order *)
  (radii1 = radii2 -> angles1 = angles2 -> Rd1 = Rd2 -> h_T c1 = h_T c2 -> h_sseed c1 = h_sseed c2 -> (0 <= h_sseed c1)%Z -> h_threads c1 = h_threads c2 ->
    Permutation es1 es2 /\ (h_threads c1 = 1%Z -> es1 = es2)) /\
  (* the edges of a threshold graph depend neither on -sseed nor on -threads *)
  (radii1 = radii2 -> angles1 = angles2 -> Rd1 = Rd2 -> h_T c1 = DFin 0 -> h_T c2 = DFin 0 -> same_graph es1 es2).
Proof.
  intros nd part hg raw0 c1 c2 Rd1 radii1 angles1 es1 txt1 hyp1 Rd2 radii2 angles2 es2 txt2 hyp2 GR HP V1 V2 F1 F2 small.
  destruct (hfinished_parts _ _ _ _ _ _ _ _ _ _ _ F1) as (al1 & T1 & deg1 & tr1 & ta1 & te1 & A1 & K1 & D1 & E1 & SR1 & SA1 & _). destruct (hfinished_parts _ _ _ _ _ _ _ _ _ _ _ F2) as (al2 & T2 & deg2 & tr2 & ta2 & te2 & A2 & K2 & D2 & E2 & SR2 & SA2 & _).
  destruct (hfinished_input _ _ _ _ _ _ _ _ _ _ _ GR HP V1 F1) as (T1' & t1 & K1' & Ht1 & O1 & I1 & M1 & P1 & N1 & L1). destruct (hfinished_input _ _ _ _ _ _ _ _ _ _ _ GR HP V2 F2) as (T2' & t2 & K2' & Ht2 & O2 & I2 & M2 & P2 & N2 & L2).
  rewrite K1 in K1'. rewrite K2 in K2'. injection K1' as <-. injection K2' as <-.
  assert (SM : small -> (N.of_nat (Z.to_nat (h_n c1)) <= 10000)%N \/ ((1 <? h_threads c1)%Z = false /\ (1 <? h_threads c2)%Z = false)) by (intros [Hs|[-> ->]]; [left; lia|right; split; reflexivity]).
  split; [|split; [|split; [|split]]].
  - intros X1 X2 X3 X4 X5. rewrite A1, A2 in X2. rewrite K1, K2 in X3. rewrite D1, D2 in X4. injection X2 as <-. injection X3 as <-. injection X4 as <-. pose proof (estimate_det _ _ _ _ _ _ _ X1 X5 E1 E2) as X. now injection X.
  - intros X1 X2 <- X4 X5 X6. rewrite A1, A2 in X2. injection X2 as <-. rewrite <- X1, <- X4 in SR2. destruct SR1 as (oo1 & SR1 & Q1), SR2 as (oo2 & SR2 & Q2). destruct oo1 as [l1|]; [|discriminate]. destruct oo2 as [l2|]; [|discriminate]. cbn [obind] in Q1, Q2. injection Q1 as ->. injection Q2 as ->. f_equal.
    eapply hsample_det; [| | | |apply SM; exact X6|exact SR1|exact SR2]; lia.
  - intros X1 X2 X3 X4. rewrite <- X1, <- X2 in SA2. destruct SA1 as (oo1 & SA1 & Q1), SA2 as (oo2 & SA2 & Q2). destruct oo1 as [l1|]; [|discriminate]. destruct oo2 as [l2|]; [|discriminate]. cbn [obind] in Q1, Q2. injection Q1 as ->. injection Q2 as ->. f_equal.
    eapply hsample_det; [| | | |apply SM; exact X4|exact SA1|exact SA2]; lia.
  - intros <- <- <- X4 X5 X6 X7. rewrite K1, K2 in X4. injection X4 as <-. rewrite <- X5, <- X7 in O2. rewrite <- X7 in M2, Ht2. assert (t1 = t2) by lia. subst t2.
    destruct (C48_reproducible nd part hg _ _ _ _ _ _ _ I1 GR HP X6 _ _ O1 O2) as (e1 & e2 & Y1 & Y2 & Y3 & Y4). injection Y1 as <-. injection Y2 as <-. split; [exact Y3|]. intros X. apply Y4. lia.
  - intros <- <- <- X4 X5. rewrite K1 in X4. rewrite K2 in X5. injection X4 as ->. injection X5 as ->.
    destruct (C36_threshold_hrg_is_deterministic _ _ _ nd part hg _ _ _ nd part hg _ _ _ I1 GR HP I2 GR HP _ _ O1 O2) as (e1 & e2 & Y1 & Y2 & Y3). injection Y1 as <-. injection Y2 as <-.
    destruct (C37_simple_graph nd part hg _ _ _ _ _ _ _ I1 GR HP _ O1) as (e1 & Y1 & _ & W1 & _). injection Y1 as <-. destruct (C37_simple_graph nd part hg _ _ _ _ _ _ _ I2 GR HP _ O2) as (e2 & Y2 & _ & W2 & _). injection Y2 as <-.
    intros u v Huv. destruct (Nat.lt_ge_cases u (List.length radii1)) as [Hu|Hu]; [destruct (Nat.lt_ge_cases v (List.length radii1)) as [Hv|Hv]|].
    + exact (Y3 u v Hu Hv Huv).
    + split; intros [C|C]; first [apply W1 in C|apply W2 in C]; lia.
    + split; intros [C|C]; first [apply W1 in C|apply W2 in C]; lia.
Qed.
(** the same command with non-negative seeds and at most 10000 nodes always gives the same coordinates and, up to their order, the same edges; with one thread all is the same, files included *)
Theorem C61_genhrg_reproducible : forall nd part hg raw0 c r1 r2, good_rng (hb hg) -> is_partition task_eq part -> valid_hrg c -> (0 <= h_rseed c)%Z -> (0 <= h_aseed c)%Z -> (0 <= h_sseed c)%Z ->
  genhrg_main nd part hg raw0 c r1 -> genhrg_main nd part hg raw0 c r2 ->
  (h_threads c = 1%Z -> r1 = r2) /\
  ((h_n c <= 10000)%Z -> exists Rd radii angles es1 es2 txt1 txt2 hyp, r1 = HFinished Rd radii angles es1 txt1 hyp /\ r2 = HFinished Rd radii angles es2 txt2 hyp /\ Permutation es1 es2).
Proof.
  intros nd part hg raw0 c r1 r2 GR HP V H1 H2 H3 R1 R2. pose proof V as (stod & omp_max & args & alpha & T & deg & HR & EA & ET & ED & Ha & Homp & HN & HS & HM).
  destruct (C60_genhrg_run stod omp_max args c alpha T deg nd part hg raw0 HR EA ET ED Ha Homp HN HS GR HP HM) as [_ X].
  destruct (X r1 R1) as (Rd1 & rs1 & as1 & es1 & txt1 & hyp1 & -> & _). destruct (X r2 R2) as (Rd2 & rs2 & as2 & es2 & txt2 & hyp2 & -> & _). clear X.
  destruct (C61_genhrg_seeds nd part hg raw0 c c _ _ _ _ _ _ _ _ _ _ _ _ GR HP V V R1 R2) as (Y1 & Y2 & Y3 & Y4 & _).
  destruct (hfinished_parts _ _ _ _ _ _ _ _ _ _ _ R1) as (_ & _ & _ & _ & _ & _ & _ & _ & _ & _ & _ & _ & _ & _ & W1). destruct (hfinished_parts _ _ _ _ _ _ _ _ _ _ _ R2) as (_ & _ & _ & _ & _ & _ & _ & _ & _ & _ & _ & _ & _ & _ & W2).
  specialize (Y1 eq_refl eq_refl eq_refl eq_refl eq_refl). subst Rd2. split.
  - intros T1. specialize (Y2 eq_refl eq_refl eq_refl eq_refl H1 (or_intror (conj T1 T1))). specialize (Y3 eq_refl eq_refl H2 (or_intror (conj T1 T1))). subst rs2 as2. destruct (Y4 eq_refl eq_refl eq_refl eq_refl eq_refl H3 eq_refl) as [_ E]. specialize (E T1). subst es2. congruence.
  - intros Hn. specialize (Y2 eq_refl eq_refl eq_refl eq_refl H1 (or_introl Hn)). specialize (Y3 eq_refl eq_refl H2 (or_introl Hn)). subst rs2 as2. destruct (Y4 eq_refl eq_refl eq_refl eq_refl eq_refl H3 eq_refl) as [P _].
    exists Rd1, rs1, as1, es1, es2, txt1, txt2, hyp1. split; [reflexivity|]. split; [|exact P]. f_equal. unfold write_hrg in W1, W2. cbv zeta in W1, W2. destruct (h_coord c); [destruct (hyp_file _ _ _); [|discriminate]|]; injection W1; injection W2; congruence.
Qed.

(** ** The hypotheses can be met: two threshold runs that share only the seeds of the coordinates *)
Example ex_C61_girg : forall stod, exists c1 c2, gengirg stod 4 ["-n"; "100"; "-d"; "2"; "-threads"; "3"]%string = Run c1 /\ gengirg stod 4 ["-n"; "100"; "-d"; "2"; "-sseed"; "7"]%string = Run c2 /\
  valid_girg ex_rng c1 /\ valid_girg ex_rng c2 /\ (forall cfg, (exists r, gengirg_main cfg ex_rng c1 r) /\ (exists r, gengirg_main cfg ex_rng c2 r)) /\
  g_threads c1 <> g_threads c2 /\ g_sseed c1 <> g_sseed c2 /\
  forall cfg ws1 ps1 s1 es1 txt1 dot1 ws2 ps2 s2 es2 txt2 dot2, gengirg_main cfg ex_rng c1 (Finished ws1 ps1 s1 es1 txt1 dot1) -> gengirg_main cfg ex_rng c2 (Finished ws2 ps2 s2 es2 txt2 dot2) ->
    ws1 = ws2 /\ ps1 = ps2 /\ s1 = s2 /\ same_graph es1 es2.
Proof.
  intros stod. set (c := fun ss t => {| g_n := 100; g_d := 2; g_ple := DFin (5 / 2); g_alpha := DInf true; g_deg := DFin 10; g_wseed := 12; g_pseed := 130; g_sseed := ss; g_threads := t; g_file := "graph"; g_dot := false; g_edge := false |}).
  assert (R1 : gengirg stod 4 ["-n"; "100"; "-d"; "2"; "-threads"; "3"]%string = Run (c 1400%Z 3%Z)). { apply run_of; [cbn; repeat split; discriminate|reflexivity|]. unfold girg_ranges. cbn. repeat split; try lia; try lra. }
  assert (R2 : gengirg stod 4 ["-n"; "100"; "-d"; "2"; "-sseed"; "7"]%string = Run (c 7%Z 1%Z)). { apply run_of; [cbn; repeat split; discriminate|reflexivity|]. unfold girg_ranges. cbn. repeat split; try lia; try lra. }
  assert (SF : forall ss t, (0 <= ss <= 1400)%Z -> (1 <= t <= 3)%Z -> seeds_fit (c ss t)) by (intros ss t H1 H2 s [<-|[<-|[<-|[]]]]; right; unfold c; cbn [g_wseed g_pseed g_sseed g_threads]; change (2 ^ 31)%Z with 2147483648%Z; lia).
  pose proof (C58_small_graphs stod 4 _ _ (5 / 2) 10 ex_rng R1 eq_refl eq_refl eq_refl (SF 1400%Z 3%Z ltac:(lia) ltac:(lia)) ex_rng_good ltac:(cbn; lia)) as M1. pose proof (C58_small_graphs stod 4 _ _ (5 / 2) 10 ex_rng R2 eq_refl eq_refl eq_refl (SF 7%Z 1%Z ltac:(lia) ltac:(lia)) ex_rng_good ltac:(cbn; lia)) as M2.
  assert (V1 : valid_girg ex_rng (c 1400%Z 3%Z)). { eexists. exists 4%Z. eexists. exists (5 / 2), 10. split; [exact R1|]. repeat split; try reflexivity; try discriminate; try lia; [apply SF; lia|exact M1]. }
  assert (V2 : valid_girg ex_rng (c 7%Z 1%Z)). { eexists. exists 4%Z. eexists. exists (5 / 2), 10. split; [exact R2|]. repeat split; try reflexivity; try discriminate; try lia; [apply SF; lia|exact M2]. }
  exists (c 1400%Z 3%Z), (c 7%Z 1%Z). split; [exact R1|]. split; [exact R2|]. split; [exact V1|]. split; [exact V2|]. split; [|split; [discriminate|split; [discriminate|]]].
  - intros cfg. split; [exact (proj1 (C58_gengirg_run stod 4 _ _ cfg ex_rng (5 / 2) 10 R1 eq_refl eq_refl ltac:(discriminate) ltac:(lia) (SF 1400%Z 3%Z ltac:(lia) ltac:(lia)) ex_rng_good M1))|exact (proj1 (C58_gengirg_run stod 4 _ _ cfg ex_rng (5 / 2) 10 R2 eq_refl eq_refl ltac:(discriminate) ltac:(lia) (SF 7%Z 1%Z ltac:(lia) ltac:(lia)) ex_rng_good M2))].
  - intros cfg ws1 ps1 s1 es1 txt1 dot1 ws2 ps2 s2 es2 txt2 dot2 F1 F2. destruct (C61_gengirg_seeds _ _ _ _ _ _ _ _ _ _ _ _ _ _ _ _ ex_rng_good V1 V2 F1 F2) as (Y1 & Y2 & Y3 & _ & Y5).
    assert (S : (g_n (c 1400%Z 3%Z) < 20000)%Z \/ (g_threads (c 1400%Z 3%Z) = 1%Z /\ g_threads (c 7%Z 1%Z) = 1%Z)) by (left; reflexivity).
    specialize (Y1 eq_refl eq_refl eq_refl ltac:(cbn; lia) S). specialize (Y2 eq_refl eq_refl eq_refl ltac:(cbn; lia) S). specialize (Y3 Y1 eq_refl eq_refl eq_refl). repeat split; try assumption; apply (Y5 Y1 Y2 Y3 eq_refl eq_refl eq_refl); assumption.
Qed.
Example ex_C61_hrg : forall stod, exists c1 c2, genhrg stod 4 ["-n"; "100"; "-threads"; "2"; "-edge"; "1"; "-coord"; "1"]%string = Run c1 /\ genhrg stod 4 ["-n"; "100"; "-threads"; "1"; "-edge"; "1"; "-coord"; "1"]%string = Run c2 /\
  valid_hrg c1 /\ valid_hrg c2 /\
  forall nd raw0 Rd1 radii1 angles1 es1 txt1 hyp1 Rd2 radii2 angles2 es2 txt2 hyp2, genhrg_main nd ex_part ex_hrng raw0 c1 (HFinished Rd1 radii1 angles1 es1 txt1 hyp1) -> genhrg_main nd ex_part ex_hrng raw0 c2 (HFinished Rd2 radii2 angles2 es2 txt2 hyp2) ->
    Rd1 = Rd2 /\ radii1 = radii2 /\ angles1 = angles2 /\ same_graph es1 es2.
Proof.
  intros stod. set (c := fun t => hex 100 (3 / 4) 10 t false true true).
  assert (R1 : genhrg stod 4 ["-n"; "100"; "-threads"; "2"; "-edge"; "1"; "-coord"; "1"]%string = Run (c 2%Z)). { apply hrun_of; [cbn; repeat split; discriminate|reflexivity|]. unfold hrg_ranges. cbn. repeat split; try lia; try lra. }
  assert (R2 : genhrg stod 4 ["-n"; "100"; "-threads"; "1"; "-edge"; "1"; "-coord"; "1"]%string = Run (c 1%Z)). { apply hrun_of; [cbn; repeat split; discriminate|reflexivity|]. unfold hrg_ranges. cbn. repeat split; try lia; try lra. }
  assert (EST : forall t Rd, estimate (c t) (3 / 4) 0 10 (Some Rd) -> 4 / 3 <= Rd <= 40).
  { intros t Rd HE. destruct (C60_radius (c t) (3 / 4) 0 10 (1 / PI) ltac:(cbn; lia) ltac:(lra) ltac:(lra) ltac:(cbn; lra) ltac:(left; lra) Rd HE) as (_ & A & B). split; [lra|]. apply B. unfold predicted_degree. cbn [c hex h_n].
    pose proof PI_RGT_0 as P. pose proof PI2_3_2 as PL. assert (E : exp (Ropp 40 / 2) <= / 121). { replace (Ropp 40 / 2) with (- (10 + 10)) by lra. rewrite exp_Ropp, exp_plus. pose proof (exp_ineq1 10 ltac:(lra)). apply Rinv_le_contravar; [lra|nra]. }
    assert (I : 1 / PI <= 1 / 3) by (unfold Rdiv; rewrite !Rmult_1_l; apply Rinv_le_contravar; lra). assert (I0 : 0 < 1 / PI) by (apply Rdiv_lt_0_compat; lra). pose proof (exp_pos (Ropp 40 / 2)) as E0.
    set (x := exp (Ropp 40 / 2)) in *. set (y := 1 / PI) in *. replace (100 * 2 * (3 / 4) ^ 2 * y * x / (3 / 4 - 1 / 2) ^ 2) with (1800 * (y * x)) by (field). assert (y * x <= 1 / 3 * / 121) by (apply Rmult_le_compat; lra). nra. }
  assert (SF : forall t, (1 <= t <= 2)%Z -> hrg_seeds_fit (c t)) by (intros t H s [<-|[<-|[]]]; right; unfold c, hex; cbn [h_rseed h_aseed h_threads]; change (2 ^ 31)%Z with 2147483648%Z; lia).
  assert (V1 : valid_hrg (c 2%Z)). { eexists. exists 4%Z. eexists. exists (3 / 4), 0, 10. split; [exact R1|]. repeat split; try reflexivity; try discriminate; try lra; try lia; [apply SF; lia| |]; match goal with HE : estimate _ _ _ _ _ |- _ => apply EST in HE; lra end. }
  assert (V2 : valid_hrg (c 1%Z)). { eexists. exists 4%Z. eexists. exists (3 / 4), 0, 10. split; [exact R2|]. repeat split; try reflexivity; try discriminate; try lra; try lia; [apply SF; lia| |]; match goal with HE : estimate _ _ _ _ _ |- _ => apply EST in HE; lra end. }
  exists (c 2%Z), (c 1%Z). split; [exact R1|]. split; [exact R2|]. split; [exact V1|]. split; [exact V2|].
  intros nd raw0 Rd1 radii1 angles1 es1 txt1 hyp1 Rd2 radii2 angles2 es2 txt2 hyp2 F1 F2. destruct (C61_genhrg_seeds nd ex_part ex_hrng raw0 _ _ _ _ _ _ _ _ _ _ _ _ _ _ ex_rng_good ex_part_ok V1 V2 F1 F2) as (Y1 & Y2 & Y3 & _ & Y5).
  assert (S : (h_n (c 2%Z) <= 10000)%Z \/ (h_threads (c 2%Z) = 1%Z /\ h_threads (c 1%Z) = 1%Z)) by (left; cbn; lia).
  specialize (Y1 eq_refl eq_refl eq_refl eq_refl eq_refl). specialize (Y2 eq_refl eq_refl Y1 eq_refl ltac:(cbn; lia) S). specialize (Y3 eq_refl eq_refl ltac:(cbn; lia) S). repeat split; try assumption; apply (Y5 Y2 Y3 Y1 eq_refl eq_refl); assumption.
Qed.

Print Assumptions C61_gengirg_seeds.
Print Assumptions C61_gengirg_reproducible.
Print Assumptions C61_genhrg_seeds.
Print Assumptions C61_genhrg_reproducible.
