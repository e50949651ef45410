(** Property C58: a whole run of gengirg, from the arguments to the files. *)
From Coq Require Import String Arith NArith ZArith List Bool Reals Lia Lra Psatz Permutation.
From Flocq Require Import Core.
From Verif Require Import Base Sched Coord_Model Coord_Proofs Coord_Geo Coord_Torus Prop_Coord Tree_Model Tree_Run Girg_Model Girg_Num Prop_Girg
  Sampling_Model Sampling_Proofs Prop_Sampling Scaling_Model Scaling_Lazy Scaling_Loops Scaling_Thr Scaling_Search Scaling_Inst Scaling_Total Prop_Scaling Cli_Model Cli_Proofs Prop_Cli Run_Model Run_Proofs.
Import ListNotations.
Local Open Scope R_scope.

(** ** Specification *)
(** the seed plus the number of a thread does not overflow int *)
Definition seeds_fit (c : gparams) : Prop := forall s, In s [g_wseed c; g_pseed c; g_sseed c] -> (s < 0 \/ s + g_threads c <= 2 ^ 31)%Z.
(** the edges as the pairs of integers that a reader of the edge list file gets *)
Definition as_integers (edges : list (nat * nat)) : list (Z * Z) := map (fun e => (Z.of_nat (fst e), Z.of_nat (snd e))) edges.
(** the generated weights are not too large in total: with average weight a, 2^d a^2 n < 2^31 (deg - 0.02), times alpha/(alpha-1) for alpha <= 8.
    (Otherwise the cells of the smallest weights cannot be numbered with 32 bits, see C58_too_many_cells_refuted.) *)
Definition weights_moderate (rg : rng) (c : gparams) (ple deg : R) : Prop :=
  let n := Z.to_nat (g_n c) in
  forall team ws, generateWeights ideal_env rg n ple (g_wseed c) (1 <? g_threads c)%Z (Z.to_nat (g_threads c)) team (Some ws) ->
    degree_factor (g_alpha c) * 2 ^ Z.to_nat (g_d c) * (sumR ws / INR n) ^ 2 * INR n < b2 31 * (deg - 2 / 100).

(** ** Proofs *)
Lemma weight_bounds n ple u : (2 <= n)%nat -> 1 < ple -> 0 <= u < 1 -> 1 <= weight_of ideal_env n ple u <= INR n / 2.
Proof.
  intros Hn Hp Hu. destruct (Nat.eq_dec n 2) as [->|H2].
  - unfold weight_of. cbn [rnd fpow ideal_env]. replace (INR 2) with 2 by (cbn; lra). replace (1 / 2 * 2) with 1 by field.
    assert (E1 : forall x, Rpower 1 x = 1) by (intros; unfold Rpower; rewrite ln_1, Rmult_0_r, exp_0; reflexivity). rewrite E1. replace ((1 - 1) * u + 1) with 1 by ring. rewrite E1. lra.
  - destruct (weight_range n ple ltac:(lia) Hp u Hu). lra.
Qed.
Lemma weights_bounds rg n ple seed team : good_rng rg -> (2 <= n)%nat -> 1 < ple -> (1 <= team)%nat -> seeds_defined seed team = true ->
  (exists o, weights_outcome ideal_env rg n ple seed team o) /\
  forall o, weights_outcome ideal_env rg n ple seed team o -> exists ws, o = Some ws /\ length ws = n /\ forall w, In w ws -> 1 <= w <= INR n / 2.
Proof.
  intros GR Hn Hp Ht Hs. unfold weights_outcome. rewrite Hs.
  assert (HX : exists gens, gens_ok rg seed team gens).
  { unfold gens_ok. destruct (0 <=? seed)%Z; [eauto|]. exists (map (rseed rg) (repeat 0%Z team)), (repeat 0%Z team). now rewrite repeat_length. }
  split.
  - destruct HX as (gens & Hg). exists (Some (chunks (weight_step ideal_env rg n ple) team n gens)), gens. split; [exact Hg|].
    apply filled_iff; [lia|eapply gens_length; eauto|reflexivity].
  - intros o (gens & Hg & Hf). apply filled_iff in Hf; [|lia|eapply gens_length; eauto]. subst o. eexists. split; [reflexivity|].
    split; [exact (chunks_length (weight_step ideal_env rg n ple) team n gens ltac:(lia) (gens_length _ _ _ _ Hg))|].
    intros w Hw. rewrite chunks_weights in Hw. apply in_map_iff in Hw as (u & <- & Hu). apply weight_bounds; auto.
    apply in_concat in Hu as (l & Hl & Hu). apply in_map_iff in Hl as (bg & <- & _). apply in_rows in Hu as (g' & ->). apply (gu01 _ GR).
Qed.
Section Use.
  Context {stod : stod_fun} {omp_max : Z} {args : list string} {c : gparams} {ple deg : R} {rg : rng}.
  Hypothesis HR : gengirg stod omp_max args = Run c.
  Hypothesis Hple : g_ple c = DFin ple.
  Hypothesis Hdeg : g_deg c = DFin deg.
  Hypothesis Homp : (omp_max <= 2 ^ 17)%Z.
  Hypothesis HS : seeds_fit c.
  Hypothesis GR : good_rng rg.
  Let n := Z.to_nat (g_n c).
  Let threads := Z.to_nat (g_threads c).
  Let d := Z.to_nat (g_d c).
  Lemma ranges : (2 <= g_n c)%Z /\ (1 <= g_d c <= 5)%Z /\ 2 < ple <= 3 /\ within (g_alpha c) (fun x => 1 < x) true /\ 1 <= deg <= IZR (g_n c) - 1 /\ (1 <= g_threads c <= omp_max)%Z.
  Proof.
    destruct (proj1 (C51_only_in_range stod omp_max args) c HR) as [G N2]. unfold girg_ranges in G. rewrite Hple, Hdeg in G. cbn [within] in G. destruct G as (G1 & G2 & G3 & G4 & G5).
    destruct N2 as [N2|N2]; [rewrite Hdeg in N2; discriminate|]. repeat split; try tauto; lra.
  Qed.
  Lemma team_seed s team : In s [g_wseed c; g_pseed c; g_sseed c] -> (team <= threads)%nat -> seeds_defined s team = true.
  Proof.
    intros Hs Ht. unfold seeds_defined. apply orb_true_iff. pose proof ranges as (_ & _ & _ & _ & _ & T). unfold threads in Ht. destruct (HS s Hs); [left; now apply Z.ltb_lt|right; apply Z.ltb_lt; lia].
  Qed.
  Lemma input_threads_le par : (1 <= input_threads par threads n <= threads)%nat.
  Proof. pose proof ranges as (_ & _ & _ & _ & _ & T). unfold input_threads. destruct par; unfold threads; lia. Qed.
  Lemma nR : INR n = IZR (g_n c).
  Proof. pose proof ranges as (N2 & _). unfold n. rewrite INR_IZR_INZ, Z2Nat.id by lia. reflexivity. Qed.
End Use.
Lemma n_is_int stod omp_max args c : gengirg stod omp_max args = Run c -> (g_n c < 2 ^ 31)%Z.
Proof.
  unfold gengirg, banner. destruct args as [|a r]; [discriminate|]. destruct (_ || _)%bool; [discriminate|]. destruct (String.eqb _ _); [discriminate|]. intros H.
  apply bind_run in H as (c' & HG & H). pose proof (gcheck_run _ _ _ H) as <-. clear H. unfold gread in HG. cbv zeta in HG.
  destruct (read_param _ "n" stoi 10000%Z) as [z|] eqn:EZ; [|discriminate]. cbn [orThrow] in HG.
  assert (HZ : (z < 2 ^ 31)%Z).
  { unfold read_param in EZ. destruct (String.eqb _ _); [injection EZ as <-; lia|]. unfold stoi in EZ. cbv zeta in EZ. destruct (match skip_space _ with EmptyString => None | String _ _ => _ end) as [y|]; [|discriminate]. cbn [obind] in EZ.
    destruct ((- 2 ^ 31 <=? y) && (y <? 2 ^ 31))%Z eqn:EY; [|discriminate]. injection EZ as <-. apply andb_prop in EY as [_ EY]. now apply Z.ltb_lt. }
  repeat match type of HG with orThrow _ ?o _ = _ => destruct o; [cbn [orThrow] in HG|discriminate] end. injection HG as <-. exact HZ.
Qed.
Lemma generated_double ws n : (2 <= n)%nat -> (Z.of_nat n < 2 ^ 31)%Z -> (forall w, In w ws -> 1 <= w <= INR n / 2) -> double_weights ws /\ forall w, In w ws -> 1 <= w <= b2 30.
Proof.
  intros Hn Hn31 H. assert (B : INR n / 2 <= b2 30). { assert (INR n <= IZR (2 ^ 31)) by (rewrite INR_IZR_INZ; apply IZR_le; lia). change (IZR (2 ^ 31)) with 2147483648 in H0. change (b2 30) with 1073741824. lra. }
  assert (R : forall w, In w ws -> 1 <= w <= b2 30) by (intros w Hw; specialize (H w Hw); lra). split; [|exact R].
  apply List.Forall_forall. intros w Hw. specialize (R w Hw). split.
  - apply Rle_trans with (b2 0); [apply bpow_le; lia|exact (proj1 R)].
  - apply Rle_trans with (1 * b2 1023); [rewrite Rmult_1_l; apply Rle_trans with (b2 30); [apply R|apply bpow_le; lia]|]. apply Rmult_le_compat_r; [apply bpow_ge_0|]. assert (b2 (-52) <= b2 0) by (apply bpow_le; lia). change (b2 0) with 1 in H0. lra.
Qed.
Lemma scaled_ok ws s : ws <> [] -> (forall w, In w ws -> 1 <= w <= b2 30) -> b2 (-31) <= s <= b2 310 -> sumR ws < b2 31 * s -> weights_ok (scaled s ws).
Proof.
  intros Hne Hw Hs HW. assert (S0 : 0 < b2 (-31)) by apply bpow_gt_0. constructor.
  - unfold scaled. now destruct ws.
  - intros w I. apply in_map_iff in I as (x & <- & I). specialize (Hw x I). split.
    + apply Rle_trans with (b2 0 * b2 (-31)); [rewrite <- bpow_plus; apply bpow_le; lia|]. change (b2 0) with 1. apply Rmult_le_compat; lra.
    + apply Rle_trans with (b2 30 * b2 310); [|rewrite <- bpow_plus; apply bpow_le; lia]. apply Rmult_le_compat; lra.
  - intros w I. apply in_map_iff in I as (x & <- & I). specialize (Hw x I). rewrite sumR_scaled. replace (b2 31 * (x * s * (x * s))) with (b2 31 * s * (x * x) * s) by ring.
    apply Rmult_lt_compat_r; [lra|]. apply Rlt_le_trans with (b2 31 * s * 1); [lra|]. apply Rmult_le_compat_l; [apply Rmult_le_pos; [apply bpow_ge_0|lra]|]. apply Rle_trans with (1 * 1); [lra|]. apply Rmult_le_compat; lra.
Qed.
(** the scaled weights are in the range of generateEdges *)
Lemma moderate_ok ws n deg d alpha s ws' : ws <> [] -> length ws = n -> (2 <= n)%nat -> (Z.of_nat n < 2 ^ 31)%Z -> (forall w, In w ws -> 1 <= w <= INR n / 2) -> (1 <= d <= 5)%nat ->
  1 <= deg <= INR n - 1 -> match alpha with DFin a => 1 < a | _ => True end ->
  degree_factor alpha * 2 ^ d * (sumR ws / INR n) ^ 2 * INR n < b2 31 * (deg - 2 / 100) ->
  scale_weights ws deg d alpha (Returned s) ws' -> ws' = scaled s ws /\ weights_ok ws'.
Proof.
  intros Hne L Hn Hn31 Hw Hd Hdeg Hal Hmod H. destruct (generated_double ws n Hn Hn31 Hw) as [V B].
  assert (E : ws' = scaled s ws) by (inversion H; reflexivity). split; [exact E|]. subst ws'.
  destruct (scale_bounds ws deg d alpha s _ V Hne ltac:(lia) Hd B ltac:(rewrite L; lra) Hal H) as [S1 [S0 S2]]. rewrite L in S1.
  assert (N0 : 0 < INR n) by (apply lt_0_INR; lia). assert (W1 : INR n <= sumR ws). { rewrite <- L. clear -Hw. assert (forall w, In w ws -> 1 <= w) by (intros w I; apply Hw, I). clear Hw. induction ws as [|w ws IH]; [cbn; lra|]. unfold sumR in *. cbn [length fold_right]. rewrite S_INR. pose proof (H w (or_introl eq_refl)). specialize (IH (fun x Hx => H x (or_intror Hx))). lra. }
  set (W := sumR ws) in *. set (k := degree_factor alpha * 2 ^ d) in *.
  assert (K0 : 0 < degree_factor alpha). { destruct alpha as [| |a]; cbn; try lra. destruct (Rlt_dec 8 a); [lra|apply Rdiv_lt_0_compat; lra]. }
  assert (K : 0 < k) by (apply Rmult_lt_0_compat; [exact K0|apply pow_lt; lra]).
  assert (HWs : W < b2 31 * s).
  { apply Rmult_lt_reg_l with (k * W); [apply Rmult_lt_0_compat; lra|]. apply Rlt_le_trans with (b2 31 * ((deg - 2 / 100) * INR n)).
    - replace (k * W * W) with (k * (W / INR n) ^ 2 * INR n * INR n) by (field; lra). rewrite <- Rmult_assoc. apply Rmult_lt_compat_r; assumption.
    - replace (k * W * (b2 31 * s)) with (b2 31 * (degree_factor alpha * (2 ^ d * s * W))) by (unfold k; ring). apply Rmult_le_compat_l; [apply bpow_ge_0|exact S1]. }
  apply scaled_ok; try assumption. split; [|exact S2]. assert (N2 : 2 <= INR n) by (replace 2 with (INR 2) by (cbn; lra); apply le_INR; exact Hn). apply Rmult_le_reg_l with (b2 31); [apply bpow_gt_0|]. rewrite <- bpow_plus. change (b2 (31 + -31)) with 1. lra.
Qed.

(** A run of gengirg with finite ple and deg (not NaN).  It ends without undefined behaviour or exception; the weights, positions and edges are as described. *)
Theorem C58_gengirg_run : forall stod omp_max args c cfg rg ple deg,
  gengirg stod omp_max args = Run c -> g_ple c = DFin ple -> g_deg c = DFin deg -> g_alpha c <> DNaN ->
  (omp_max <= 2 ^ 17)%Z -> seeds_fit c -> good_rng rg -> weights_moderate rg c ple deg ->
  let n := Z.to_nat (g_n c) in let D := Z.to_N (g_d c) in
  let rule := match g_alpha c with DFin a => if Rlt_dec 8 a then threshold_rule else alpha_rule a | _ => threshold_rule end in
  (exists r, gengirg_main cfg rg c r) /\
  forall r, gengirg_main cfg rg c r -> exists ws ps s edges txt dot, r = Finished ws ps s edges txt dot /\
    length ws = n /\ (forall w, In w ws -> 1 <= w <= INR n / 2) /\ length ps = n /\ (forall p, In p ps -> length p = N.to_nat D /\ forall x, In x p -> 0 <= x < 1) /\
    (* the scaling achieves the requested degree *)
    0 < s /\ deg - 2 / 100 <= expected_degree rule (N.to_nat D) (scaled s ws) < deg + 2 / 100 + 1 / INR n /\
    (* the edges form a simple graph, and the threshold graph if alpha is infinite *)
    NoDup edges /\ (forall u v, In (u, v) edges -> (u < n)%nat /\ (v < n)%nat /\ u <> v /\ ~ In (v, u) edges) /\
    (g_alpha c = DInf true -> forall u v, (u < n)%nat -> (v < n)%nat -> u <> v -> (In (u, v) edges \/ In (v, u) edges <-> threshold_edge D (scaled s ws) ps u v)) /\
    (* the files *)
    (if g_edge c then exists text, txt = Some text /\ read_edge_file text = Some (g_n c, as_integers edges) else txt = None) /\
    (if g_dot c then exists text, dot = Some text /\ dot_file (scaled s ws) ps (as_integers edges) = Some text else dot = None).
Proof.
  intros stod omp_max args c cfg rg ple deg HR Hple Hdeg Hnan Homp HS GR HM n D rule. pose proof (n_is_int _ _ _ _ HR) as Hn31.
  pose proof (ranges HR Hple Hdeg) as (N2 & DD & PL & AL & DG & TH).
  set (threads := Z.to_nat (g_threads c)). set (d := Z.to_nat (g_d c)).
  assert (Hn : (2 <= n)%nat) by (unfold n; lia). assert (HnZ : Z.of_nat n = g_n c) by (unfold n; lia). assert (En : INR n = IZR (g_n c)) by (rewrite INR_IZR_INZ, HnZ; reflexivity).
  assert (ED : N.to_nat D = d) by (unfold D, d; lia). assert (Hd : (1 <= d <= 5)%nat) by (unfold d; lia).
  assert (TL : forall par t, (1 <= t <= input_threads par threads n)%nat -> (1 <= t <= threads)%nat).
  { intros par t Ht. pose proof (input_threads_le HR Hple Hdeg par) as Q. fold threads in Q. fold n in Q. lia. }
  assert (TS : forall s t, In s [g_wseed c; g_pseed c; g_sseed c] -> (t <= threads)%nat -> seeds_defined s t = true) by (intros; eapply team_seed; eassumption).
  assert (IT : forall par, (1 <= input_threads par threads n)%nat) by (intros par; pose proof (input_threads_le HR Hple Hdeg par) as Q; fold threads in Q; fold n in Q; lia).
  assert (AR : match g_alpha c with DFin a => 1 < a | _ => True end) by (destruct (g_alpha c); [exact I|exact I|exact AL]).
  assert (EA : exists al, edge_alpha (g_alpha c) = Some al /\ (g_alpha c = DInf true -> al = AInf)).
  { destruct (g_alpha c) as [|b|a]; [now destruct Hnan|destruct AL as [-> _]|]; cbn; eexists; (split; [reflexivity|]); [reflexivity|discriminate]. }
  destruct EA as (al & EA & EAI).
  assert (BA : ~ bad_alpha (g_alpha c)). { destruct (g_alpha c) as [|b|a]; cbn; [intros _; now apply Hnan|destruct AL as [-> _]; discriminate|lra]. }
  (* weights *)
  assert (WW : forall tw o, generateWeights ideal_env rg n ple (g_wseed c) (1 <? g_threads c)%Z threads tw o -> exists ws, o = Some ws /\ length ws = n /\ forall w, In w ws -> 1 <= w <= INR n / 2).
  { intros tw o [Ht Ho]. pose proof (TL _ _ Ht). apply (weights_bounds rg n ple (g_wseed c) tw GR Hn ltac:(lra) ltac:(lia) (TS _ tw (or_introl eq_refl) ltac:(lia))). exact Ho. }
  (* positions *)
  assert (PP : forall tp o, generatePositions rg n d (g_pseed c) true threads tp o -> exists ps, o = Some ps /\ length ps = n /\ forall p, In p ps -> length p = d /\ forall x, In x p -> 0 <= x < 1).
  { intros tp o [Ht Ho]. pose proof (TL _ _ Ht). destruct (C28_positions rg n d (g_pseed c) tp GR ltac:(lia) (TS _ tp (or_intror (or_introl eq_refl)) ltac:(lia))) as [_ H']. destruct (H' o Ho) as (ps & gens & -> & _ & L & F1 & F2 & _).
    exists ps. split; [reflexivity|]. split; [exact L|]. rewrite List.Forall_forall in F1, F2. intros p Hp. split; [now apply F1|]. specialize (F2 p Hp). now rewrite List.Forall_forall in F2. }
  (* the input of generateEdges *)
  assert (GI : forall tw tp te ws ps s ws', generateWeights ideal_env rg n ple (g_wseed c) (1 <? g_threads c)%Z threads tw (Some ws) -> generatePositions rg n d (g_pseed c) true threads tp (Some ps) ->
    scale_weights ws deg d (g_alpha c) (Returned s) ws' -> (1 <= te <= threads)%nat -> ws' = scaled s ws /\ girg_input D ws' ps (g_sseed c) threads te).
  { intros tw tp te ws ps s ws' H1 H2 H3 Hte. destruct (WW _ _ H1) as (ws0 & E0 & L & B). injection E0 as <-. destruct (PP _ _ H2) as (ps0 & E0 & LP & FP). injection E0 as <-.
    assert (ws <> []) by (intros ->; cbn in L; lia).
    destruct (moderate_ok ws n deg d (g_alpha c) s ws' ltac:(assumption) L Hn ltac:(lia) B Hd ltac:(rewrite En; lra) AR (HM tw ws H1) H3) as [E WO]. split; [exact E|].
    assert (LW : length ws' = n) by (rewrite E; unfold scaled; now rewrite map_length). constructor; auto.
    - unfold D; lia.
    - congruence.
    - rewrite LW. lia.
    - apply List.Forall_forall. intros p Hp. destruct (FP p Hp) as [F1 F2]. split; [congruence|]. apply List.Forall_forall. intros x Hx. specialize (F2 x Hx). lra.
    - unfold threads. change (2 ^ 17)%N with 131072%N. change (2 ^ 17)%Z with 131072%Z in Homp. lia.
    - unfold threads. specialize (HS (g_sseed c) ltac:(cbn; tauto)). lia. }
  assert (NZ : (g_n c <? 0)%Z = false) by (apply Z.ltb_ge; lia). assert (NE : (g_n c =? 0)%Z = false) by (apply Z.eqb_neq; lia).
  assert (LWne : forall (ws : list R), length ws = n -> ws <> []) by (intros ws L ->; cbn in L; lia).
  split.
  - unfold gengirg_main. rewrite Hple, Hdeg, NZ, NE. cbv zeta. fold n threads d.
    destruct (weights_bounds rg n ple (g_wseed c) 1 GR Hn ltac:(lra) (le_n 1) (TS _ 1%nat (or_introl eq_refl) (proj2 (TL true 1%nat (conj (le_n 1) (IT true)))))) as [(ow & HO) _].
    assert (GW : generateWeights ideal_env rg n ple (g_wseed c) (1 <? g_threads c)%Z threads 1 ow) by (split; [split; [lia|apply IT]|exact HO]). destruct (WW _ _ GW) as (ws & -> & L & B).
    destruct (C28_positions rg n d (g_pseed c) 1 GR (le_n 1) (TS _ 1%nat (or_intror (or_introl eq_refl)) (proj2 (TL true 1%nat (conj (le_n 1) (IT true)))))) as [(op & HO') _].
    assert (GP : generatePositions rg n d (g_pseed c) true threads 1 op) by (split; [split; [lia|apply IT]|exact HO']). destruct (PP _ _ GP) as (ps & -> & LP & FP).
    destruct (generated_double ws n Hn ltac:(lia) B) as [V _].
    destruct (proj1 (C32_termination ws deg d V (LWne ws L) ltac:(rewrite L; lia) ltac:(lia)) ltac:(rewrite L, En; lra)) as (_ & _ & X). destruct (X (g_alpha c) BA) as (s & SW).
    assert (T1 : (1 <= 1 <= threads)%nat) by (apply (TL true); split; [lia|apply IT]). destruct (GI _ _ 1%nat _ _ _ _ GW GP SW T1) as [_ GIN].
    destruct (C01_threshold_graph_is_exact cfg rg _ _ _ _ _ _ GIN GR) as [_ _].
    destruct (use_num GIN) as (P & NO & IP). destruct (use_main GIN cfg rg al P NO GR) as [(oe & HE) _].
    eexists. exists 1%nat, (Some ws). split; [exact GW|]. exists 1%nat, (Some ps). split; [exact GP|]. exists (Returned s), (scaled s ws). split; [exact SW|]. rewrite EA.
    exists 1%nat, oe. split; [exact T1|]. split; [exact HE|reflexivity].
  - intros r. unfold gengirg_main. rewrite Hple, Hdeg, NZ, NE. cbv zeta. fold n threads d. intros (tw & ow & GW & H).
    destruct (WW _ _ GW) as (ws & -> & L & B). destruct H as (tp & op & GP & H). destruct (PP _ _ GP) as (ps & -> & LP & FP). destruct H as (sr & ws' & SW & H).
    destruct sr as [|s]; [exfalso; apply C30_throws_iff in SW; tauto|]. rewrite EA in H. destruct H as (te & oe & Hte & HE & ->).
    destruct (GI _ _ _ _ _ _ _ GW GP SW Hte) as [E GIN]. destruct (generated_double ws n Hn ltac:(lia) B) as [V _].
    destruct (C32_degree_reached ws deg d (g_alpha c) s ws' V (LWne ws L) ltac:(rewrite L; lia) ltac:(lia) SW) as [S0 DR]. fold rule in DR. cbv zeta in DR. rewrite L in DR.
    destruct (C02_simple_graph cfg rg _ _ _ _ _ _ _ GIN GR oe HE) as (es & -> & ND & NL & NR). destruct (C03_endpoints_are_node_indices cfg rg _ _ _ _ _ _ _ GIN GR _ HE) as (es' & E' & EP). injection E' as <-.
    assert (LW : length ws' = n) by (rewrite E; unfold scaled; now rewrite map_length). rewrite LW in EP.
    assert (DF : exists text, dot_file ws' ps (index_pairs es) = Some text) by (destruct (C53_lines ws' ps (index_pairs es) ltac:(congruence)) as (t & Et & _); eauto). destruct DF as (dt & EDT).
    assert (CON : forall txt dot, (if g_edge c then exists text, txt = Some text /\ read_edge_file text = Some (g_n c, index_pairs es) else txt = None) ->
      (if g_dot c then exists text, dot = Some text /\ dot_file (scaled s ws) ps (index_pairs es) = Some text else dot = None) ->
      exists ws0 ps0 s0 es0 txt0 dot0, Finished ws ps s es txt dot = Finished ws0 ps0 s0 es0 txt0 dot0 /\ length ws0 = n /\ (forall w, In w ws0 -> 1 <= w <= INR n / 2) /\ length ps0 = n /\
        (forall p, In p ps0 -> length p = N.to_nat D /\ forall x, In x p -> 0 <= x < 1) /\ 0 < s0 /\ deg - 2 / 100 <= expected_degree rule (N.to_nat D) (scaled s0 ws0) < deg + 2 / 100 + 1 / INR n /\
        NoDup es0 /\ (forall u v, In (u, v) es0 -> (u < n)%nat /\ (v < n)%nat /\ u <> v /\ ~ In (v, u) es0) /\
        (g_alpha c = DInf true -> forall u v, (u < n)%nat -> (v < n)%nat -> u <> v -> (In (u, v) es0 \/ In (v, u) es0 <-> threshold_edge D (scaled s0 ws0) ps0 u v)) /\
        (if g_edge c then exists text, txt0 = Some text /\ read_edge_file text = Some (g_n c, index_pairs es0) else txt0 = None) /\
        (if g_dot c then exists text, dot0 = Some text /\ dot_file (scaled s0 ws0) ps0 (index_pairs es0) = Some text else dot0 = None)).
    { intros txt dot HT HD. exists ws, ps, s, es, txt, dot. split; [reflexivity|]. rewrite ED. rewrite <- E. split; [exact L|]. split; [exact B|]. split; [exact LP|]. split; [exact FP|]. split; [exact S0|]. split; [exact DR|]. split; [exact ND|].
      split; [|split; [|split; [exact HT|now rewrite E]]].
      - intros u v I. destruct (EP u v I) as [U1 U2]. split; [exact U1|]. split; [exact U2|]. split; [intros ->; exact (NL v I)|exact (NR u v I)].
      - intros EI u v Hu Hv Huv. rewrite (EAI EI) in HE. destruct (C01_threshold_graph_is_exact cfg rg _ _ _ _ _ _ GIN GR) as [_ X]. destruct (X _ HE) as (es'' & E'' & Y). injection E'' as <-. apply Y; [rewrite LW|rewrite LW|]; assumption. }
    unfold write_files. destruct (g_dot c).
    + rewrite EDT. apply CON; [|exists dt; split; [reflexivity|rewrite <- E; exact EDT]]. destruct (g_edge c); [|reflexivity]. eexists. split; [reflexivity|apply C52_read_back].
    + apply CON; [|reflexivity]. destruct (g_edge c); [|reflexivity]. eexists. split; [reflexivity|apply C52_read_back].
Qed.

(** the searches of such a run end: no infinite sequence of steps, and no step is undefined *)
Theorem C58_search_ends : forall stod omp_max args c ple deg rg team ws,
  gengirg stod omp_max args = Run c -> g_ple c = DFin ple -> g_deg c = DFin deg -> good_rng rg -> seeds_fit c ->
  generateWeights ideal_env rg (Z.to_nat (g_n c)) ple (g_wseed c) (1 <? g_threads c)%Z (Z.to_nat (g_threads c)) team (Some ws) ->
  search_terminates (threshold_f ws (Z.to_nat (g_d c))) deg (lazy_init ws) /\
  forall a, 0 < a -> a <> 1 -> search_terminates (general_f ws (Z.to_nat (g_d c)) a) deg (lazy_init ws, []).
Proof.
  intros stod omp_max args c ple deg rg team ws HR Hple Hdeg GR HS [Ht Ho]. pose proof (n_is_int _ _ _ _ HR) as Hn31. pose proof (ranges HR Hple Hdeg) as (N2 & DD & PL & _ & DG & TH).
  pose proof (input_threads_le HR Hple Hdeg (1 <? g_threads c)%Z) as Q. set (n := Z.to_nat (g_n c)) in *. assert (En : INR n = IZR (g_n c)) by (rewrite INR_IZR_INZ; f_equal; unfold n; lia).
  destruct (weights_bounds rg n ple (g_wseed c) team GR ltac:(unfold n; lia) ltac:(lra) ltac:(lia)) as [_ H]; [eapply team_seed; try eassumption; [now left|lia]|].
  destruct (H _ Ho) as (ws0 & E0 & L & B). injection E0 as <-. destruct (generated_double ws n ltac:(unfold n; lia) ltac:(unfold n; lia) B) as [V _].
  destruct (proj1 (C32_termination ws deg (Z.to_nat (g_d c)) V ltac:(intros ->; cbn in L; unfold n in L; lia) ltac:(rewrite L; unfold n; lia) ltac:(lia)) ltac:(rewrite L, En; lra)) as (T1 & T2 & _). split; assumption.
Qed.

(** for at most 640 nodes and infinite alpha the weights are always moderate *)
Theorem C58_small_graphs : forall stod omp_max args c ple deg rg, gengirg stod omp_max args = Run c -> g_ple c = DFin ple -> g_deg c = DFin deg -> g_alpha c = DInf true ->
  seeds_fit c -> good_rng rg -> (g_n c <= 640)%Z -> weights_moderate rg c ple deg.
Proof.
  intros stod omp_max args c ple deg rg HR Hple Hdeg Hal HS GR H640. unfold weights_moderate. set (n := Z.to_nat (g_n c)). intros team ws [Ht Ho]. pose proof (ranges HR Hple Hdeg) as (N2 & DD & PL & _ & DG & TH).
  pose proof (input_threads_le HR Hple Hdeg (1 <? g_threads c)%Z) as Q. fold n in Q. assert (En : INR n = IZR (g_n c)) by (rewrite INR_IZR_INZ; f_equal; unfold n; lia).
  destruct (weights_bounds rg n ple (g_wseed c) team GR ltac:(unfold n; lia) ltac:(lra) ltac:(lia)) as [_ H]; [eapply team_seed; try eassumption; [now left|lia]|].
  destruct (H _ Ho) as (ws0 & E0 & L & B). injection E0 as <-. rewrite Hal. cbn [degree_factor]. rewrite Rmult_1_l.
  assert (N0 : 2 <= INR n <= 640) by (rewrite En; split; apply IZR_le; lia). assert (W0 : 0 <= sumR ws). { clear -B. assert (forall w, In w ws -> 0 <= w) by (intros w I; destruct (B w I); lra). clear B. induction ws as [|w ws IH]; [cbn; lra|]. unfold sumR in *. cbn. pose proof (H w (or_introl eq_refl)). specialize (IH (fun x Hx => H x (or_intror Hx))). lra. }
  assert (W1 : sumR ws / INR n <= INR n / 2). { apply Rmult_le_reg_r with (INR n); [lra|]. replace (sumR ws / INR n * INR n) with (sumR ws) by (field; lra). rewrite Rmult_comm, <- L. apply sumR_bound; [rewrite L; lra|]. intros w I. rewrite L. apply B, I. }
  assert (W2 : 0 <= sumR ws / INR n) by (apply Rmult_le_pos; [exact W0|left; apply Rinv_0_lt_compat; lra]).
  apply Rle_lt_trans with (32 * (320 * 320) * 640).
  - apply Rmult_le_compat; try lra.
    + apply Rmult_le_pos; [apply pow_le; lra|apply pow2_ge_0].
    + apply Rmult_le_compat; [apply pow_le; lra|apply pow2_ge_0| |].
      * replace 32 with (2 ^ 5) by ring. apply Rle_pow; [lra|lia].
      * cbn [pow]. rewrite Rmult_1_r. apply Rmult_le_compat; lra.
  - change (b2 31) with 2147483648. lra.
Qed.

Lemma run_of stod omp_max args c : no_banner args -> gread stod args = Run c -> girg_ranges omp_max c -> gengirg stod omp_max args = Run c.
Proof.
  intros HB HG HRG. unfold gengirg. rewrite banner_none by exact HB. rewrite HG. cbn [bindcli]. apply C51_gengirg in HRG as (c' & H). rewrite H. now rewrite (gcheck_run _ _ _ H).
Qed.
(** "gengirg -n 100 -d 2 -edge 1" satisfies the hypotheses *)
Theorem C58_example : forall stod cfg, exists c, gengirg stod 4 ["-n"; "100"; "-d"; "2"; "-threads"; "3"; "-edge"; "1"]%string = Run c /\ (exists r, gengirg_main cfg ex_rng c r) /\
  forall r, gengirg_main cfg ex_rng c r -> exists ws ps s edges text, r = Finished ws ps s edges (Some text) None /\ length ws = 100%nat /\ read_edge_file text = Some (100%Z, as_integers edges) /\
    forall u v, (u < 100)%nat -> (v < 100)%nat -> u <> v -> (In (u, v) edges \/ In (v, u) edges <-> threshold_edge 2 (scaled s ws) ps u v).
Proof.
  intros stod cfg. set (args := ["-n"; "100"; "-d"; "2"; "-threads"; "3"; "-edge"; "1"]%string).
  set (c := {| g_n := 100; g_d := 2; g_ple := DFin (5 / 2); g_alpha := DInf true; g_deg := DFin 10; g_wseed := 12; g_pseed := 130; g_sseed := 1400; g_threads := 3; g_file := "graph"; g_dot := false; g_edge := true |}).
  assert (HR : gengirg stod 4 args = Run c).
  { apply run_of; [cbn; repeat split; discriminate|reflexivity|]. unfold girg_ranges. cbn. repeat split; try lia; try lra. }
  exists c. split; [exact HR|].
  assert (SF : seeds_fit c) by (intros s [<-|[<-|[<-|[]]]]; right; cbn; lia).
  destruct (C58_gengirg_run stod 4 args c cfg ex_rng (5 / 2) 10 HR eq_refl eq_refl ltac:(discriminate) ltac:(lia) SF ex_rng_good (C58_small_graphs stod 4 args c (5 / 2) 10 ex_rng HR eq_refl eq_refl eq_refl SF ex_rng_good ltac:(cbn; lia))) as [X H].
  split; [exact X|]. intros r Hr. destruct (H r Hr) as (ws & ps & s & edges & txt & dot & -> & L & _ & _ & _ & _ & _ & _ & _ & T & (text & -> & RT) & ->).
  exists ws, ps, s, edges, text. split; [reflexivity|]. split; [exact L|]. split; [exact RT|]. exact (T eq_refl).
Qed.

(** ** the restriction on the weights is needed *)
(** too many cells: generateEdges shifts 1u by 32 or more bits *)
Lemma too_many_cells cfg rg D ws ps alpha seed omp_max team w0 : ws <> [] -> In w0 ws -> (forall w, In w ws -> w0 <= w) -> 0 < w0 -> (forall w, In w ws -> w <= w0 * b2 1000) ->
  (1 <= D <= 5)%N -> (exists p0 r, ps = p0 :: r /\ length p0 = N.to_nat D) -> (exists c, (D * target_level D c 0 >= 32)%N /\ (c < 2 ^ 31)%Z /\ b2 c <= sumR ws / w0 / w0 < b2 (c + 1)) ->
  forall o, girg_outcome ideal_env cfg rg ws ps alpha seed omp_max team o <-> o = None.
Proof.
  intros Hne I0 M0 P0 MX HD (p0 & r & -> & LP) (c & HC & C31 & HB) o.
  assert (C0 : (0 <= c)%Z). { destruct (Z.le_gt_cases 0 c) as [Q|Q]; [exact Q|exfalso]. unfold target_level in HC. assert (E : (Z.quot (c - Z.of_nat 0 - 1) (Z.of_N D) <= 0)%Z). { replace (c - Z.of_nat 0 - 1)%Z with (- (- c + 1))%Z by lia. rewrite Z.quot_opp_l by lia. pose proof (Z.quot_pos (- c + 1) (Z.of_N D) ltac:(lia) ltac:(lia)). lia. } rewrite Z.max_r in HC by exact E. cbn in HC. lia. }
  unfold girg_outcome. rewrite LP, N2Nat.id. assert (T1 : (1 <=? D)%N = true) by (apply N.leb_le; lia). assert (T2 : (D <=? 5)%N = true) by (apply N.leb_le; lia). rewrite T1, T2. cbn [andb].
  assert (TO : forall ot, tree_outcome ideal_env cfg D ws (p0 :: r) omp_max ot <-> ot = None).
  { intros ot. unfold tree_outcome, tree_params. destruct (min_elem_spec ws Hne) as (m & Em & Im & Mm). destruct (max_elem_spec ws Hne) as (x & Ex & Ix & Mx). rewrite Em, Ex. cbn [obind].
    assert (m = w0) by (apply Rle_antisym; [now apply Mm|now apply M0]). subst m. rewrite sum_elems_ideal. cbn [rnd flog2 ideal_env].
    assert (W0 : 0 < sumR ws / w0 / w0) by (eapply Rlt_le_trans; [apply (bpow_gt_0 radix2 c)|apply HB]).
    assert (LC : IZR c <= log2R (sumR ws / w0 / w0) < IZR (c + 1)). { split; [rewrite <- (log2R_b2 c); apply log2R_le; [apply bpow_gt_0|apply HB]|]. apply log2R_lt_iff; [exact W0|apply HB]. }
    assert (TC : Ztrunc (log2R (sumR ws / w0 / w0)) = c). { rewrite Ztrunc_floor; [|apply Rle_trans with (IZR c); [apply IZR_le; lia|apply LC]]. apply Zfloor_imp. exact LC. }
    unfold double_to_int at 1. rewrite TC. assert (K1 : (- 2 ^ 31 <=? c)%Z = true) by (apply Z.leb_le; lia). assert (K2 : (c <? 2 ^ 31)%Z = true) by (apply Z.ltb_lt; lia). rewrite K1, K2. cbn [andb obind].
    assert (LX : 0 <= log2R (x / w0) <= IZR 1000).
    { assert (X1 : 1 <= x / w0) by (apply Rmult_le_reg_r with w0; [exact P0|]; unfold Rdiv; rewrite Rmult_assoc, Rinv_l, Rmult_1_r by lra; rewrite Rmult_1_l; now apply M0).
      split; [replace 0 with (log2R (b2 0)) by apply log2R_b2; apply log2R_le; [apply bpow_gt_0|exact X1]|]. rewrite <- (log2R_b2 1000). apply log2R_le; [lra|]. apply Rmult_le_reg_r with w0; [exact P0|]. unfold Rdiv. rewrite Rmult_assoc, Rinv_l, Rmult_1_r by lra. rewrite (Rmult_comm (b2 1000)). now apply MX. }
    assert (FX : (0 <= Zfloor (log2R (x / w0)) <= 1000)%Z). { split; [apply Zfloor_lub; apply LX|]. rewrite <- (Zfloor_IZR 1000). apply Zfloor_le. apply LX. }
    unfold double_to_u32 at 1. rewrite Ztrunc_IZR. set (fl := Zfloor _) in *. assert (K3 : (0 <=? fl)%Z = true) by (apply Z.leb_le; lia). assert (K4 : (fl <? 2 ^ 32)%Z = true) by (apply Z.ltb_lt; lia). rewrite K3, K4. cbn [andb obind p_c p_layers].
    assert (LY : exists k, N.to_nat (w32 (Z.to_N fl + 1)) = S k). { exists (Z.to_nat fl). unfold w32. rewrite N.land_ones, N.mod_small by (change (2 ^ 32)%N with 4294967296%N; lia). lia. } destruct LY as (k & ->). cbn [first_cells].
    unfold numCellsInLevel at 1, shl1_u32 at 1. assert (K5 : (D * target_level D c 0 <? 32)%N = false) by (apply N.ltb_ge; lia). rewrite K5. cbn [obind]. tauto. }
  split.
  - intros (ot & HT & H). apply TO in HT. subst ot. exact H.
  - intros ->. exists None. split; [now apply TO|reflexivity].
Qed.
(** an engine that always draws 0 *)
Definition zero_rng : rng := {| G := unit; rseed := fun _ => tt; u01 := fun g => (0, g); uni0 := fun _ g => (0, g); geo := fun _ g => (0%N, g) |}.
Lemma zero_rng_good : good_rng zero_rng.
Proof. constructor; cbn; intros; try lra. reflexivity. Qed.
Lemma zero_runs cfg c : g_n c = 1073741824%Z -> g_d c = 4%Z -> g_ple c = DFin (5 / 2) -> g_alpha c = DInf true -> g_deg c = DFin 1 -> g_wseed c = 12%Z -> g_pseed c = 130%Z -> g_sseed c = 1400%Z -> g_threads c = 1%Z ->
  (exists r, gengirg_main cfg zero_rng c r) /\ forall r, gengirg_main cfg zero_rng c r -> r = Undefined.
Proof.
  intros E1 E2 E3 E4 E5 E6 E7 E8 E9. pose proof zero_rng_good as GR. unfold gengirg_main. rewrite E2, E3, E4, E5, E6, E7, E8, E9.
  assert (NZ : (g_n c <? 0)%Z = false) by (rewrite E1; reflexivity). assert (NE : (g_n c =? 0)%Z = false) by (rewrite E1; reflexivity). rewrite NZ, NE. cbv zeta. cbn [edge_alpha].
  change (Z.to_nat 1) with 1%nat. change (Z.to_nat 4) with 4%nat. change (1 <? 1)%Z with false.
  assert (Hn : Z.of_nat (Z.to_nat (g_n c)) = 1073741824%Z) by (rewrite Z2Nat.id; lia). set (n := Z.to_nat (g_n c)) in *. assert (En : INR n = 1073741824) by (rewrite INR_IZR_INZ, Hn; reflexivity). clearbody n.
  assert (WW : forall tw o, generateWeights ideal_env zero_rng n (5 / 2) 12 false 1 tw o -> exists ws, o = Some ws /\ length ws = n /\ forall w, In w ws -> w = 1).
  { intros tw o [Ht Ho]. cbn [input_threads] in Ht. destruct (weights_bounds zero_rng n (5 / 2) 12 tw GR ltac:(lia) ltac:(lra) ltac:(lia) ltac:(unfold seeds_defined; apply orb_true_iff; right; apply Z.ltb_lt; lia)) as [_ H]. destruct (H _ Ho) as (ws & -> & L & B).
    exists ws. split; [reflexivity|]. split; [exact L|]. clear H. unfold weights_outcome in Ho. assert (SD : seeds_defined 12 tw = true) by (unfold seeds_defined; apply orb_true_iff; right; apply Z.ltb_lt; lia). rewrite SD in Ho. destruct Ho as (gens & HG & HF).
    apply filled_iff in HF; [|lia|eapply gens_length; eauto]. injection HF as EW. intros w Hw. rewrite EW in Hw. pose proof (chunks_weights ideal_env zero_rng n (5 / 2) tw gens) as CW. assert (Hw' : In w (map (weight_of ideal_env n (5 / 2)) (concat (thread_draws zero_rng tw n 1 gens)))) by (rewrite <- CW; exact Hw). clear Hw. rename Hw' into Hw. apply in_map_iff in Hw as (u & <- & Hu). apply in_concat in Hu as (l & Hl & Hu). apply in_map_iff in Hl as (bg & <- & _). apply in_rows in Hu as (g' & ->).
    cbn [u01 zero_rng fst]. unfold weight_of. cbn [rnd fpow ideal_env]. rewrite Rmult_0_r, Rplus_0_l. unfold Rpower. rewrite ln_1, Rmult_0_r, exp_0. reflexivity. }
  assert (PP : forall tp o, generatePositions zero_rng n 4 130 true 1 tp o -> exists ps, o = Some ps /\ exists p0 r, ps = p0 :: r /\ length p0 = N.to_nat 4).
  { intros tp o [Ht Ho]. assert (T1 : (1 <= tp <= 1)%nat) by (cbn [input_threads] in Ht; lia). destruct (C28_positions zero_rng n 4 130 tp GR ltac:(lia) ltac:(unfold seeds_defined; apply orb_true_iff; right; apply Z.ltb_lt; lia)) as [_ H]. destruct (H o Ho) as (ps & gens & -> & _ & L & F1 & _).
    exists ps. split; [reflexivity|]. destruct ps as [|p0 r]; [cbn in L; lia|]. exists p0, r. split; [reflexivity|]. rewrite List.Forall_forall in F1. apply F1. now left. }
  (* the scaled weights *)
  assert (SS : forall ws s ws', length ws = n -> (forall w, In w ws -> w = 1) -> scale_weights ws 1 4 (DInf true) (Returned s) ws' -> forall ps p0 r, ps = p0 :: r -> length p0 = N.to_nat 4 ->
    forall te oe, girg_outcome ideal_env cfg zero_rng ws' ps AInf 1400 1 te oe <-> oe = None).
  { intros ws s ws' L B SW ps p0 r Eps LP te oe.
    assert (Hne : ws <> []) by (intros ->; cbn in L; lia). assert (V : double_weights ws) by (apply (generated_double ws n); [lia|lia|intros w I; rewrite (B w I), En; lra]).
    assert (SW1 : sumR ws = INR n). { rewrite <- L. clear -B. induction ws as [|w ws IH]; [reflexivity|]. cbn [length]. rewrite S_INR. unfold sumR in *. cbn. rewrite IH by (intros x I; apply B; now right). rewrite (B w (or_introl eq_refl)). lra. }
    destruct (C32_degree_reached ws 1 4 (DInf true) s ws' V Hne ltac:(rewrite L; lia) ltac:(lia) SW) as [S0 [DL DU]]. cbv zeta in DL, DU. assert (E : ws' = scaled s ws) by (inversion SW; reflexivity). subst ws'. rewrite L in DU.
    rewrite (expected_degree_closed threshold_rule idR 4 s ws (2 ^ 4 * s / sumR ws) ltac:(lia) V Hne S0 eq_refl (fun k Hk => threshold_closed 4 k ltac:(lia) Hk)) in DL, DU.
    unfold deg_sum in DL, DU. set (q := 2 ^ 4 * s / sumR ws) in *. rewrite (psum_ext _ (fun _ _ => capped idR q)) in DL, DU by (intros x y Hx Hy; rewrite (B x Hx), (B y Hy), !Rmult_1_r; reflexivity). rewrite INR_psum_const, L, En in DL, DU.
    assert (Eq : q = 16 * s / 1073741824) by (unfold q; rewrite SW1, En; field).
    assert (SB : 98 / 100 / 16 <= s <= 104 / 100 / 16). { unfold capped, idR in DL, DU. destruct (Rge_dec q 1) as [G|G]; [exfalso; lra|]. rewrite Eq in DL, DU. split; lra. }
    apply (too_many_cells cfg zero_rng 4 (scaled s ws) ps AInf 1400 1 te s).
    - unfold scaled. now destruct ws.
    - destruct ws as [|w ws]; [now destruct Hne|]. left. rewrite (B w (or_introl eq_refl)). ring.
    - intros w I. apply in_map_iff in I as (x & <- & I). rewrite (B x I). lra.
    - exact S0.
    - intros w I. apply in_map_iff in I as (x & <- & I). rewrite (B x I). assert (b2 0 <= b2 1000) by (apply bpow_le; lia). change (b2 0) with 1 in H. rewrite Rmult_comm. apply Rmult_le_compat_l; lra.
    - lia.
    - exists p0, r. split; assumption.
    - rewrite sumR_scaled, SW1, En. replace (1073741824 * s / s / s) with (1073741824 / s) by (field; lra).
      assert (IS : 1073741824 / s * s = 1073741824) by (field; lra). set (y := 1073741824 / s) in *. assert (Y0 : 0 < y) by (apply Rdiv_lt_0_compat; lra).
      assert (YL : b2 33 <= y). { change (b2 33) with 8589934592. apply Rnot_lt_le. intros C. assert (y * s < 8589934592 * s) by (apply Rmult_lt_compat_r; lra). lra. }
      destruct (Rlt_le_dec y (b2 34)) as [G|G]; [exists 33%Z|exists 34%Z]; (split; [vm_compute; discriminate|]); (split; [lia|]); (split; [assumption|]).
      + exact G.
      + change (b2 (34 + 1)) with 34359738368. apply Rnot_le_lt. intros C. assert (34359738368 * s <= y * s) by (apply Rmult_le_compat_r; lra). lra. }
  split.
  - destruct (weights_bounds zero_rng n (5 / 2) 12 1 GR ltac:(lia) ltac:(lra) (le_n 1) eq_refl) as [(ow & HO) _]. assert (GW : generateWeights ideal_env zero_rng n (5 / 2) 12 false 1 1 ow) by (split; [cbn; lia|exact HO]).
    destruct (WW _ _ GW) as (ws & -> & L & B). destruct (C28_positions zero_rng n 4 130 1 GR (le_n 1) eq_refl) as [(op & HO') _]. assert (GP : generatePositions zero_rng n 4 130 true 1 1 op) by (split; [unfold input_threads; lia|exact HO']).
    destruct (PP _ _ GP) as (ps & -> & p0 & r & Eps & LP).
    assert (Hne : ws <> []) by (intros ->; cbn in L; lia). assert (V : double_weights ws) by (apply (generated_double ws n); [lia|lia|intros w I; rewrite (B w I), En; lra]).
    destruct (proj1 (C32_termination ws 1 4 V Hne ltac:(rewrite L; lia) ltac:(lia)) ltac:(rewrite L, En; lra)) as (_ & _ & X). destruct (X (DInf true)) as (s & SW); [discriminate|].
    exists Undefined, 1%nat, (Some ws). split; [exact GW|]. exists 1%nat, (Some ps). split; [exact GP|]. exists (Returned s), (scaled s ws). split; [exact SW|]. exists 1%nat, None. split; [lia|]. split; [|reflexivity].
    apply (SS ws s _ L B SW ps p0 r Eps LP). reflexivity.
  - intros r (tw & ow & GW & H). destruct (WW _ _ GW) as (ws & -> & L & B). destruct H as (tp & op & GP & H). destruct (PP _ _ GP) as (ps & -> & p0 & r' & Eps & LP). destruct H as (sr & ws' & SW & H).
    destruct sr as [|s]; [apply C30_throws_iff in SW as [SW _]; discriminate|]. destruct H as (te & oe & _ & HE & ->). apply (SS ws s ws' L B SW ps p0 r' Eps LP) in HE. rewrite HE. reflexivity.
Qed.
(** n = 2^30, d = 4, deg = 1 lie in the documented ranges, but with this engine (all weights are 1) every run is undefined *)
Theorem C58_too_many_cells_refuted : forall stod cfg, stod "1"%string = Some (DFin 1) ->
  exists c, gengirg stod 4 ["-n"; "1073741824"; "-d"; "4"; "-deg"; "1"]%string = Run c /\ g_ple c = DFin (5 / 2) /\ g_alpha c = DInf true /\ seeds_fit c /\ good_rng zero_rng /\
    (exists r, gengirg_main cfg zero_rng c r) /\ forall r, gengirg_main cfg zero_rng c r -> r = Undefined.
Proof.
  intros stod cfg H1. set (args := ["-n"; "1073741824"; "-d"; "4"; "-deg"; "1"]%string).
  set (c := {| g_n := 1073741824; g_d := 4; g_ple := DFin (5 / 2); g_alpha := DInf true; g_deg := DFin 1; g_wseed := 12; g_pseed := 130; g_sseed := 1400; g_threads := 1; g_file := "graph"; g_dot := false; g_edge := false |}).
  assert (HR : gengirg stod 4 args = Run c).
  { apply run_of; [cbn; repeat split; discriminate| |unfold girg_ranges; cbn; repeat split; try lia; try lra].
    unfold gread. cbv zeta. assert (P : parse_args args = [("n", "1073741824"); ("d", "4"); ("deg", "1")]%string) by reflexivity. rewrite P. unfold read_param. cbn [get String.eqb Ascii.eqb Bool.eqb]. rewrite H1. reflexivity. }
  assert (SF : seeds_fit c) by (intros s [<-|[<-|[<-|[]]]]; right; cbn; lia).
  exists c. split; [exact HR|]. split; [reflexivity|]. split; [reflexivity|]. split; [exact SF|]. split; [exact zero_rng_good|].
  apply zero_runs; reflexivity.
Qed.

Print Assumptions C58_gengirg_run.
Print Assumptions C58_search_ends.
Print Assumptions C58_small_graphs.
Print Assumptions C58_example.
Print Assumptions C58_too_many_cells_refuted.
