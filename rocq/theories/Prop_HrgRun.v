(** Property C60: a whole run of genhrg, from the arguments to the files. *)
From Coq Require Import String Arith NArith ZArith List Bool Reals Lia Lra Psatz.
From Verif Require Import Base Tree_Model Tree_Run Prop_Girg Sampling_Model Scaling_Model Hyp_Model Hyp_Math Hyp_Levels Hyp_Gen Prop_Hyp HypIn_Model Prop_HypIn Cli_Model Cli_Proofs Prop_Cli Run_Model HrgRun_Model.
Import ListNotations.
Local Open Scope R_scope.

(** ** Specification *)
(** the edges as the pairs of integers that a reader of the edge list file gets *)
Definition as_integers (edges : list (nat * nat)) : list (Z * Z) := map (fun e => (Z.of_nat (fst e), Z.of_nat (snd e))) edges.
(** the seeds plus the number of a thread do not overflow int *)
Definition hrg_seeds_fit (c : hparams) : Prop := forall s, In s [h_rseed c; h_aseed c] -> (s < 0 \/ s + h_threads c <= 2 ^ 31)%Z.
(** the radius the run works with lies in the range in which generateEdges is analysed *)
Definition radius_moderate (c : hparams) (alpha T deg : R) : Prop := forall Rd, estimate c alpha T deg (Some Rd) -> 4 / 3 <= Rd <= 40.
(** the number of node pairs per degree: the average degree the documentation predicts for radius R *)
Definition predicted_degree (n alpha c Rd : R) : R := n * 2 * alpha ^ 2 * c * exp (- Rd / 2) / (alpha - 1 / 2) ^ 2.

(** ** Proofs *)
Lemma cosh_above a Rd : 1 / 2 < a -> 4 / 3 <= Rd -> above_one < cosh (a * Rd).
Proof.
  intros Ha HR. assert (X : 2 / 3 <= a * Rd) by nra. apply Rlt_le_trans with (cosh (2 / 3)); [|apply cosh_le; lra]. unfold cosh. rewrite exp_Ropp. pose proof (exp_ineq1 (2 / 3) ltac:(lra)) as E1.
  assert (E2 : exp (2 / 3) <= 3). { apply Rle_trans with (exp 1); [left; apply exp_increasing; lra|]. destruct e_bounds; lra. }
  set (t := exp (2 / 3)) in *. assert (T0 : 0 < t) by lra. assert (I : t * / t = 1) by (apply Rinv_r; lra). assert (I3 : / 3 <= / t) by (apply Rinv_le_contravar; lra).
  assert (Q : t + / t - 2 = (t - 1) * (t - 1) * / t) by (field; lra). assert (Q2 : 4 / 9 * / 3 <= (t - 1) * (t - 1) * / t) by (apply Rmult_le_compat; nra).
  unfold above_one. assert (S : / IZR (2 ^ 52) <= / 1024) by (apply Rinv_le_contravar; [lra|apply IZR_le; lia]). lra.
Qed.
Lemma hrg_n_is_int stod omp_max args c : genhrg stod omp_max args = Run c -> (h_n c < 2 ^ 31)%Z.
Proof.
  unfold genhrg, banner. destruct args as [|a r]; [discriminate|]. destruct (_ || _)%bool; [discriminate|]. destruct (String.eqb _ _); [discriminate|]. intros H.
  apply bind_run in H as (c' & HG & H). pose proof (hcheck_run _ _ _ H) as <-. clear H. unfold hread in HG. cbv zeta in HG.
  destruct (read_param _ "n" stoi 10000%Z) as [z|] eqn:EZ; [|discriminate]. cbn [orThrow] in HG.
  assert (HZ : (z < 2 ^ 31)%Z).
  { unfold read_param in EZ. destruct (String.eqb _ _); [injection EZ as <-; lia|]. unfold stoi in EZ. cbv zeta in EZ. destruct (match skip_space _ with EmptyString => None | String _ _ => _ end) as [y|]; [|discriminate]. cbn [obind] in EZ.
    destruct ((- 2 ^ 31 <=? y) && (y <? 2 ^ 31))%Z eqn:EY; [|discriminate]. injection EZ as <-. apply andb_prop in EY as [_ EY]. now apply Z.ltb_lt. }
  repeat match type of HG with orThrow _ ?o _ = _ => destruct o; [cbn [orThrow] in HG|discriminate] end. injection HG as <-. exact HZ.
Qed.
Lemma hrg_in_range stod omp_max args c alpha T deg : genhrg stod omp_max args = Run c -> h_alpha c = DFin alpha -> h_T c = DFin T -> h_deg c = DFin deg ->
  1 / 2 <= alpha <= 1 /\ 0 <= T < 1 /\ 1 <= deg <= IZR (h_n c) - 1 /\ (1 <= h_threads c <= omp_max)%Z /\ (2 <= h_n c)%Z.
Proof.
  intros HR E1 E2 E3. destruct (proj2 (C51_only_in_range stod omp_max args) c HR) as [G N2]. unfold hrg_ranges in G. rewrite E1, E2, E3 in G. cbn [within] in G. destruct N2 as [N2|N2]; [rewrite E3 in N2; discriminate|]. tauto.
Qed.
(** the estimated radius *)
Theorem C60_radius : forall c alpha T deg heat_factor, (2 <= h_n c)%Z -> 1 / 2 < alpha <= 1 -> 0 <= T < 1 -> 1 <= deg <= IZR (h_n c) - 1 -> heat T heat_factor ->
  forall Rd, estimate c alpha T deg (Some Rd) ->
    (if h_nkr c && (if Req_EM_T T 0 then true else false) then Rabs (spec_degree (IZR (h_n c)) alpha Rd - deg) <= 1 / 100
     else deg = predicted_degree (IZR (h_n c)) alpha heat_factor Rd /\ 18 / 10 < Rd /\ (Rd <= 40 <-> predicted_degree (IZR (h_n c)) alpha heat_factor 40 <= deg)).
Proof.
  intros c alpha T deg hf Hn Ha HT Hd Hc Rd HE. set (n := Z.to_nat (h_n c)) in *. assert (En : INR n = IZR (h_n c)) by (rewrite INR_IZR_INZ; f_equal; unfold n; lia). assert (N1 : (1 <= n)%nat) by (unfold n; lia).
  assert (MAIN : calculateRadius n alpha T deg = Some Rd -> deg = predicted_degree (IZR (h_n c)) alpha hf Rd /\ 18 / 10 < Rd /\ (Rd <= 40 <-> predicted_degree (IZR (h_n c)) alpha hf 40 <= deg)).
  { intros E. destruct (C44_inverts_the_degree_formula n alpha T deg hf N1 ltac:(lra) HT ltac:(lra) Hc) as (R1 & E1 & I1). rewrite E in E1. injection E1 as <-. rewrite En in I1.
    destruct (C44_cli_radius n alpha T deg Ha HT ltac:(rewrite En; exact Hd)) as (R2 & E2 & L1 & L2). rewrite E in E2. injection E2 as <-. pose proof (proj2 (I1 Rd) eq_refl) as DE. fold (predicted_degree (IZR (h_n c)) alpha hf Rd) in DE.
    split; [exact DE|]. split; [lra|]. pose proof (heat_lower T hf HT Hc) as HL. pose proof PI_RGT_0 as P. assert (HP : 0 < hf) by (assert (0 < 1 / PI) by (apply Rdiv_lt_0_compat; lra); lra).
    assert (N0 : 2 <= IZR (h_n c)) by (apply IZR_le; exact Hn). assert (K : forall x, predicted_degree (IZR (h_n c)) alpha hf x = IZR (h_n c) * 2 * alpha ^ 2 * hf / (alpha - 1 / 2) ^ 2 * exp (- x / 2)) by (intros; unfold predicted_degree; field; lra).
    assert (K0 : 0 < IZR (h_n c) * 2 * alpha ^ 2 * hf / (alpha - 1 / 2) ^ 2). { apply Rdiv_lt_0_compat; [|apply pow_lt; lra]. repeat apply Rmult_lt_0_compat; try lra. }
    rewrite DE, !K. split; intros H.
    - apply Rmult_le_compat_l; [lra|]. destruct H as [H| ->]; [left; apply exp_increasing; lra|lra].
    - apply Rmult_le_reg_l in H; [|exact K0]. apply Rnot_lt_le. intros C. assert (exp (- Rd / 2) < exp (Ropp 40 / 2)) by (apply exp_increasing; lra). lra. }
  unfold estimate in HE. fold n in HE. destruct (h_nkr c); cbn [andb].
  - destruct (Req_EM_T T 0) as [->|T0].
    + destruct (C45_accuracy n alpha deg Rd N1 ltac:(lra) ltac:(lra) HE) as [A _]. rewrite <- En. exact A.
    + apply MAIN. symmetry. apply (C45_warm n alpha T deg (Some Rd) N1 ltac:(lra) ltac:(lra) ltac:(lra)). exact HE.
  - apply MAIN. now symmetry.
Qed.

(** A run of genhrg with alpha > 1/2.  It ends if and only if the radius is found and, with several threads, large enough;
    no run has undefined behaviour, and the coordinates, edges and files are as described. *)
Theorem C60_genhrg_run : forall stod omp_max args c alpha T deg nd part hg raw0,
  genhrg stod omp_max args = Run c -> h_alpha c = DFin alpha -> h_T c = DFin T -> h_deg c = DFin deg -> 1 / 2 < alpha ->
  (omp_max <= 2 ^ 17)%Z -> (h_n c + 9999 < 2 ^ 31)%Z -> hrg_seeds_fit c -> good_rng (hb hg) -> is_partition task_eq part -> radius_moderate c alpha T deg ->
  let n := Z.to_nat (h_n c) in let threads := Z.to_nat (h_threads c) in
  ((exists r, genhrg_main nd part hg raw0 c r) <-> exists Rd, estimate c alpha T deg (Some Rd) /\ (h_threads c = 1%Z \/ deep_enough Rd threads)) /\
  forall r, genhrg_main nd part hg raw0 c r -> exists Rd radii angles edges txt hyp, r = HFinished Rd radii angles edges txt hyp /\ estimate c alpha T deg (Some Rd) /\
    List.length radii = n /\ (forall x, In x radii -> 0 < x <= Rd) /\ List.length angles = n /\ (forall x, In x angles -> 0 <= x < 2 * PI) /\
    (* the edges form a simple graph, and the threshold graph if T = 0 *)
    NoDup edges /\ (forall u v, In (u, v) edges -> (u < n)%nat /\ (v < n)%nat /\ u <> v /\ ~ In (v, u) edges) /\
    (T = 0 -> forall u v, (u < n)%nat -> (v < n)%nat -> u <> v ->
      (In (u, v) edges \/ In (v, u) edges <-> exists d, is_hyp_dist (nth u radii 0) (nth u angles 0) (nth v radii 0) (nth v angles 0) d /\ d < Rd)) /\
    (* the files *)
    (if h_edge c then exists text, txt = Some text /\ read_edge_file text = Some (h_n c, as_integers edges) else txt = None) /\
    (if h_coord c then exists text, hyp = Some text /\ let back := pair_up (map decimal_value (read_words text)) in List.length back = n /\ forall i, (i < n)%nat ->
       Rabs (fst (nth i back (0, 0)) - nth i radii 0) <= / 2 / 10 ^ 17 /\ Rabs (snd (nth i back (0, 0)) - nth i angles 0) <= / 2 / 10 ^ 17 else hyp = None).
Proof.
  intros stod omp_max args c alpha T deg nd part hg raw0 HR EA ET ED Ha Homp HN HS GR HP HM n threads.
  destruct (hrg_in_range _ _ _ _ _ _ _ HR EA ET ED) as (AR & TR & DR & TH & N2). pose proof (hrg_n_is_int _ _ _ _ HR) as N31.
  set (en := {| he := hb hg; raw := raw0 |}).
  assert (Hn : (2 <= n)%nat) by (unfold n; lia). assert (HnZ : Z.of_nat n = h_n c) by (unfold n; lia). assert (Hth : Z.of_nat threads = h_threads c) by (unfold threads; lia).
  assert (NN : (N.of_nat n + 9999 < 2 ^ 31)%N) by (change (2 ^ 31)%N with 2147483648%N; change (2 ^ 31)%Z with 2147483648%Z in HN; lia).
  (* the threads of the sampling *)
  assert (TM : forall team, (1 <= team <= if (1 <? h_threads c)%Z then Nat.min threads (N.to_nat ((N.of_nat n + 9999) / 10000)) else 1)%nat -> (team <= threads)%nat).
  { intros team Ht. destruct (1 <? h_threads c)%Z; lia. }
  assert (T1 : (1 <= 1 <= if (1 <? h_threads c)%Z then Nat.min threads (N.to_nat ((N.of_nat n + 9999) / 10000)) else 1)%nat).
  { destruct (1 <? h_threads c)%Z; [|lia]. assert (1 <= (N.of_nat n + 9999) / 10000)%N by (apply N.div_le_lower_bound; lia). lia. }
  assert (SR : forall Rd team, 4 / 3 <= Rd <= 40 -> (1 <= team <= if (1 <? h_threads c)%Z then Nat.min threads (N.to_nat ((N.of_nat n + 9999) / 10000)) else 1)%nat -> sample_args n threads team alpha Rd (h_rseed c) (1 <? h_threads c)%Z).
  { intros Rd team HRd Ht. pose proof (TM team Ht). constructor; auto; try lra; try lia.
    - left. apply cosh_above; lra.
    - destruct (HS (h_rseed c)) as [?|?]; [now left|left; lia|right; lia]. }
  assert (SA : forall team, (1 <= team <= if (1 <? h_threads c)%Z then Nat.min threads (N.to_nat ((N.of_nat n + 9999) / 10000)) else 1)%nat -> sample_args n threads team 1 10 (h_aseed c) (1 <? h_threads c)%Z).
  { intros team Ht. pose proof (TM team Ht). constructor; auto; try lra; try lia.
    - left. apply cosh_above; lra.
    - destruct (HS (h_aseed c)) as [?|?]; [right; now left|left; lia|right; lia]. }
  (* the team of an outcome *)
  assert (TT : forall Radii Angles al Rd seed team oo, hsample_outcome en Radii Angles n al Rd seed (1 <? h_threads c)%Z threads team oo ->
     (1 <= team <= if (1 <? h_threads c)%Z then Nat.min threads (N.to_nat ((N.of_nat n + 9999) / 10000)) else 1)%nat).
  { intros Radii Angles al Rd seed team oo H. unfold hsample_outcome in H. assert (HT : exists t w, (do threads0 <- hinput_threads (1 <? h_threads c)%Z threads n; do w <- warmup n threads0; Some (threads0, w)) = Some (t, w) /\ t = if (1 <? h_threads c)%Z then Nat.min threads (N.to_nat ((N.of_nat n + 9999) / 10000)) else 1%nat).
    { unfold hinput_threads. destruct (1 <? h_threads c)%Z; [rewrite (proj2 (N.ltb_lt _ _) NN)|]; cbn [obind]; unfold warmup; (destruct (Nat.eqb_spec (if true then Nat.min threads (N.to_nat ((N.of_nat n + 9999) / 10000)) else 1%nat) 0) as [C|_]; [|]). 1: cbv iota in C; lia. all: try (destruct (Nat.eqb_spec _ 0) as [C'|_]; [lia|]); cbn [obind]; eexists; eexists; split; reflexivity. }
    destruct HT as (t & w & E & Et). rewrite E in H. destruct H as [H _]. now rewrite <- Et. }
  assert (RD : forall tr Rd o, 4 / 3 <= Rd <= 40 -> sampleRadii en n alpha Rd (h_rseed c) (1 <? h_threads c)%Z threads tr o -> exists radii, o = Some radii /\ List.length radii = n /\ forall x, In x radii -> 0 < x <= Rd).
  { intros tr Rd o HRd H. destruct H as (oo & H & Eo). pose proof (TT _ _ _ _ _ _ _ H) as Ht. destruct (C43_radii en n alpha Rd (h_rseed c) _ threads tr GR (SR Rd tr HRd Ht)) as [_ X].
    destruct (X o (ex_intro _ oo (conj H Eo))) as (rs & us & gens & -> & L & F & _). exists rs. split; [reflexivity|]. split; [exact L|]. now rewrite List.Forall_forall in F. }
  assert (AN : forall ta o, sampleAngles en n (h_aseed c) (1 <? h_threads c)%Z threads ta o -> exists angles, o = Some angles /\ List.length angles = n /\ forall x, In x angles -> 0 <= x < 2 * PI).
  { intros ta o H. destruct H as (oo & H & Eo). pose proof (TT _ _ _ _ _ _ _ H) as Ht. destruct (C43_angles en n (h_aseed c) _ threads ta GR (SA ta Ht)) as [_ X].
    destruct (X o (ex_intro _ oo (conj H Eo))) as (rs & us & gens & -> & L & F & _). exists rs. split; [reflexivity|]. split; [exact L|]. now rewrite List.Forall_forall in F. }
  assert (HI : forall Rd radii angles te, 4 / 3 <= Rd <= 40 -> List.length radii = n -> (forall x, In x radii -> 0 < x <= Rd) -> List.length angles = n -> (forall x, In x angles -> 0 <= x < 2 * PI) -> (1 <= te <= threads)%nat -> hrg_input radii angles Rd threads te).
  { intros Rd radii angles te HRd L1 F1 L2 F2 Hte. constructor; try lia; try lra.
    - now apply List.Forall_forall.
    - now apply List.Forall_forall. }
  assert (NONE : ~ estimate c alpha T deg None).
  { intros H. unfold estimate in H. fold n in H. destruct (C44_cli_radius n alpha T deg ltac:(lra) TR ltac:(rewrite INR_IZR_INZ, HnZ; exact DR)) as (Rd & E & _). destruct (h_nkr c); [|congruence].
    destruct (Req_EM_T T 0) as [->|T0].
    - unfold networkit_radius in H. cbv zeta in H. destruct (Req_EM_T 0 0) as [_|]; [|lra]. rewrite target_eq in H by lia. rewrite (start_is_calc n alpha deg ltac:(lia) ltac:(lra) ltac:(lra)), E in H. destruct H as (x & H & _). discriminate.
    - apply (C45_warm n alpha T deg None ltac:(lia) ltac:(lra) ltac:(lra) ltac:(lra)) in H. congruence. }
  split.
  - unfold genhrg_main. rewrite EA, ET, ED. cbv zeta. fold n threads en. split.
    + intros (r & er & HE & H). destruct er as [Rd|]; [|now destruct NONE]. pose proof (HM Rd HE) as HRd. destruct H as (tr & orad & H1 & H). destruct (RD _ _ _ HRd H1) as (radii & -> & L1 & F1).
      destruct H as (ta & oang & H2 & H). destruct (AN _ _ H2) as (angles & -> & L2 & F2). destruct H as (te & oe & Hte & H3 & _). exists Rd. split; [exact HE|].
      assert (RT : returns Rd threads te) by (apply (C39_returns_iff nd part hg radii angles T Rd (h_sseed c) threads te (HI _ _ _ _ HRd L1 F1 L2 F2 Hte) GR HP); eauto). destruct RT as [RT|[_ RT]]; [left; lia|now right].
    + intros (Rd & HE & HD). pose proof (HM Rd HE) as HRd. destruct (C43_radii en n alpha Rd (h_rseed c) _ threads 1 GR (SR Rd 1%nat HRd T1)) as [(orad & H1) _]. destruct (RD _ _ _ HRd H1) as (radii & -> & L1 & F1).
      destruct (C43_angles en n (h_aseed c) _ threads 1 GR (SA 1%nat T1)) as [(oang & H2) _]. destruct (AN _ _ H2) as (angles & -> & L2 & F2). assert (Hte : (1 <= threads <= threads)%nat) by lia.
      assert (RT : returns Rd threads threads) by (destruct HD as [HD|HD]; [left; lia|right; split; [reflexivity|exact HD]]).
      apply (C39_returns_iff nd part hg radii angles T Rd (h_sseed c) threads threads (HI _ _ _ _ HRd L1 F1 L2 F2 Hte) GR HP) in RT as (oe & H3).
      eexists. exists (Some Rd). split; [exact HE|]. exists 1%nat, (Some radii). split; [exact H1|]. exists 1%nat, (Some angles). split; [exact H2|]. exists threads, oe. split; [exact Hte|]. split; [exact H3|reflexivity].
  - intros r. unfold genhrg_main. rewrite EA, ET, ED. cbv zeta. fold n threads en. intros (er & HE & H). destruct er as [Rd|]; [|now destruct NONE]. pose proof (HM Rd HE) as HRd.
    destruct H as (tr & orad & H1 & H). destruct (RD _ _ _ HRd H1) as (radii & -> & L1 & F1). destruct H as (ta & oang & H2 & H). destruct (AN _ _ H2) as (angles & -> & L2 & F2). destruct H as (te & oe & Hte & H3 & ->).
    pose proof (HI _ _ _ _ HRd L1 F1 L2 F2 Hte) as HIN. destruct (C37_simple_graph nd part hg _ _ T _ _ _ _ HIN GR HP oe H3) as (es & -> & ND & IX & NL & NR). rewrite L1 in IX.
    assert (FIN : exists txt hyp, write_hrg c Rd radii angles es = HFinished Rd radii angles es txt hyp /\ (if h_edge c then exists text, txt = Some text /\ read_edge_file text = Some (h_n c, index_pairs es) else txt = None) /\
      (if h_coord c then exists text, hyp = Some text /\ let back := pair_up (map decimal_value (read_words text)) in List.length back = n /\ forall i, (i < n)%nat ->
       Rabs (fst (nth i back (0, 0)) - nth i radii 0) <= / 2 / 10 ^ 17 /\ Rabs (snd (nth i back (0, 0)) - nth i angles 0) <= / 2 / 10 ^ 17 else hyp = None)).
    { assert (TX : if h_edge c then exists text, (if h_edge c then Some (edge_file (h_n c) (index_pairs es)) else None) = Some text /\ read_edge_file text = Some (h_n c, index_pairs es) else (if h_edge c then Some (edge_file (h_n c) (index_pairs es)) else None) = None).
      { destruct (h_edge c); [|reflexivity]. eexists. split; [reflexivity|apply C52_read_back]. }
      unfold write_hrg. fold n. destruct (C59_coordinates n radii angles L1 L2) as (text & E & BK). destruct (h_coord c).
      - rewrite E. eexists. eexists. split; [reflexivity|]. split; [exact TX|]. exists text. split; [reflexivity|exact BK].
      - eexists. eexists. split; [reflexivity|]. split; [exact TX|reflexivity]. }
    destruct FIN as (txt & hyp & -> & F3 & F4). exists Rd, radii, angles, es, txt, hyp. split; [reflexivity|]. split; [exact HE|]. split; [exact L1|]. split; [exact F1|]. split; [exact L2|]. split; [exact F2|]. split; [exact ND|].
    split; [|split; [|split; [exact F3|exact F4]]].
    + intros u v I. destruct (IX u v I) as [U V]. split; [exact U|]. split; [exact V|]. split; [intros ->; exact (NL v I)|exact (NR u v I)].
    + intros -> u v Hu Hv Huv. destruct (C36_threshold_hrg_is_exact nd part hg _ _ _ (h_sseed c) _ _ HIN GR HP) as [_ X]. destruct (X _ H3) as (es' & E' & Y). injection E' as <-. apply Y; [rewrite L1|rewrite L1|]; assumption.
Qed.

Lemma hrun_of stod omp_max args c : no_banner args -> hread stod args = Run c -> hrg_ranges omp_max c -> genhrg stod omp_max args = Run c.
Proof.
  intros HB HG HRG. unfold genhrg. rewrite banner_none by exact HB. rewrite HG. cbn [bindcli]. apply C51_genhrg in HRG as (c' & H). rewrite H. now rewrite (hcheck_run _ _ _ H).
Qed.
Definition hex (n : Z) (alpha deg : R) (threads : Z) (nkr edge coord : bool) : hparams :=
  {| h_n := n; h_alpha := DFin alpha; h_T := DFin 0; h_deg := DFin deg; h_rseed := 12; h_aseed := 130; h_sseed := 1400; h_threads := threads; h_nkr := nkr; h_file := "graph"; h_edge := edge; h_coord := coord |}.
Lemma ln_PI_range q a b : 0 < q -> exp a <= q <= exp b -> a <= ln q <= b.
Proof.
  intros H [H1 H2]. split.
  - rewrite <- (ln_exp a). destruct H1 as [H1| <-]; [left; apply ln_increasing; [apply exp_pos|exact H1]|lra].
  - rewrite <- (ln_exp b). destruct H2 as [H2| ->]; [left; now apply ln_increasing|lra].
Qed.
(** "genhrg -n 100 -threads 2 -edge 1 -coord 1": some run ends, and all that end write the threshold graph *)
Theorem C60_example : forall stod nd raw0, exists c, genhrg stod 4 ["-n"; "100"; "-threads"; "2"; "-edge"; "1"; "-coord"; "1"]%string = Run c /\ (exists r, genhrg_main nd ex_part ex_hrng raw0 c r) /\
  forall r, genhrg_main nd ex_part ex_hrng raw0 c r -> exists Rd radii angles edges text hyp, r = HFinished Rd radii angles edges (Some text) (Some hyp) /\ List.length radii = 100%nat /\ read_edge_file text = Some (100%Z, as_integers edges) /\
    forall u v, (u < 100)%nat -> (v < 100)%nat -> u <> v -> (In (u, v) edges \/ In (v, u) edges <-> exists d, is_hyp_dist (nth u radii 0) (nth u angles 0) (nth v radii 0) (nth v angles 0) d /\ d < Rd).
Proof.
  intros stod nd raw0. set (args := ["-n"; "100"; "-threads"; "2"; "-edge"; "1"; "-coord"; "1"]%string). set (c := hex 100 (3 / 4) 10 2 false true true).
  assert (HR : genhrg stod 4 args = Run c). { apply hrun_of; [cbn; repeat split; discriminate|reflexivity|]. unfold hrg_ranges. cbn. repeat split; try lia; try lra. }
  assert (EST : forall Rd, estimate c (3 / 4) 0 10 (Some Rd) -> 2 + 2 * ln (2 * INR 2) <= Rd <= 40).
  { intros Rd HE. unfold estimate in HE. cbn [c hex h_nkr h_n] in HE. change (Z.to_nat 100) with 100%nat in HE. destruct (calc_eq 100 (3 / 4) 0 10 (1 / PI)) as [E Q]; [lia|lra|lra|lra|left; lra|]. rewrite E in HE. clear E.
    assert (ER := f_equal (fun o => match o with Some x => x | None => 0 end) HE). cbv beta iota in ER. rewrite ER. clear HE ER. set (q := INR 100 * 2 * (3 / 4) * (3 / 4) * (1 / PI) / (10 * (3 / 4 - 1 / 2) * (3 / 4 - 1 / 2))) in *. pose proof PI_RGT_0 as P. pose proof PI_upper as PU. pose proof PI2_3_2 as PL. destruct e_bounds as [EL EU].
    assert (EQ : q * PI = 180) by (unfold q; replace (INR 100) with 100 by (rewrite INR_IZR_INZ; reflexivity); field; lra). clearbody q.
    assert (L4 : 2 + 2 * ln (2 * INR 2) = 2 * ln (exp 1 * 4)). { rewrite (ln_mult (exp 1) 4); [|apply exp_pos|lra]. rewrite ln_exp. replace (2 * INR 2) with 4 by (cbn [INR]; lra). ring. }
    rewrite L4. split.
    - apply Rmult_le_compat_l; [lra|]. left. apply ln_increasing; [apply Rmult_lt_0_compat; lra|]. nra.
    - assert (X : q <= exp 20). { replace 20 with (10 + 10) by ring. rewrite exp_plus. pose proof (exp_ineq1 10 ltac:(lra)). nra. } pose proof (exp_pos 20). destruct (ln_PI_range q (ln q) 20 Q) as [_ Y]; [rewrite exp_ln by exact Q; lra|lra]. }
  assert (L0 : 0 <= ln (2 * INR 2)). { rewrite <- ln_1. left. apply ln_increasing; [lra|cbn; lra]. }
  assert (HM : radius_moderate c (3 / 4) 0 10) by (intros Rd HE; specialize (EST Rd HE); lra).
  assert (SF : hrg_seeds_fit c) by (intros s [<-|[<-|[]]]; right; cbn; lia).
  exists c. split; [exact HR|]. destruct (C60_genhrg_run stod 4 args c (3 / 4) 0 10 nd ex_part ex_hrng raw0 HR eq_refl eq_refl eq_refl ltac:(lra) ltac:(lia) ltac:(cbn; lia) SF ex_rng_good ex_part_ok HM) as [X H]. split.
  - apply X. destruct (C44_cli_radius 100 (3 / 4) 0 10) as (Rd & E & _); [lra|lra|rewrite INR_IZR_INZ; cbn; lra|]. exists Rd. assert (HE : estimate c (3 / 4) 0 10 (Some Rd)) by (unfold estimate; cbn [c hex h_nkr h_n]; symmetry; exact E). split; [exact HE|]. right.
    specialize (EST Rd HE). destruct (C39_enough_radius Rd 2 ltac:(lia) ltac:(lra)) as [C|[_ D]]; [discriminate|exact D].
  - intros r Hr. destruct (H r Hr) as (Rd & radii & angles & edges & txt & hyp & -> & _ & L & _ & _ & _ & _ & _ & T & (text & -> & RT) & (ht & -> & _)).
    exists Rd, radii, angles, edges, text, ht. split; [reflexivity|]. split; [exact L|]. split; [exact RT|]. exact (T eq_refl).
Qed.

(** ** runs within the documented ranges that never end or are undefined *)
Lemma shallow Rd : 1 <= Rd <= 2 -> ~ deep_enough Rd 2.
Proof.
  intros HR H. specialize (H 0%nat (2 * (Rd - 1))). assert (C : Rd < 2 * (Rd - 1)); [|lra]. apply H.
  - cbn. lra.
  - split; [lra|]. cbn [pow]. replace (0 - PI / 1) with (- PI) by field. rewrite cos_neg, cos_PI. replace (2 * (Rd - 1)) with ((Rd - 1) + (Rd - 1)) by ring. rewrite cosh_plus. ring.
Qed.
(** a dense graph with two threads: the generator never returns *)
Theorem C60_hang_refuted : forall stod nd part hg raw0, stod "1"%string = Some (DFin 1) -> stod "99"%string = Some (DFin 99) -> good_rng (hb hg) -> is_partition task_eq part ->
  exists c, genhrg stod 4 ["-n"; "100"; "-alpha"; "1"; "-deg"; "99"; "-threads"; "2"]%string = Run c /\ forall r, ~ genhrg_main nd part hg raw0 c r.
Proof.
  intros stod nd part hg raw0 H1 H99 GR HP. set (args := ["-n"; "100"; "-alpha"; "1"; "-deg"; "99"; "-threads"; "2"]%string). set (c := hex 100 1 99 2 false false false).
  assert (HR : genhrg stod 4 args = Run c).
  { apply hrun_of; [cbn; repeat split; discriminate| |unfold hrg_ranges; cbn; repeat split; try lia; try lra].
    unfold hread. cbv zeta. assert (P : parse_args args = [("n", "100"); ("alpha", "1"); ("deg", "99"); ("threads", "2")]%string) by reflexivity. rewrite P. unfold read_param. cbn [get String.eqb Ascii.eqb Bool.eqb]. rewrite H1, H99. reflexivity. }
  exists c. split; [exact HR|]. intros r Hr. destruct C44_cli_deadlock as (R0 & E0 & B0 & _).
  assert (EST : forall Rd, estimate c 1 0 99 (Some Rd) -> Rd = R0). { intros Rd HE. unfold estimate in HE. cbn [c hex h_nkr h_n] in HE. change (Z.to_nat 100) with 100%nat in HE. rewrite E0 in HE. now injection HE. }
  destruct (C44_cli_radius 100 1 0 99) as (R1 & E1 & L1 & L2); [lra|lra|rewrite INR_IZR_INZ; cbn; lra|]. rewrite E0 in E1. injection E1 as <-.
  assert (HM : radius_moderate c 1 0 99) by (intros Rd HE; rewrite (EST Rd HE); lra).
  assert (SF : hrg_seeds_fit c) by (intros s [<-|[<-|[]]]; right; cbn; lia).
  destruct (C60_genhrg_run stod 4 args c 1 0 99 nd part hg raw0 HR eq_refl eq_refl eq_refl ltac:(lra) ltac:(lia) ltac:(cbn; lia) SF GR HP HM) as [X _].
  destruct (proj1 X (ex_intro _ r Hr)) as (Rd & HE & [C|D]); [discriminate|]. rewrite (EST Rd HE) in D. exact (shallow R0 B0 D).
Qed.
(** a dense graph with -nkr 1: the search for the radius never ends *)
Theorem C60_search_refuted : forall stod nd part hg raw0, stod "1"%string = Some (DFin 1) -> stod "9"%string = Some (DFin 9) ->
  exists c, genhrg stod 4 ["-n"; "10"; "-alpha"; "1"; "-deg"; "9"; "-nkr"; "1"]%string = Run c /\ forall r, ~ genhrg_main nd part hg raw0 c r.
Proof.
  intros stod nd part hg raw0 H1 H9. set (args := ["-n"; "10"; "-alpha"; "1"; "-deg"; "9"; "-nkr"; "1"]%string). set (c := hex 10 1 9 1 true false false).
  exists c. split.
  - apply hrun_of; [cbn; repeat split; discriminate| |unfold hrg_ranges; cbn; repeat split; try lia; try lra].
    unfold hread. cbv zeta. assert (P : parse_args args = [("n", "10"); ("alpha", "1"); ("deg", "9"); ("nkr", "1")]%string) by reflexivity. rewrite P. unfold read_param. cbn [get String.eqb Ascii.eqb Bool.eqb]. rewrite H1, H9. reflexivity.
  - intros r (er & HE & _). revert HE. exact (proj2 ex_C45 er).
Qed.
(** alpha = 1/2 is accepted, but then the radius is infinite *)
Theorem C60_alpha_half_refuted : forall stod nd part hg raw0, stod "0.5"%string = Some (DFin (1 / 2)) ->
  exists c, genhrg stod 4 ["-n"; "100"; "-alpha"; "0.5"]%string = Run c /\ forall r, genhrg_main nd part hg raw0 c r <-> r = HUndefined.
Proof.
  intros stod nd part hg raw0 H5. set (args := ["-n"; "100"; "-alpha"; "0.5"]%string). set (c := hex 100 (1 / 2) 10 1 false false false).
  exists c. split.
  - apply hrun_of; [cbn; repeat split; discriminate| |unfold hrg_ranges; cbn; repeat split; try lia; try lra].
    unfold hread. cbv zeta. assert (P : parse_args args = [("n", "100"); ("alpha", "0.5")]%string) by reflexivity. rewrite P. unfold read_param. cbn [get String.eqb Ascii.eqb Bool.eqb]. rewrite H5. reflexivity.
  - assert (E : forall er, estimate c (1 / 2) 0 10 er <-> er = None) by (intros er; unfold estimate; cbn [c hex h_nkr]; rewrite C44_half_refuted; tauto).
    intros r. unfold genhrg_main. cbn [c hex h_alpha h_T h_deg]. split.
    + intros (er & HE & H). apply E in HE. now subst er.
    + intros ->. exists None. split; [now apply E|reflexivity].
Qed.

Print Assumptions C60_radius.
Print Assumptions C60_genhrg_run.
Print Assumptions C60_example.
Print Assumptions C60_hang_refuted.
Print Assumptions C60_search_refuted.
Print Assumptions C60_alpha_half_refuted.
