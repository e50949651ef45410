(** Property C08: the law of the edges for finite alpha, in exact real arithmetic with ideal randomness (Prob_Spec.v: every thread draws from an independent
    sequence of independent uniform numbers; [expects_n k f v] says that v is the expected value of f of k such sequences). *)
From Coq Require Import Arith NArith ZArith List Bool Reals Lra Lia Permutation.
From Coquelicot Require Import Coquelicot.
From Flocq Require Import Core.
From Verif Require Import Base Sched Coord_Model Coord_Geo Coord_Torus Prop_Coord Tree_Model Tree_Build Tree_Run Girg_Model Girg_Num Prop_Girg Prob_Spec Prob Prob_Events Prob_Girg Prob_Law.
Import ListNotations.
Local Open Scope R_scope.

(** the edge probability of the model: min(1, (w_u w_v / W / dist^D)^alpha), and 1 for nodes at the same position *)
Definition edge_probability (D : N) (ws : list R) (ps : list (list R)) (alpha : R) (u v : nat) (p : R) : Prop :=
  exists d, is_torus_dist (nth u ps []) (nth v ps []) d /\
    (d = 0 -> p = 1) /\ (0 < d -> p = Rmin 1 (Rpower (nth u ws 0 * nth v ws 0 / sumR ws / d ^ N.to_nat D) alpha)).

Lemma edge_probability_unique D ws ps a u v p p' : edge_probability D ws ps a u v p -> edge_probability D ws ps a u v p' -> p = p'.
Proof.
  intros (d & Td & P0 & P1) (d' & Td' & Q0 & Q1). pose proof (torus_dist_unique _ _ _ _ Td Td'). subst d'. destruct Td as (_ & [Hd|Hd] & _); [now rewrite P1, Q1|now rewrite P0, Q0].
Qed.
Lemma pe_probability D ws ps seed omp_max team cfg P a u v : girg_input D ws ps seed omp_max team -> ideal_params ws P -> 0 <= a -> (u < length ws)%nat -> (v < length ws)%nat ->
  edge_probability D ws ps a u v (@pe D ws ps cfg P a u v).
Proof.
  intros HI IP Ha Hu Hv. pose proof (use_vp HI) as VP. pose proof (gi_dim _ _ _ _ _ _ HI) as HD. pose proof (gi_len _ _ _ _ _ _ HI) as HL.
  rewrite List.Forall_forall in VP. destruct (VP (nth u ps []) ltac:(apply nth_In; lia)) as [L1 F1]. destruct (VP (nth v ps []) ltac:(apply nth_In; lia)) as [L2 F2].
  set (d := coord_distance ideal_env 0 (nth u ps []) (nth v ps [])).
  assert (T : is_torus_dist (nth u ps []) (nth v ps []) d).
  { apply distance_is_torus_dist; [| |congruence]; apply unit_closed; [eapply List.Forall_impl; [|exact F1]|eapply List.Forall_impl; [|exact F2]]; cbn; tauto. }
  exists d. split; [exact T|]. unfold pe, pnode, conn_prob, d_term, w_term. rewrite pow_to_the_ideal. unfold node_distance. cbn [coord Tree_Build.mk weight rnd ideal_env]. unfold pos. fold d. unfold Tree_Build.wt.
  rewrite (ip_W _ _ IP). unfold xdiv. split.
  - intros ->. rewrite pow_i by lia. destruct (Req_EM_T 0 0) as [_|N0]; [|congruence]. cbn [xpow xmin1].
    destruct (Rlt_dec 0 a); [reflexivity|]. destruct (Rlt_dec a 0); [lra|]. cbn [xmin1]. apply Rmin_left. lra.
  - intros Hd. pose proof (pow_lt d (N.to_nat D) Hd) as Pd. destruct (Req_EM_T (d ^ N.to_nat D) 0) as [Z|_]; [lra|]. cbn [xpow xmin1 fpow ideal_env rnd]. apply Rmin_comm.
Qed.

(** ** The law: the pairs are decided independently, each with its own probability q; q is the edge probability, except for pairs with a probability below 10^-6,
    whose blocks the code may drop. *)
Definition close_probability (D : N) (ws : list R) (ps : list (list R)) (alpha : R) (u v : nat) (q : R) : Prop :=
  exists p, edge_probability D ws ps alpha u v p /\ 0 <= p <= 1 /\ (q = p \/ (q = 0 /\ p < 1 / 1000000)).
(** what a caller may observe: [out] gives a possible result for all values of the draws (whatever the schedule of the threads) *)
Definition possible_results (cfg : config) (ws : list R) (ps : list (list R)) (a : R) (seed : Z) (omp_max team : nat) (out : list tape -> option (list (nat * nat))) : Prop :=
  forall tapes, length tapes = omp_max -> girg_outcome ideal_env cfg (tape_rng (seeded seed tapes)) ws ps (AFin a) seed omp_max team (out tapes).
(** the generated graph is exactly the graph H *)
Definition is_graph (n : nat) (H : nat -> nat -> bool) (o : option (list (nat * nat))) : bool :=
  match o with Some edges => forallb (fun uv => Bool.eqb (joinedb edges (fst uv) (snd uv)) (H (fst uv) (snd uv))) (all_pairs n) | None => false end.
Definition has_edge (u v : nat) (o : option (list (nat * nat))) : bool := match o with Some edges => joinedb edges u v | None => false end.

Lemma forallb_prod {A} (f : A -> bool) l : (if forallb f l then 1 else 0) = prodR l (fun x => if f x then 1 else 0).
Proof. induction l as [|x l IH]; [reflexivity|]. cbn [forallb]. rewrite prodR_cons, <- IH. destruct (f x), (forallb f l); cbn [andb]; ring. Qed.
Lemma prodR_one n u v (c : R) : (u < v < n)%nat -> prodR (all_pairs n) (fun uv => if (fst uv =? u)%nat && (snd uv =? v)%nat then c else 1) = c.
Proof.
  intros H. apply all_pairs_In in H. pose proof (all_pairs_NoDup n) as ND. apply in_split in H as (l1 & l2 & E). rewrite E in *. rewrite prodR_app, prodR_cons. cbn [fst snd]. rewrite !Nat.eqb_refl. cbn [andb].
  apply NoDup_remove_2 in ND. rewrite !prodR_1; [ring| |]; intros [x y] I; cbn [fst snd];
    (destruct (Nat.eqb_spec x u) as [->|]; [|reflexivity]); (destruct (Nat.eqb_spec y v) as [->|]; [|reflexivity]); exfalso; apply ND, in_or_app; auto.
Qed.

Theorem C08_law : forall cfg D ws ps seed omp_max team a,
  girg_input D ws ps seed omp_max team -> (0 <= seed)%Z -> 0 <= a ->
  (exists out, possible_results cfg ws ps a seed omp_max team out) /\
  exists q : nat -> nat -> R,
    (forall u v, (u < length ws)%nat -> (v < length ws)%nat -> u <> v -> close_probability D ws ps a u v (q u v)) /\
    forall out, possible_results cfg ws ps a seed omp_max team out ->
      (* every product of functions of the single pairs has the product of the means as expected value *)
      (forall phi, expects_n omp_max (fun tapes => match out tapes with
           | Some edges => prodR (all_pairs (length ws)) (fun uv => phi (fst uv) (snd uv) (joinedb edges (fst uv) (snd uv)))
           | None => 0 end)
         (prodR (all_pairs (length ws)) (fun uv => q (fst uv) (snd uv) * phi (fst uv) (snd uv) true + (1 - q (fst uv) (snd uv)) * phi (fst uv) (snd uv) false))) /\
      (* the probability of each graph H *)
      (forall H, probability_n omp_max (fun tapes => is_graph (length ws) H (out tapes))
         (prodR (all_pairs (length ws)) (fun uv => if H (fst uv) (snd uv) then q (fst uv) (snd uv) else 1 - q (fst uv) (snd uv)))) /\
      (* the probability of each edge *)
      (forall u v, (u < v < length ws)%nat -> probability_n omp_max (fun tapes => has_edge u v (out tapes)) (q u v)).
Proof.
  intros cfg D ws ps seed omp_max team a HI Hs Ha. destruct (girg_law cfg D ws ps seed omp_max team a HI Hs Ha) as (P & t & ord & q & NO & IP & TS & T1 & _ & Hq & LAW). split.
  - destruct (girg_runs cfg D ws ps seed omp_max team a HI Hs) as [out Hout]. exists out. intros tapes _. apply Hout.
  - exists q. split.
    + intros u v Hu Hv Hne. exists (@pe D ws ps cfg P a u v). split; [now apply (pe_probability D ws ps seed omp_max team)|]. split; [|now apply Hq].
      now apply pe_range.
    + intros out Hout. pose proof (LAW out Hout) as L. split; [exact L|]. split.
      * intros H. unfold probability_n. specialize (L (fun u v b => if Bool.eqb b (H u v) then 1 else 0)).
        replace (prodR _ _) with (prodR (all_pairs (length ws)) (fun uv => bern (fun u v b => if Bool.eqb b (H u v) then 1 else 0) (q (fst uv) (snd uv)) (fst uv) (snd uv))).
        { eapply expects_n_ext; [|exact L]. intros tapes Lt. cbn beta. unfold is_graph. destruct (out tapes); [|reflexivity]. now rewrite forallb_prod. }
        apply prodR_ext. intros [u v] _. unfold bern. cbn [fst snd]. destruct (H u v); cbn [Bool.eqb]; ring.
      * intros u v Huv. unfold probability_n. specialize (L (fun x y b => if (x =? u)%nat && (y =? v)%nat then (if b then 1 else 0) else 1)).
        replace (prodR _ _) with (q u v) in L.
        { eapply expects_n_ext; [|exact L]. intros tapes Lt. cbn beta. unfold has_edge. destruct (out tapes) as [edges|]; [|reflexivity].
          rewrite <- (prodR_one (length ws) u v (if joinedb edges u v then 1 else 0) Huv). apply prodR_ext. intros [x y] _. cbn [fst snd].
          destruct (Nat.eqb_spec x u) as [->|]; [|reflexivity]. destruct (Nat.eqb_spec y v) as [->|]; reflexivity. }
        rewrite <- (prodR_one (length ws) u v (q u v) Huv). apply prodR_ext. intros [x y] _. cbn [fst snd]. unfold bern.
        destruct (Nat.eqb_spec x u) as [->|]; cbn [andb]; [|ring]. destruct (Nat.eqb_spec y v) as [->|]; cbn [andb]; ring.
Qed.
(** expected values are unique, so the theorem above determines all of them *)
Theorem C08_expected_value_unique : forall k f v w, expects_n k f v -> expects_n k f w -> v = w.
Proof. exact expects_n_unique. Qed.

(** ** Instances *)
(** 16 nodes of weight 1 at k/16, alpha = 1: the edge {0,8} has probability 1/8 *)
Example ex_probability : edge_probability 1 ex_ws ex_ps 1 0 8 (1 / 8).
Proof.
  exists (1 / 2). split.
  - change (is_torus_dist [IZR (Z.of_nat 0) / 16] [IZR (Z.of_nat 8) / 16] (1 / 2)). assert (C : coord_distance ideal_env 0 [IZR (Z.of_nat 0) / 16] [IZR (Z.of_nat 8) / 16] = 1 / 2).
    { change (Z.of_nat 0) with 0%Z. change (Z.of_nat 8) with 8%Z. cbn. unfold axis_distance. cbn. unfold Rabs, Rmin, Rmax. destruct (Rcase_abs _); repeat destruct (Rle_dec _ _); lra. }
    rewrite <- C. change (Z.of_nat 0) with 0%Z. change (Z.of_nat 8) with 8%Z. apply distance_is_torus_dist; [| |reflexivity]; repeat constructor; lra.
  - split; [intros; lra|]. intros _. rewrite ex_sum. unfold ex_ws. cbn [nth repeat]. rewrite Rpower_1; change (N.to_nat 1) with 1%nat; cbn [pow]; [|lra]. rewrite Rmin_right; lra.
Qed.
Theorem C08_example : forall cfg team omp out, (1 <= N.of_nat omp <= 2 ^ 17)%N -> (1 <= team <= omp)%nat ->
  possible_results cfg ex_ws ex_ps 1 7 omp team out -> probability_n omp (fun tapes => has_edge 0 8 (out tapes)) (1 / 8).
Proof.
  intros cfg team omp out H1 H2 Hout. assert (HI : girg_input 1 ex_ws ex_ps 7 omp team) by (apply ex_input; auto; lia).
  destruct (C08_law cfg 1 ex_ws ex_ps 7 omp team 1 HI ltac:(lia) ltac:(lra)) as [_ (q & Hq & L)]. destruct (L out Hout) as (_ & _ & L3). specialize (L3 0%nat 8%nat ltac:(cbn; lia)).
  destruct (Hq 0%nat 8%nat ltac:(cbn; lia) ltac:(cbn; lia) ltac:(lia)) as (p & Ep & Rp & C).
  assert (p = 1 / 8) by (eapply edge_probability_unique; [exact Ep|exact ex_probability]).
  subst p. destruct C as [C|[_ C]]; [rewrite C in L3; exact L3|lra].
Qed.

(** The blocks that are dropped: two nodes of weight 1/64 in two dimensions, alpha = 40.  The edge has the probability 32^-40, but it is never generated. *)
Definition dr_ws : list R := [1 / 64; 1 / 64].
Definition dr_ps : list (list R) := [[0; 0]; [1 / 2; 0]].
Example dr_input : girg_input 2 dr_ws dr_ps 0 1 1.
Proof.
  constructor; try reflexivity; try lia.
  - constructor; [discriminate| |].
    + assert (b2 (-1100) <= b2 (-6)) by (apply bpow_le; lia). assert (b2 (-6) <= b2 1100) by (apply bpow_le; lia). change (b2 (-6)) with (/ 64) in *.
      intros w [<-|[<-|[]]]; lra.
    + change (b2 31) with (IZR 2147483648). unfold sumR. cbn. intros w [<-|[<-|[]]]; lra.
  - repeat constructor; lra.
Qed.
Lemma dr_params : exists wn, tree_params ideal_env 2 dr_ws = Some {| p_w0 := 1 / 64; p_wn := wn; p_W := 1 / 32; p_c := 7; p_layers := 1; p_levels := 3 |}.
Proof.
  exists (1 / 64). unfold tree_params, min_elem, max_elem, sum_elems, dr_ws. cbn [fold_left obind rnd flog2 ideal_env]. rewrite Rmin_left, Rmax_left by lra.
  replace (0 + 1 / 64 + 1 / 64) with (1 / 32) by lra. replace (1 / 32 / (1 / 64) / (1 / 64)) with (b2 7) by (change (b2 7) with 128; lra).
  replace (1 / 64 / (1 / 64)) with (b2 0) by (change (b2 0) with 1; lra). rewrite !log2R_b2. unfold double_to_int, double_to_u32. rewrite Zfloor_IZR, !Ztrunc_IZR. cbn. reflexivity.
Qed.

Theorem C08_exact_probability_refuted : forall cfg out, possible_results cfg dr_ws dr_ps 40 0 1 1 out ->
  girg_input 2 dr_ws dr_ps 0 1 1 /\ edge_probability 2 dr_ws dr_ps 40 0 1 (Rpower (1 / 32) 40) /\ 0 < Rpower (1 / 32) 40 /\
  probability_n 1 (fun tapes => has_edge 0 1 (out tapes)) 0.
Proof.
  intros cfg out Hout. pose proof dr_input as HI. split; [exact HI|]. split; [|split; [apply exp_pos|]].
  { exists (1 / 2). split.
    - change (is_torus_dist [0; 0] [1 / 2; 0] (1 / 2)). assert (C : coord_distance ideal_env 0 [0; 0] [1 / 2; 0] = 1 / 2).
      { cbn. unfold axis_distance. cbn. unfold Rabs, Rmin, Rmax. repeat (destruct (Rcase_abs _)); repeat destruct (Rle_dec _ _); lra. }
      rewrite <- C at 2. apply distance_is_torus_dist; [| |reflexivity]; repeat constructor; lra.
    - split; [intros; lra|]. intros _. change (N.to_nat 2) with 2%nat. unfold dr_ws, sumR. cbn [nth fold_right fold_left pow]. replace (1 / 64 * (1 / 64) / _ / _) with (1 / 32) by lra.
      symmetry. apply Rmin_right. unfold Rpower. apply Rle_trans with (exp 0); [|rewrite exp_0; lra]. left. apply exp_increasing. assert (ln (1 / 32) < ln 1) by (apply ln_increasing; lra). rewrite ln_1 in H. lra. }
  destruct (girg_law cfg 2 dr_ws dr_ps 0 1 1 40 HI ltac:(lia) ltac:(lra)) as (P & t & ord & q & NO & IP & TS & T1 & -> & Hq & LAW).
  assert (Q0 : @qpair 2 dr_ws dr_ps cfg P ord 40 0 1 = 0).
  2:{ specialize (LAW out Hout (fun x y b => if (x =? 0)%nat && (y =? 1)%nat then (if b then 1 else 0) else 1)). unfold probability_n.
      eapply expects_n_ext in LAW; [replace (prodR _ _) with 0 in LAW; [exact LAW|]|].
      - unfold prodR, all_pairs. cbn [length dr_ws seq flat_map map app fold_right fst snd]. unfold bern. cbn [Nat.eqb andb]. rewrite Q0. ring.
      - intros tapes _. cbn beta. unfold has_edge. destruct (out tapes); [|reflexivity]. unfold prodR, all_pairs. cbn [length dr_ws seq flat_map map app fold_right fst snd Nat.eqb andb]. ring. }
  destruct dr_params as (wn & EP). assert (HP : P = {| p_w0 := 1 / 64; p_wn := wn; p_W := 1 / 32; p_c := 7; p_layers := 1; p_levels := 3 |}).
  { pose proof (no_params _ _ _ _ NO) as H. congruence. }
  assert (HC : In (CallII 5 9 2 0 0) (Tree_Plan.plan cfg 2 P (N.to_nat (p_levels P - 1)) 0 0 0)).
  { rewrite HP. destruct cfg as [b1 b2 b3]. destruct b1, b2; lazy; repeat (try (left; reflexivity); right). }
  assert (B0 : bounds ideal_env cfg 2 5 2 = Some [(0, 1 / 4); (0, 1 / 4)] /\ bounds ideal_env cfg 2 9 2 = Some [(1 / 2, 3 / 4); (0, 1 / 4)]).
  { unfold bounds. destruct cfg as [[] [] nd]; cbn [use_bmi2 gnuc]; (split; [change (Bits_Model.extract _ _ _) with [0%N; 0%N]|change (Bits_Model.extract _ _ _) with [2%N; 0%N]]);
      cbn [shl1_i32 obind]; cbn; apply f_equal; (apply f_equal2; [apply f_equal2; lra|apply f_equal2; [apply f_equal2; lra|reflexivity]]). }
  assert (D9 : dist_lower_bound ideal_env cfg 2 5 9 2 = Some (1 / 16)).
  { unfold dist_lower_bound, cell_dist. destruct cfg as [[] [] nd]; cbn [use_bmi2 gnuc];
      change (Bits_Model.extract _ 2 (cellOfLevel _ 2 5)) with [0%N; 0%N]; change (Bits_Model.extract _ 2 (cellOfLevel _ 2 9)) with [2%N; 0%N]; cbn; f_equal; unfold Rmax; destruct (Rle_dec _ _); change (Pos.to_nat 2) with 2%nat; cbn; lra. }
  destruct B0 as [B5 B9]. set (x := CallII 5 9 2 0 0) in *.
  pose proof (gi_dim _ _ _ _ _ _ HI) as HD. pose proof (gi_len _ _ _ _ _ _ HI) as HL. pose proof (gi_n _ _ _ _ _ _ HI) as Hn.
  pose proof (plan0_ok ideal_env cfg 2 dr_ws dr_ps P HD NO HL Hn t ord TS x HC) as Hok.
  destruct (far_ranges HI cfg P t ord TS 5 9 2 0 0 Hok) as [E1 E2].
  destruct (C19_cell_queries cfg _ _ _ _ _ _ HI) as [_ HQ]. destruct (HQ _ T1) as (t' & wmin & [= <-] & W1 & W2 & _ & HQ2).
  assert (wmin = 1 / 64) by (destruct W1 as [W1|[W1|[]]]; congruence). subst wmin. rewrite (ts_P _ _ _ _ _ _ _ _ TS), HP in HQ2. cbn [p_layers p_c] in HQ2.
  destruct (HQ2 0%nat 2%N 5%N ltac:(lia) ltac:(cbn; lia)) as (La & ba & NA & BA & _ & IA & _). { exists 5%N, 16%N. repeat split; lia. }
  destruct (HQ2 0%nat 2%N 9%N ltac:(lia) ltac:(cbn; lia)) as (Lb & bb & NB & BB & _ & IB & _). { exists 5%N, 16%N. repeat split; lia. }
  rewrite B5 in BA. injection BA as <-. rewrite B9 in BB. injection BB as <-. rewrite E1 in NA. injection NA as <-. rewrite E2 in NB. injection NB as <-. rewrite map_index in IA, IB.
  set (va := V ideal_env cfg 2 dr_ws dr_ps P ord 0 5 2) in *. set (vb := V ideal_env cfg 2 dr_ws dr_ps P ord 0 9 2) in *.
  assert (I0 : In 0%nat va). { apply IA. split; [cbn; lia|]. split; [cbn; lra|]. cbn. repeat constructor; cbn; lra. }
  assert (I1 : In 1%nat vb). { apply IB. split; [cbn; lia|]. split; [cbn; lra|]. cbn. repeat constructor; cbn; lra. }
  unfold qpair. replace (existsb _ _) with true; [reflexivity|]. symmetry. apply existsb_exists. exists x. split; [exact HC|]. apply andb_true_intro. split.
  2:{ apply joinedb_In. left. now apply in_prod. }
  assert (BM : block_max (D := 2) cfg P 40 5 9 2 0 0 = (1 / 2) ^ 40).
  { unfold block_max. rewrite D9. rewrite HP. unfold w_upper_bound. cbn [shl1_i32 obind N.of_nat]. cbn -[Rpower pow max_connection_prob]. unfold max_connection_prob, xdiv.
    destruct (Req_EM_T (1 / 16) 0) as [|_]; [lra|]. cbn [xpow xmin1 fpow ideal_env rnd]. match goal with |- Rmin (Rpower ?y _) 1 = _ => replace y with (1 / 2) by field end.
    replace 40 with (INR 40) at 1 by (rewrite INR_IZR_INZ; reflexivity). rewrite Rpower_pow by lra. apply Rmin_left. cbn [pow]. lra. }
  unfold x. cbn [dropped]. fold va vb. rewrite BM. apply andb_true_intro. split.
  - apply negb_true_iff. apply Rltb_false. cbn [pow]. lra.
  - apply Rltb_true. assert (L1 : (length va <= 2)%nat) by apply (V_length ideal_env cfg 2 dr_ws dr_ps P HL Hn t ord TS). assert (L2 : (length vb <= 2)%nat) by apply (V_length ideal_env cfg 2 dr_ws dr_ps P HL Hn t ord TS).
    assert (L3 : INR (length va * length vb) <= 4). { replace 4 with (INR 4) by (rewrite INR_IZR_INZ; reflexivity). apply le_INR. nia. }
    apply Rle_lt_trans with (4 * (1 / 2) ^ 40); [apply Rmult_le_compat_r; [apply pow_le; lra|exact L3]|]. cbn [pow]. lra.
Qed.

Print Assumptions C08_law.
Print Assumptions C08_expected_value_unique.
Print Assumptions C08_example.
Print Assumptions C08_exact_probability_refuted.
