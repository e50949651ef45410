(** Properties C54, C55, C56: coordinate conversions, the example tools' counting, symmetries of the threshold graph. *)
From Coq Require Import Arith NArith ZArith List Bool Reals Permutation Sorted Lia Lra.
From Verif Require Import Base Sched Coord_Torus Tree_Model Tree_Run Girg_Model Girg_Num Prop_Girg Scaling_Model Prop_Scaling Extra_Model.
Import ListNotations.
Local Open Scope R_scope.

(** ** C54 *)
Theorem C54_radius_weight : forall r Rd, girgWeightToRadius (radiusToGirgWeight r Rd) Rd 1 = r /\
  (0 <= r <= Rd -> 1 <= radiusToGirgWeight r Rd <= exp (Rd / 2)).
Proof.
  intros r Rd. unfold girgWeightToRadius, radiusToGirgWeight. split; [unfold Rdiv at 1; rewrite Rinv_1, Rmult_1_r, ln_exp; field|].
  intros H. assert (M : forall a b, a <= b -> exp a <= exp b) by (intros a b [L| ->]; [left; now apply exp_increasing|right; reflexivity]). split; [rewrite <- exp_0|]; apply M; lra.
Qed.
(** with any scaling: the weight scaling * e^((R - r)/2) has radius r again; on unscaled weights the other composition is the identity too *)
Theorem C54_weight_radius : forall w Rd scaling, 0 < w -> 0 < scaling ->
  scaling * radiusToGirgWeight (girgWeightToRadius w Rd scaling) Rd = w /\ (forall r, girgWeightToRadius (scaling * radiusToGirgWeight r Rd) Rd scaling = r) /\
  (scaling <= w <= scaling * exp (Rd / 2) -> 0 <= girgWeightToRadius w Rd scaling <= Rd).
Proof.
  intros w Rd s Hw Hs. unfold girgWeightToRadius, radiusToGirgWeight. assert (Q : 0 < w / s) by now apply Rdiv_lt_0_compat. split; [|split].
  - replace ((Rd - (Rd - 2 * ln (w / s))) / 2) with (ln (w / s)) by field. rewrite exp_ln by exact Q. field. lra.
  - intros r. replace (s * exp ((Rd - r) / 2) / s) with (exp ((Rd - r) / 2)) by (field; lra). rewrite ln_exp. field.
  - intros [L U]. assert (A : 1 <= w / s <= exp (Rd / 2)).
    { split; apply Rmult_le_reg_r with s; try exact Hs; replace (w / s * s) with w by (field; lra); lra. }
    assert (M : forall a b, 0 < a -> a <= b -> ln a <= ln b) by (intros a b P [L'| ->]; [left; now apply ln_increasing|right; reflexivity]).
    pose proof (M 1 (w / s) ltac:(lra) (proj1 A)) as M1. pose proof (M (w / s) _ Q (proj2 A)) as M2. rewrite ln_1 in M1. rewrite ln_exp in M2. lra.
Qed.
Theorem C54_angle_position : forall a x, girgPositionToAngle (angleToGirgPosition a) = a /\ angleToGirgPosition (girgPositionToAngle x) = x /\
  (0 <= a < 2 * PI -> 0 <= angleToGirgPosition a < 1) /\ (0 <= x < 1 -> 0 <= girgPositionToAngle x < 2 * PI).
Proof.
  intros a x. pose proof PI_RGT_0 as P. unfold girgPositionToAngle, angleToGirgPosition. split; [field; lra|]. split; [field; lra|]. split; intros H.
  - split; [apply Rmult_le_reg_r with (2 * PI)|apply Rmult_lt_reg_r with (2 * PI)]; try lra; replace (a / 2 / PI * (2 * PI)) with a by (field; lra); lra.
  - split; [|nra]. apply Rmult_le_pos; lra.
Qed.
Example ex_C54 : 0 <= 3 <= 10 /\ 1 <= radiusToGirgWeight 3 10.
Proof. split; [lra|]. apply (C54_radius_weight 3 10). lra. Qed.

(** ** C55: comparing graphs *)
Local Open Scope Z_scope.
Lemma pair_eq_iff a b : pair_eq a b = true <-> a = b.
Proof.
  destruct a as [a1 a2], b as [b1 b2]. unfold pair_eq. cbn. rewrite andb_true_iff, !Z.eqb_eq. split; [intros [-> ->]; reflexivity|intros E; injection E; auto].
Qed.
(** the order of std::sort on pairs of ints *)
Definition lex_lt (a b : Z * Z) : Prop := fst a < fst b \/ (fst a = fst b /\ snd a < snd b).
Lemma pair_lt_iff a b : pair_lt a b = true <-> lex_lt a b.
Proof. unfold pair_lt, lex_lt. rewrite orb_true_iff, andb_true_iff, !Z.ltb_lt, Z.eqb_eq. reflexivity. Qed.
Lemma lex_irrefl a : ~ lex_lt a a. Proof. unfold lex_lt. lia. Qed.
Lemma lex_trans a b c : lex_lt a b -> lex_lt b c -> lex_lt a c. Proof. unfold lex_lt. lia. Qed.
Lemma lex_total a b : a <> b -> ~ lex_lt a b -> lex_lt b a.
Proof. destruct a as [a1 a2], b as [b1 b2]. unfold lex_lt. cbn. intros N H. destruct (Z.eq_dec a1 b1) as [->|]; [|lia]. destruct (Z.eq_dec a2 b2) as [->|]; [congruence|lia]. Qed.
(** sorted without duplicates *)
Definition sorted_set (g : graph) : Prop := StronglySorted lex_lt g.
Lemma sorted_nodup g : sorted_set g -> NoDup g.
Proof.
  induction g as [|a g IH]; intros H; [constructor|]. apply StronglySorted_inv in H as [H F]. constructor; [|auto]. intros I. rewrite Forall_forall in F. exact (lex_irrefl a (F a I)).
Qed.
Theorem C55_edge_diff_lists : forall g1 g2, sorted_set g1 -> sorted_set g2 ->
  let (x, y) := edge_diff_lists g1 g2 in
  (forall e, In e x <-> In e g1 /\ ~ In e g2) /\ (forall e, In e y <-> In e g2 /\ ~ In e g1) /\ sorted_set x /\ sorted_set y.
Proof.
  unfold sorted_set. induction g1 as [|a r1 IH1].
  - intros g2 _ S2. replace (edge_diff_lists [] g2) with (([], g2) : graph * graph) by (destruct g2; reflexivity). repeat split; try tauto; try constructor; auto; try (intros [[] _]); cbn; tauto.
  - intros g2 S1. assert (S1' := S1). apply StronglySorted_inv in S1' as [SR1 F1]. rewrite Forall_forall in F1. induction g2 as [|b r2 IH2]; intros S2.
    + cbn. repeat split; try tauto; try constructor; auto; intros [[] _].
    + assert (S2' := S2). apply StronglySorted_inv in S2' as [SR2 F2]. rewrite Forall_forall in F2. specialize (IH2 SR2).
      change (edge_diff_lists (a :: r1) (b :: r2)) with (if pair_eq a b then edge_diff_lists r1 r2 else if pair_lt a b then (let (x, y) := edge_diff_lists r1 (b :: r2) in (a :: x, y)) else (let (x, y) := edge_diff_lists (a :: r1) r2 in (x, b :: y))).
      destruct (pair_eq a b) eqn:E.
      * apply pair_eq_iff in E as <-. specialize (IH1 r2 SR1 SR2). destruct (edge_diff_lists r1 r2) as [x y]. destruct IH1 as (X & Y & SX & SY).
        assert (N1 : ~ In a r1) by (intros I; exact (lex_irrefl _ (F1 _ I))). assert (N2 : ~ In a r2) by (intros I; exact (lex_irrefl _ (F2 _ I))).
        split; [|split; [|split; assumption]]; intros e; cbn.
        -- rewrite X. split; [intros [H1 H2]; split; [tauto|]; intros [<-|H]; [now apply N1|tauto]|]. intros [[<-|H1] H2]; tauto.
        -- rewrite Y. split; [intros [H1 H2]; split; [tauto|]; intros [<-|H]; [now apply N2|tauto]|]. intros [[<-|H1] H2]; tauto.
      * assert (NE : a <> b) by (intros Q; apply pair_eq_iff in Q; congruence). destruct (pair_lt a b) eqn:L.
        -- apply pair_lt_iff in L. specialize (IH1 (b :: r2) SR1 S2). destruct (edge_diff_lists r1 (b :: r2)) as [x y]. destruct IH1 as (X & Y & SX & SY).
           assert (NA : ~ In a (b :: r2)) by (intros [->|I]; [congruence|exact (lex_irrefl _ (lex_trans _ _ _ L (F2 _ I)))]).
           split; [|split; [|split; [|assumption]]].
           ++ intros e. cbn [In]. rewrite X. cbn [In] in *. split; [intros [<-|[H1 H2]]; tauto|]. intros [[<-|H1] H2]; tauto.
           ++ intros e. rewrite Y. cbn [In] in *. split; [intros [H1 H2]; split; [tauto|]; intros [<-|H]; tauto|]. tauto.
           ++ constructor; [exact SX|]. apply Forall_forall. intros e I. apply X in I as [I _]. now apply F1.
        -- assert (L' : lex_lt b a) by (apply lex_total; [exact NE|]; intros L'; apply pair_lt_iff in L'; congruence). destruct (edge_diff_lists (a :: r1) r2) as [x y]. destruct IH2 as (X & Y & SX & SY).
           assert (NB : ~ In b (a :: r1)) by (intros [->|I]; [congruence|exact (lex_irrefl _ (lex_trans _ _ _ L' (F1 _ I)))]).
           split; [|split; [|split; [assumption|]]].
           ++ intros e. rewrite X. cbn [In] in *. split; [intros [H1 H2]; split; [tauto|]; intros [<-|H]; tauto|]. tauto.
           ++ intros e. cbn [In]. rewrite Y. cbn [In] in *. split; [intros [<-|[H1 H2]]; tauto|]. intros [[<-|H1] H2]; tauto.
           ++ constructor; [exact SY|]. apply Forall_forall. intros e I. apply Y in I as [I _]. now apply F2.
Qed.
Theorem C55_edge_diff_counts : forall g1 g2, edge_diff g1 g2 0 0 = (Z.of_nat (length (fst (edge_diff_lists g1 g2))), Z.of_nat (length (snd (edge_diff_lists g1 g2)))).
Proof.
  assert (G : forall g1 g2 c1 c2, edge_diff g1 g2 c1 c2 = (c1 + Z.of_nat (length (fst (edge_diff_lists g1 g2))), c2 + Z.of_nat (length (snd (edge_diff_lists g1 g2))))).
  { induction g1 as [|a r1 IH1].
    - intros g2 c1 c2. replace (edge_diff_lists [] g2) with (([], g2) : graph * graph) by (destruct g2; reflexivity). destruct g2; cbn; f_equal; lia.
    - induction g2 as [|b r2 IH2]; intros c1 c2; [cbn; f_equal; lia|].
      change (edge_diff_lists (a :: r1) (b :: r2)) with (if pair_eq a b then edge_diff_lists r1 r2 else if pair_lt a b then (let (x, y) := edge_diff_lists r1 (b :: r2) in (a :: x, y)) else (let (x, y) := edge_diff_lists (a :: r1) r2 in (x, b :: y))).
      change (edge_diff (a :: r1) (b :: r2) c1 c2) with (if pair_eq a b then edge_diff r1 r2 c1 c2 else if pair_lt a b then edge_diff r1 (b :: r2) (c1 + 1) c2 else edge_diff (a :: r1) r2 c1 (c2 + 1)).
      destruct (pair_eq a b); [apply IH1|]. destruct (pair_lt a b).
      + rewrite IH1. destruct (edge_diff_lists r1 (b :: r2)). cbn [fst snd length]. f_equal; lia.
      + rewrite IH2. destruct (edge_diff_lists (a :: r1) r2). cbn [fst snd length]. f_equal; lia. }
  intros g1 g2. now rewrite G.
Qed.
(** the comparison the tools perform: after unifyEdges and sorting, the counters are 0 exactly for subgraphs (edges taken undirected) *)
Definition joined (g : graph) (u v : Z) : Prop := In (u, v) g \/ In (v, u) g.
Lemma in_unify g u v : u <= v -> (In (u, v) (unifyEdges g) <-> joined g u v).
Proof.
  intros L. unfold unifyEdges, joined. rewrite in_map_iff. split.
  - intros ([a b] & E & I). cbn in E. destruct (b <? a) eqn:C; injection E as <- <-; auto.
  - intros [I|I].
    + exists (u, v). cbn. assert (v <? u = false) as -> by (apply Z.ltb_ge; lia). auto.
    + exists (v, u). cbn. destruct (u <? v) eqn:C; [auto|]. apply Z.ltb_ge in C. assert (u = v) by lia. subst. auto.
Qed.
Lemma unify_ordered g e : In e (unifyEdges g) -> fst e <= snd e.
Proof. unfold unifyEdges. rewrite in_map_iff. intros ([a b] & <- & _). cbn. destruct (b <? a) eqn:C; cbn; [apply Z.ltb_lt in C|apply Z.ltb_ge in C]; lia. Qed.
Theorem C55_subgraph_test : forall g1 g2 s1 s2, Permutation s1 (unifyEdges g1) -> Permutation s2 (unifyEdges g2) -> sorted_set s1 -> sorted_set s2 ->
  (fst (edge_diff s1 s2 0 0) = 0 <-> forall u v, joined g1 u v -> joined g2 u v) /\
  (snd (edge_diff s1 s2 0 0) = 0 <-> forall u v, joined g2 u v -> joined g1 u v).
Proof.
  intros g1 g2 s1 s2 P1 P2 S1 S2. rewrite C55_edge_diff_counts. pose proof (C55_edge_diff_lists s1 s2 S1 S2) as D. destruct (edge_diff_lists s1 s2) as [x y]. destruct D as (X & Y & _). cbn [fst snd].
  assert (G : forall g g' s s' l, Permutation s (unifyEdges g) -> Permutation s' (unifyEdges g') -> (forall e, In e l <-> In e s /\ ~ In e s') -> (Z.of_nat (length l) = 0 <-> forall u v, joined g u v -> joined g' u v)).
  { intros g g' s s' l P P' L. split.
    - intros Z0. assert (l = []) as -> by (destruct l; [reflexivity|cbn in Z0; lia]).
      assert (H : forall e, In e s -> In e s').
      { intros e I. assert (DE : forall a b : Z * Z, {a = b} + {a <> b}) by (intros a b; decide equality; apply Z.eq_dec). destruct (in_dec DE e s') as [J|J]; [exact J|]. destruct (proj2 (L e) (conj I J)). }
      assert (H' : forall u v, u <= v -> joined g u v -> joined g' u v).
      { intros u v LE J. apply (in_unify g u v LE) in J. apply (in_unify g' u v LE). apply (Permutation_in _ P'). apply H. apply (Permutation_in _ (Permutation_sym P)). exact J. }
      intros u v J. destruct (Z.le_ge_cases u v) as [LE|LE]; [now apply H'|]. assert (J' : joined g v u) by (unfold joined in *; tauto). apply (H' v u LE) in J'. unfold joined in *. tauto.
    - intros H. destruct l as [|[u v] l]; [reflexivity|exfalso]. destruct (proj1 (L (u, v)) (or_introl eq_refl)) as [I N]. apply N. apply (Permutation_in _ (Permutation_sym P')).
      apply (Permutation_in _ P) in I. pose proof (unify_ordered _ _ I) as O. cbn in O. apply (in_unify g' u v O). apply H. now apply (in_unify g u v O). }
  split; [apply (G g1 g2 s1 s2 x)|apply (G g2 g1 s2 s1 y)]; auto.
Qed.
(** for simple graphs the counters are the sizes of the two differences: each missing undirected edge counts once *)
Theorem C55_reverse_edges : forall g u v, In (u, v) (createReverseEdges g) <-> joined g u v.
Proof.
  intros g u v. unfold createReverseEdges, joined. rewrite in_app_iff, in_map_iff. split; (intros [I|I]; [now left|right]).
  - destruct I as ([a b] & E & I). injection E as <- <-. exact I.
  - exists (v, u). auto.
Qed.
Example ex_C55 : sorted_set [(0, 1); (0, 3); (2, 3)] /\ edge_diff [(0, 1); (0, 3); (2, 3)] [(0, 3); (1, 2)] 0 0 = (2, 1).
Proof. split; [repeat constructor; unfold lex_lt; cbn; lia|reflexivity]. Qed.

(** *** CounterPerThread *)
Local Open Scope N_scope.
Definition amount (adds : list (nat * N)) : N := fold_right (fun ix s => snd ix + s) 0 adds.
Lemma w64_mod x : w64 x = x mod 2 ^ 64.
Proof. unfold w64. apply N.land_ones. Qed.
(** thread t is between two calls or inside one *)
Definition cpos (s : cstate) (t : nat) (code : list cact) (tot : N) : Prop :=
  exists v, nth_error (slots s) t = Some v /\
  ((exists rest, Forall (fun ix => fst ix = t) rest /\ code = thread_code t rest /\ (v + amount rest) mod 2 ^ 64 = tot mod 2 ^ 64) \/
   (exists x rest, Forall (fun ix => fst ix = t) rest /\ code = CWrite t t x :: thread_code t rest /\ regs s t = v /\ (v + (x + amount rest)) mod 2 ^ 64 = tot mod 2 ^ 64)).
Lemma counter_inv ls tr : interleaving ls tr -> forall s tots, length tots = length ls ->
  (forall t, (t < length ls)%nat -> cpos s t (nth t ls []) (nth t tots 0)) ->
  exists s', crun s tr = Some s' /\ length (slots s') = length (slots s) /\
    (forall t, (t < length ls)%nat -> exists v, nth_error (slots s') t = Some v /\ v mod 2 ^ 64 = nth t tots 0 mod 2 ^ 64) /\
    (forall t, (length ls <= t)%nat -> nth_error (slots s') t = nth_error (slots s) t).
Proof.
  induction 1 as [ls F|ls1 a l ls2 tr H IH]; intros s tots HL HP.
  - exists s. split; [reflexivity|]. split; [reflexivity|]. split; [|reflexivity]. intros t Ht. destruct (HP t Ht) as (v & Hv & C). exists v. split; [exact Hv|].
    assert (E : nth t ls [] = []) by (rewrite Forall_forall in F; apply F, nth_In, Ht). rewrite E in C. destruct C as [(rest & _ & E1 & E2)|(x & rest & _ & E1 & _)]; [|discriminate].
    destruct rest; [|discriminate]. cbn [amount fold_right] in E2. now rewrite N.add_0_r in E2.
  - set (t0 := length ls1). assert (H0 : (t0 < length (ls1 ++ (a :: l) :: ls2))%nat) by (rewrite app_length; cbn; unfold t0; lia).
    assert (N0 : nth t0 (ls1 ++ (a :: l) :: ls2) [] = a :: l) by (unfold t0; now rewrite app_nth2, Nat.sub_diag by lia).
    assert (N0' : nth t0 (ls1 ++ l :: ls2) [] = l) by (unfold t0; now rewrite app_nth2, Nat.sub_diag by lia).
    assert (NO : forall t, t <> t0 -> nth t (ls1 ++ l :: ls2) [] = nth t (ls1 ++ (a :: l) :: ls2) []).
    { intros t Ht. unfold t0 in Ht. destruct (Nat.lt_ge_cases t (length ls1)); [now rewrite !app_nth1 by lia|]. rewrite !app_nth2 by lia. destruct (t - length ls1)%nat as [|k] eqn:E; [lia|reflexivity]. }
    assert (LE : length (ls1 ++ l :: ls2) = length (ls1 ++ (a :: l) :: ls2)) by (rewrite !app_length; reflexivity).
    assert (STEP : exists s1, cstep s a = Some s1 /\ length (slots s1) = length (slots s) /\ cpos s1 t0 l (nth t0 tots 0) /\
      (forall t, t <> t0 -> nth_error (slots s1) t = nth_error (slots s) t /\ regs s1 t = regs s t)).
    { destruct (HP t0 H0) as (v & Hv & C). rewrite N0 in C. destruct C as [(rest & FR & E1 & E2)|(x & rest & FR & E1 & E2 & E3)].
      - destruct rest as [|[i x] rest]; [discriminate|]. inversion FR as [|? ? Fi FR']; subst. cbn [fst] in Fi. subst i. cbn [thread_code flat_map app fst snd] in E1. injection E1 as -> ->. cbn [cstep]. rewrite Hv. cbn [obind].
        eexists. split; [reflexivity|]. split; [reflexivity|]. split.
        + exists v. split; [exact Hv|]. right. exists x, rest. split; [exact FR'|]. split; [reflexivity|]. split; [cbn [regs]; now rewrite Nat.eqb_refl|exact E2].
        + intros t Ht. cbn [slots regs]. split; [reflexivity|]. now rewrite (proj2 (Nat.eqb_neq t t0) Ht).
      - injection E1 as -> ->. cbn [cstep]. destruct (upd_Some (slots s) t0 (w64 (regs s t0 + x))) as (l' & U & UL & UN & UO); [apply nth_error_Some; congruence|]. rewrite U. cbn [obind].
        eexists. split; [reflexivity|]. split; [exact UL|]. split.
        + exists (w64 (regs s t0 + x)). split; [exact UN|]. left. exists rest. split; [exact FR|]. split; [reflexivity|]. rewrite <- E3, E2, w64_mod, N.add_mod_idemp_l by discriminate. f_equal. lia.
        + intros t Ht. split; [now apply UO|reflexivity]. }
    destruct STEP as (s1 & ES & SL & CP & OT). destruct (IH s1 tots) as (s' & R & L' & V' & O').
    { now rewrite LE. }
    { intros t Ht. destruct (Nat.eq_dec t t0) as [->|Ne]; [rewrite N0'; exact CP|]. rewrite NO by exact Ne. destruct (HP t ltac:(rewrite <- LE; exact Ht)) as (v & Hv & C). destruct (OT t Ne) as [O1 O2].
      exists v. rewrite O1, O2. split; [exact Hv|exact C]. }
    exists s'. cbn [crun]. rewrite ES. cbn [obind]. split; [exact R|]. split; [congruence|]. split.
    + intros t Ht. apply V'. now rewrite LE.
    + intros t Ht. rewrite O' by (rewrite LE; exact Ht). apply OT. lia.
Qed.
Lemma total_mod l : forall v, fold_left (fun v x => w64 (v + x)) l v mod 2 ^ 64 = (v + fold_right N.add 0 l) mod 2 ^ 64.
Proof.
  induction l as [|x l IH]; intros v; cbn [fold_left fold_right]; [now rewrite N.add_0_r|]. rewrite IH, w64_mod, N.add_mod_idemp_l by discriminate. f_equal. lia.
Qed.
Lemma total_range l : forall v, v < 2 ^ 64 -> fold_left (fun v x => w64 (v + x)) l v < 2 ^ 64.
Proof. induction l as [|x l IH]; intros v H; cbn [fold_left]; [exact H|]. apply IH. rewrite w64_mod. now apply N.mod_lt. Qed.
Lemma sum_mod_ext l1 l2 : length l1 = length l2 -> (forall i, (i < length l1)%nat -> nth i l1 0 mod 2 ^ 64 = nth i l2 0 mod 2 ^ 64) -> fold_right N.add 0 l1 mod 2 ^ 64 = fold_right N.add 0 l2 mod 2 ^ 64.
Proof.
  revert l2. induction l1 as [|a l1 IH]; intros [|b l2] L H; try discriminate; [reflexivity|]. cbn [fold_right]. rewrite (N.add_mod a), (N.add_mod b) by discriminate.
  rewrite (IH l2); [|now injection L|intros i Hi; exact (H (S i) ltac:(cbn; lia))]. pose proof (H 0%nat ltac:(cbn; lia)) as H0. cbn [nth] in H0. now rewrite H0.
Qed.
Lemma sum_zeros k : fold_right N.add 0 (repeat 0 k) = 0.
Proof. induction k; [reflexivity|exact IHk]. Qed.
Lemma sum_app_zeros l k : fold_right N.add 0 (l ++ repeat 0 k) = fold_right N.add 0 l.
Proof. induction l as [|a l IHl]; cbn [fold_right app]; [apply sum_zeros|now rewrite IHl]. Qed.
(** each thread adds to its own counter; no update is lost, whatever the schedule *)
Theorem C55_counter_total : forall size threads, (length threads <= size)%nat -> (forall t, Forall (fun ix => fst ix = t) (nth t threads [])) ->
  (exists o, counter_outcome size threads o) /\
  forall o, counter_outcome size threads o -> o = Some ((fold_right N.add 0 (map amount threads)) mod 2 ^ 64).
Proof.
  intros size threads HS HT. split.
  - eexists. eexists. split; [apply interleaving_concat|reflexivity].
  - intros o (tr & IL & ->). set (ls := map _ _) in IL.
    assert (LL : length ls = length threads) by (unfold ls; rewrite map_length, combine_length, seq_length; lia).
    destruct (counter_inv ls tr IL {| slots := repeat 0 size; regs := fun _ => 0 |} (map amount threads)) as (s' & R & L & V & O).
    + now rewrite map_length.
    + intros t Ht. exists 0. split; [apply nth_error_repeat; lia|]. left. exists (nth t threads []). split; [apply HT|]. split.
      * unfold ls. rewrite (map_nth (fun tc => thread_code (fst tc) (snd tc)) _ (0%nat, [])), combine_nth by apply seq_length. cbn [fst snd]. rewrite seq_nth by lia. reflexivity.
      * rewrite N.add_0_l. f_equal. symmetry. exact (map_nth amount threads [] t).
    + rewrite R. cbn [obind]. f_equal. unfold total. rewrite <- (N.mod_small (fold_left _ _ 0) (2 ^ 64)) by now apply total_range. rewrite total_mod, N.add_0_l.
      transitivity (fold_right N.add 0 (map amount threads ++ repeat 0 (size - length threads)) mod 2 ^ 64).
      * cbn [slots] in L. rewrite repeat_length in L. apply sum_mod_ext; [rewrite app_length, map_length, repeat_length; lia|]. intros i Hi. rewrite LL in V, O. destruct (Nat.lt_ge_cases i (length threads)) as [C|C].
        -- destruct (V i C) as (v & E & M). rewrite (nth_error_nth _ _ _ E), app_nth1 by (rewrite map_length; exact C). exact M.
        -- specialize (O i C). cbn [slots] in O. rewrite nth_error_repeat in O by lia. rewrite (nth_error_nth _ _ _ O), app_nth2 by (rewrite map_length; exact C). now rewrite nth_repeat.
      * f_equal. apply sum_app_zeros.
Qed.
(** two threads using the same slot may lose updates *)
Theorem C55_shared_slot_refuted : counter_outcome 2 [[(0%nat, 1)]; [(0%nat, 1)]] (Some 1) /\ counter_outcome 2 [[(0%nat, 1)]; [(0%nat, 1)]] (Some 2).
Proof.
  split.
  - exists [CRead 0 0; CRead 1 0; CWrite 0 0 1; CWrite 1 0 1]. split; [|reflexivity]. cbn.
    apply (il_step [] (CRead 0 0) [CWrite 0 0 1] [[CRead 1 0; CWrite 1 0 1]]). apply (il_step [[CWrite 0 0 1]] (CRead 1 0) [CWrite 1 0 1] []). apply (il_step [] (CWrite 0 0 1) [] [[CWrite 1 0 1]]). apply (il_step [[]] (CWrite 1 0 1) [] []).
    apply il_done. repeat constructor.
  - exists [CRead 0 0; CWrite 0 0 1; CRead 1 0; CWrite 1 0 1]. split; [|reflexivity]. cbn. apply (interleaving_concat [[CRead 0 0; CWrite 0 0 1]; [CRead 1 0; CWrite 1 0 1]]).
Qed.

(** ** C56 *)
Local Open Scope nat_scope.
(** a relabelling: p is injective on the n nodes *)
Definition relabels (n : nat) (p : nat -> nat) : Prop := (forall u, u < n -> p u < n) /\ (forall u v, u < n -> v < n -> p u = p v -> u = v).
Lemma sumR_perm l l' : Permutation l l' -> sumR l = sumR l'.
Proof. unfold sumR. induction 1; cbn [fold_right] in *; lra. Qed.
Theorem C56_relabelling : forall D ws ps ws' ps' p, length ws' = length ws -> relabels (length ws) p ->
  (forall u, u < length ws -> nth (p u) ws' 0%R = nth u ws 0%R /\ nth (p u) ps' [] = nth u ps []) ->
  forall u v, u < length ws -> v < length ws -> (threshold_edge D ws ps u v <-> threshold_edge D ws' ps' (p u) (p v)).
Proof.
  intros D ws ps ws' ps' p HL [P1 P2] HE u v Hu Hv. assert (S : sumR ws' = sumR ws).
  { apply sumR_perm. apply (Permutation_nth ws' ws 0%R). cbv zeta. split; [now symmetry|]. exists p. rewrite HL. split; [exact P1|]. split; [exact P2|]. intros x Hx. symmetry. now apply HE. }
  unfold threshold_edge. destruct (HE u Hu) as [-> ->]. destruct (HE v Hv) as [-> ->]. now rewrite S.
Qed.
(** moving all points: coordinate i is shifted by t i, or first mirrored, modulo 1 *)
Definition moved (s t : nat -> R) (x x' : list R) : Prop := length x' = length x /\ forall i, i < length x -> exists k : Z, (nth i x' 0 = s i * nth i x 0 + t i + IZR k)%R.
Lemma circle_moved s t x y x' y' k l d : (s = 1 \/ s = -1)%R -> (x' = s * x + t + IZR k)%R -> (y' = s * y + t + IZR l)%R -> is_circle_dist x y d -> is_circle_dist x' y' d.
Proof.
  intros S -> -> [A (m & B)]. destruct S as [->| ->].
  - split.
    + intros j. specialize (A (k - l + j)%Z). rewrite plus_IZR, minus_IZR in A. eapply Rle_trans; [exact A|]. right. f_equal. ring.
    + exists (m - k + l)%Z. rewrite B. f_equal. rewrite plus_IZR, minus_IZR. ring.
  - split.
    + intros j. specialize (A (- (k - l + j))%Z). rewrite opp_IZR, plus_IZR, minus_IZR in A. eapply Rle_trans; [exact A|]. rewrite <- Rabs_Ropp. right. f_equal. ring.
    + exists (- (m + k - l))%Z. rewrite B, <- Rabs_Ropp. f_equal. rewrite opp_IZR, minus_IZR, plus_IZR. ring.
Qed.
Lemma torus_moved s t x y x' y' d : (forall i, s i = 1 \/ s i = -1)%R -> moved s t x x' -> moved s t y y' -> is_torus_dist x y d -> is_torus_dist x' y' d.
Proof.
  intros S [Lx Mx] [Ly My] (LE & D0 & A & B). split; [congruence|]. split; [exact D0|]. split.
  - intros i Hi. destruct (A i ltac:(lia)) as (di & C & Ld). exists di. split; [|exact Ld]. destruct (Mx i ltac:(lia)) as (k & Ek). destruct (My i ltac:(lia)) as (l & El). eapply circle_moved; eauto.
  - destruct B as [B|(i & Hi & B)]; [now left|right]. exists i. split; [lia|]. destruct (Mx i Hi) as (k & Ek). destruct (My i ltac:(lia)) as (l & El). eapply circle_moved; eauto.
Qed.
Lemma moved_back s t x x' : (forall i, s i = 1 \/ s i = -1)%R -> moved s t x x' -> moved s (fun i => - s i * t i)%R x' x.
Proof.
  intros S [L M]. split; [congruence|]. intros i Hi. destruct (M i ltac:(lia)) as (k & E). destruct (S i) as [Si|Si]; rewrite Si in *.
  - exists (- k)%Z. rewrite E, opp_IZR. ring.
  - exists k. rewrite E. ring.
Qed.
Theorem C56_motions : forall D ws ps ps' s t, (forall i, s i = 1 \/ s i = -1)%R -> (forall u, u < length ws -> moved s t (nth u ps []) (nth u ps' [])) ->
  forall u v, u < length ws -> v < length ws -> (threshold_edge D ws ps u v <-> threshold_edge D ws ps' u v).
Proof.
  intros D ws ps ps' s t S M u v Hu Hv. unfold threshold_edge. split; intros (d & T & C); exists d; (split; [|exact C]).
  - eapply torus_moved; [exact S|now apply M|now apply M|exact T].
  - eapply torus_moved; [exact S|apply moved_back; [exact S|now apply M]|apply moved_back; [exact S|now apply M]|exact T].
Qed.
(** permuting the coordinates of all points *)
Definition permuted (D : nat) (f : nat -> nat) (x x' : list R) : Prop := length x = D /\ length x' = D /\ forall i, i < D -> nth i x' 0%R = nth (f i) x 0%R.
Definition bijection (D : nat) (f g : nat -> nat) : Prop := forall i, i < D -> f i < D /\ g i < D /\ f (g i) = i /\ g (f i) = i.
Lemma torus_permuted D f g x y x' y' d : bijection D f g -> permuted D f x x' -> permuted D f y y' -> is_torus_dist x y d -> is_torus_dist x' y' d.
Proof.
  intros BJ (Lx & Lx' & Mx) (Ly & Ly' & My) (LE & D0 & A & B). split; [congruence|]. split; [exact D0|]. split.
  - intros i Hi. rewrite Lx' in Hi. destruct (BJ i Hi) as (F & _). destruct (A (f i) ltac:(lia)) as (di & C & Ld). exists di. rewrite Mx, My by exact Hi. auto.
  - destruct B as [B|(i & Hi & B)]; [now left|right]. rewrite Lx in Hi. destruct (BJ i Hi) as (_ & G & FG & _). exists (g i). split; [lia|]. now rewrite Mx, My, FG by exact G.
Qed.
Theorem C56_coordinate_permutation : forall D ws ps ps' f g, bijection (N.to_nat D) f g -> (forall u, u < length ws -> permuted (N.to_nat D) f (nth u ps []) (nth u ps' [])) ->
  forall u v, u < length ws -> v < length ws -> (threshold_edge D ws ps u v <-> threshold_edge D ws ps' u v).
Proof.
  intros D ws ps ps' f g BJ M u v Hu Hv. assert (BJ' : bijection (N.to_nat D) g f) by (intros i Hi; destruct (BJ i Hi) as (? & ? & ? & ?); auto).
  assert (MB : forall x x', permuted (N.to_nat D) f x x' -> permuted (N.to_nat D) g x' x).
  { intros x x' (L & L' & M'). split; [exact L'|]. split; [exact L|]. intros i Hi. destruct (BJ i Hi) as (_ & G & FG & _). now rewrite M', FG by exact G. }
  unfold threshold_edge. split; intros (d & T & C); exists d; (split; [|exact C]).
  - eapply torus_permuted; [exact BJ|now apply M|now apply M|exact T].
  - eapply torus_permuted; [exact BJ'|apply MB; now apply M|apply MB; now apply M|exact T].
Qed.
(** so the generated threshold graphs of two inputs related in one of these ways are the same up to the relabelling p (the identity for the motions) *)
Theorem C56_generated : forall cfg cfg' rg rg' D ws ps ws' ps' p seed seed' omp_max omp_max' team team',
  girg_input D ws ps seed omp_max team -> girg_input D ws' ps' seed' omp_max' team' -> good_rng rg -> good_rng rg' ->
  length ws' = length ws -> relabels (length ws) p ->
  (forall u v, u < length ws -> v < length ws -> (threshold_edge D ws ps u v <-> threshold_edge D ws' ps' (p u) (p v))) ->
  forall o o', girg_outcome ideal_env cfg rg ws ps AInf seed omp_max team o -> girg_outcome ideal_env cfg' rg' ws' ps' AInf seed' omp_max' team' o' ->
  exists edges edges', o = Some edges /\ o' = Some edges' /\
    forall u v, u < length ws -> v < length ws -> u <> v -> (In (u, v) edges \/ In (v, u) edges <-> In (p u, p v) edges' \/ In (p v, p u) edges').
Proof.
  intros cfg cfg' rg rg' D ws ps ws' ps' p seed seed' om om' team team' HI HI' GG GG' HL [P1 P2] E o o' Ho Ho'.
  destruct (C01_threshold_graph_is_exact cfg rg D ws ps seed om team HI GG) as [_ A]. destruct (A o Ho) as (edges & -> & AE).
  destruct (C01_threshold_graph_is_exact cfg' rg' D ws' ps' seed' om' team' HI' GG') as [_ A']. destruct (A' o' Ho') as (edges' & -> & AE').
  exists edges, edges'. split; [reflexivity|]. split; [reflexivity|]. intros u v Hu Hv Ne. rewrite AE, E by assumption. rewrite AE'; [reflexivity| | |]; rewrite ?HL; auto.
Qed.
Example ex_C56 : relabels 3 (fun u => (u + 1) mod 3) /\ moved (fun _ => 1%R) (fun _ => (3 / 4)%R) [(1 / 2)%R] [(1 / 4)%R].
Proof.
  split.
  - split; [intros u _; now apply Nat.mod_upper_bound|]. intros u v Hu Hv. destruct u as [|[|[|u]]], v as [|[|[|v]]]; cbn; lia.
  - split; [reflexivity|]. intros [|i] Hi; [|cbn in Hi; lia]. exists (-1)%Z. cbn. lra.
Qed.

Print Assumptions C54_radius_weight.
Print Assumptions C54_weight_radius.
Print Assumptions C54_angle_position.
Print Assumptions C55_edge_diff_lists.
Print Assumptions C55_edge_diff_counts.
Print Assumptions C55_subgraph_test.
Print Assumptions C55_reverse_edges.
Print Assumptions C55_counter_total.
Print Assumptions C55_shared_slot_refuted.
Print Assumptions C56_relabelling.
Print Assumptions C56_motions.
Print Assumptions C56_coordinate_permutation.
Print Assumptions C56_generated.
