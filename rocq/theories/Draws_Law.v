(** How many random numbers girgs::generateEdges draws for finite alpha: the expected value for given positions. *)
From Coq Require Import Arith NArith ZArith List Bool Reals Lra Lia Permutation.
From Coquelicot Require Import Coquelicot.
From Verif Require Import Base Sched Bits_Model Coord_Model Coord_Proofs Coord_Geo IntSort_Model IntSort_Proofs Cover Tree_Model Tree_Proofs Tree_Build Tree_Plan Tree_Run Girg_Model Girg_Proofs Girg_Num
  Prop_Girg Prob_Spec Prob Prob_Events Prob_Girg Prob_Law.
Import ListNotations.
Local Open Scope R_scope.

(** an engine with a counter of the random numbers it has handed out *)
Definition counted (rg : rng) : rng :=
  {| G := (G rg * nat)%type; rseed := fun z => (rseed rg z, 0%nat);
     u01 := fun g => (fst (u01 rg (fst g)), (snd (u01 rg (fst g)), S (snd g)));
     uni0 := fun p g => (fst (uni0 rg p (fst g)), (snd (uni0 rg p (fst g)), S (snd g)));
     geo := fun p g => (fst (geo rg p (fst g)), (snd (geo rg p (fst g)), S (snd g))) |}.
Lemma counted_good rg : good_rng rg -> good_rng (counted rg).
Proof. intros [H1 H2 H3]. constructor; cbn [u01 uni0 geo counted fst]; auto. Qed.

(** ** tapes *)
Lemma expects_plus c f v : expects f v -> expects (fun t => c + f t) (c + v).
Proof.
  induction 1 as [f v H|f g v H1 IH HI]; [apply ex_value; intros t; now rewrite H|].
  apply ex_draw with (g := fun u => c + g u); [exact IH|]. pose proof (is_RInt_plus (V := R_NormedModule) _ _ _ _ _ _ (RInt_const01 c) HI) as Q. exact Q.
Qed.
Lemma expects_n_plus n : forall c f v, expects_n n f v -> expects_n n (fun t => c + f t) (c + v).
Proof.
  induction n as [|n IH]; intros c f v; cbn [expects_n]; [intros ->; reflexivity|]. intros (g & H1 & H2). exists (fun t => c + g t). split; [|now apply expects_plus].
  intros t. now apply IH.
Qed.

Lemma sumR_app l1 l2 : sumR (l1 ++ l2) = sumR l1 + sumR l2.
Proof. unfold sumR. induction l1 as [|x l1 IH]; cbn [app fold_right]; [ring|]. rewrite IH. ring. Qed.
(** ** the skipping loop: one draw for the first skip, two for every candidate *)
Definition KN {X} (h : nat -> tape -> R) (o : option (X * (tape * nat))) : R := match o with Some (_, (t, k)) => h k t | None => 0 end.
Lemma sumf_scale' c f m : sumf (fun k => c * f k) m = c * sumf f m.
Proof. unfold sumf. induction (seq 0 m) as [|a l IHl]; cbn [map fold_right]; [lra|]. rewrite IHl. ring. Qed.
Lemma sumf_ext' f g m : (forall k, (k < m)%nat -> f k = g k) -> sumf f m = sumf g m.
Proof. intros H. unfold sumf. f_equal. apply map_ext_in. intros k Hk. apply in_seq in Hk. apply H. lia. Qed.
Lemma w64_id' x : (x < 2 ^ 64)%N -> w64 x = x.
Proof. intros H. unfold w64. rewrite N.land_ones. now apply N.mod_small. Qed.
Section Skip.
  Variables (p : R) (num : nat).
  Variable X : Type.
  Variable loop : nat -> N -> tape * nat -> option (X * (tape * nat)).
  Hypotheses (Hp : 0 < p < 1) (Hnum : (N.of_nat num + 1 < 2 ^ 62)%N).
  Hypothesis loop_end : forall fuel r t, (N.of_nat num <= r)%N -> exists x, loop fuel r t = Some (x, t).
  Hypothesis loop_step : forall h fuel q t k, (q < num)%nat -> KN h (loop (S fuel) (N.of_nat q) (t, k)) =
    KN h (loop fuel (w64 (N.of_nat q + w64 (1 + geo_of p (val (t 1%nat)))))%N (ttail (ttail t), S (S k))).
  Lemma tele_count : forall m, sumf (fun k => p * (1 - p) ^ k * (2 + 2 * p * (INR m - INR k - 1))) m = 2 * p * INR m.
  Proof.
    induction m as [|m IH]; [unfold sumf; cbn; ring|]. rewrite sumf_shift.
    rewrite (sumf_ext' _ (fun k => (1 - p) * (p * (1 - p) ^ k * (2 + 2 * p * (INR m - INR k - 1))))) by (intros k _; rewrite !S_INR; cbn [pow]; ring).
    rewrite sumf_scale', IH, S_INR. cbn [pow INR]. ring.
  Qed.
  Lemma skip_count : forall d r fuel v h k0, (num - r <= d)%nat -> (r <= num)%nat -> (num <= r + fuel)%nat -> (forall k, expects (h k) (v + INR k)) ->
    expects (fun t => KN h (loop fuel (w64 (N.of_nat r + geo_of p (val (t 0%nat)))) (ttail t, S k0))) (v + INR k0 + 1 + 2 * p * INR (num - r)).
  Proof.
    assert (K1 : (2 ^ 62 = 4611686018427387904)%N) by reflexivity. assert (K2 : (2 ^ 63 = 9223372036854775808)%N) by reflexivity. assert (K3 : (2 ^ 64 = 18446744073709551616)%N) by reflexivity.
    assert (GL : forall u, (geo_of p u < 2 ^ 63)%N) by (intros u; unfold geo_of; lia).
    induction d as [d IH] using lt_wf_ind. intros r fuel v h k0 Hd Hr Hf Hh. set (m := (num - r)%nat).
    set (V := fun k : N => (v + INR k0 + 1) + if (k <? N.of_nat m)%N then 2 + 2 * p * (INR m - INR (N.to_nat k) - 1) else 0).
    apply ex_draw with (g := fun u => V (geo_of p u)).
    - intros u. cbn [tcons]. assert (G := GL (val u)). set (k := geo_of p (val u)) in *. rewrite (w64_id' (N.of_nat r + k)) by lia. unfold V. destruct (N.ltb_spec k (N.of_nat m)) as [L|L].
      + set (q := (r + N.to_nat k)%nat) in *. replace (N.of_nat r + k)%N with (N.of_nat q) by lia. destruct fuel as [|f]; [lia|].
        apply expects_ext with (fun t => KN h (loop f (w64 (N.of_nat q + w64 (1 + geo_of p (val (t 1%nat)))))%N (ttail (ttail t), S (S (S k0))))).
        { intros t. change (ttail (tcons u t)) with t. now rewrite loop_step by lia. }
        apply ex_draw with (g := fun _ => v + INR k0 + 1 + (2 + 2 * p * (INR m - INR (N.to_nat k) - 1))); [|apply RInt_const01]. intros u'. cbn [tcons].
        apply expects_ext with (fun t => KN h (loop f (w64 (N.of_nat (S q) + geo_of p (val (t 0%nat)))) (ttail t, S (S (S k0))))).
        { intros t. assert (G' := GL (val (t 0%nat))). rewrite (w64_id' (1 + geo_of p (val (t 0%nat)))) by lia.
          replace (N.of_nat q + (1 + geo_of p (val (t 0%nat))))%N with (N.of_nat (S q) + geo_of p (val (t 0%nat)))%N by lia. reflexivity. }
        replace (v + INR k0 + 1 + (2 + 2 * p * (INR m - INR (N.to_nat k) - 1))) with (v + INR (S (S k0)) + 1 + 2 * p * INR (num - S q)).
        * apply (IH (num - S q)%nat); [lia|lia|lia|lia|exact Hh].
        * rewrite !S_INR. replace (num - S q)%nat with (m - N.to_nat k - 1)%nat by (unfold q, m; lia). rewrite !minus_INR by lia. cbn [INR]. ring.
      + apply expects_ext with (h (S k0)).
        { intros t. destruct (loop_end fuel (N.of_nat r + k)%N (ttail (tcons u t), S k0)) as [x ->]; [unfold m in L; lia|]. reflexivity. }
        replace (v + INR k0 + 1 + 0) with (v + INR (S k0)) by (rewrite S_INR; ring). apply Hh.
    - replace (v + INR k0 + 1 + 2 * p * INR m) with (sumf (fun k => p * (1 - p) ^ k * V (N.of_nat k)) m + (1 - p) ^ m * V (N.of_nat m)).
      + apply RInt_geo; [exact Hp|unfold m; lia|]. intros k Hk. unfold V. destruct (N.ltb_spec k (N.of_nat m)); [lia|]. destruct (N.ltb_spec (N.of_nat m) (N.of_nat m)); [lia|reflexivity].
      + set (C := v + INR k0 + 1) in *. unfold V at 2. rewrite N.ltb_irrefl. fold C.
        rewrite (sumf_ext' _ (fun k => C * (p * (1 - p) ^ k) + p * (1 - p) ^ k * (2 + 2 * p * (INR m - INR k - 1)))).
        2:{ intros k Hk. unfold V. fold C. rewrite Nat2N.id. destruct (N.ltb_spec (N.of_nat k) (N.of_nat m)); [ring|lia]. }
        assert (SP : forall f g j, sumf (fun k => f k + g k) j = sumf f j + sumf g j). { intros f g j. unfold sumf. induction (seq 0 j) as [|a l IHl]; cbn [map fold_right]; [ring|]. rewrite IHl. ring. }
        rewrite SP, sumf_scale', tele_count.
        assert (GS : forall j, sumf (fun k => p * (1 - p) ^ k) j + (1 - p) ^ j = 1). { induction j as [|j IHj]; [unfold sumf; cbn; ring|]. rewrite sumf_S. cbn [pow]. lra. }
        specialize (GS m). replace (sumf (fun k => p * (1 - p) ^ k) m) with (1 - (1 - p) ^ m) by lra. ring.
  Qed.
End Skip.

(** the draws do not depend on the seeding *)
Section Irrelevant.
  Variables (E : fenv) (cfg : config) (D : N) (t : tree) (alpha : alphaT) (s1 s2 : Z -> tape).
  Notation r1 := (counted (tape_rng s1)).
  Notation r2 := (counted (tape_rng s2)).
  Lemma cdecideI_irr W ps : forall g, decideI E D W alpha r1 ps g = decideI E D W alpha r2 ps g.
  Proof. induction ps as [|[a b] ps IH]; intros g; [reflexivity|]. cbn [decideI]. destruct alpha; cbn [u01 counted tape_rng fst snd]; now rewrite IH. Qed.
  Lemma cskip_irr W p ra rb fuel : forall r g, skip_loop E D W alpha r1 p ra rb fuel r g = skip_loop E D W alpha r2 p ra rb fuel r g.
  Proof.
    induction fuel as [|f IH]; intros r g; cbn [skip_loop]; destruct (_ <=? _)%N; try reflexivity.
    destruct (nth_error ra _); [|reflexivity]. cbn [obind]. destruct (nth_error rb _); [|reflexivity]. cbn [obind uni0 geo counted tape_rng fst snd]. now rewrite IH.
  Qed.
  Lemma ctypeI_irr A B l i j g : sampleTypeI E D t alpha r1 A B l i j g = sampleTypeI E D t alpha r2 A B l i j g.
  Proof. unfold sampleTypeI. destruct (nodes_in D t i A l); [|reflexivity]. cbn [obind]. destruct (nodes_in D t j B l); [|reflexivity]. cbn [obind]. now rewrite cdecideI_irr. Qed.
  Lemma ctypeII_irr A B l i j g : sampleTypeII E cfg D t alpha r1 A B l i j g = sampleTypeII E cfg D t alpha r2 A B l i j g.
  Proof.
    unfold sampleTypeII. destruct (nodes_in D t i A l); [|reflexivity]. cbn [obind]. destruct (nodes_in D t j B l); [|reflexivity]. cbn [obind].
    destruct (w_upper_bound E (tP t) i j); [|reflexivity]. cbn [obind]. destruct (dist_lower_bound E cfg D A B l); [|reflexivity]. cbn [obind].
    rewrite ctypeI_irr. cbn [geo counted tape_rng fst snd]. now rewrite cskip_irr.
  Qed.
  Lemma ccalls_irr xs : forall g, run_calls E cfg D t alpha r1 xs g = run_calls E cfg D t alpha r2 xs g.
  Proof.
    induction xs as [|x xs IH]; intros g; [reflexivity|]. cbn [run_calls].
    assert (C : run_call E cfg D t alpha r1 x g = run_call E cfg D t alpha r2 x g) by (destruct x; [apply ctypeI_irr|apply ctypeII_irr]).
    rewrite C. destruct (run_call E cfg D t alpha r2 x g) as [r|]; [|reflexivity]. cbn [obind]. now rewrite IH.
  Qed.
End Irrelevant.

(** continuation of a result *)
Definition KC (h : nat -> tape -> R) (o : option (result (tape * nat))) : R := match o with Some r => h (snd (gen r)) (fst (gen r)) | None => 0 end.
Section Count.
  Context {D : N} {ws : list R} {ps : list (list R)} {seed : Z} {omp_max team : nat} (HI : girg_input D ws ps seed omp_max team).
  Variables (cfg : config) (P : tparams) (NO : num_ok ideal_env D ws P) (IP : ideal_params ws P).
  Variables (t : tree) (ord : list nat) (TS : tree_spec ideal_env cfg D ws ps P t ord).
  Variables (a : R) (Ha : 0 <= a).
  Notation alpha := (AFin a).
  Notation HD := (gi_dim _ _ _ _ _ _ HI).
  Notation HL := (gi_len _ _ _ _ _ _ HI).
  Notation Hn := (gi_n _ _ _ _ _ _ HI).
  Notation n := (length ws).
  Notation mk := (Tree_Build.mk ideal_env cfg D ws ps P).
  Notation V := (V ideal_env cfg D ws ps P ord).
  Variable s : Z -> tape.
  Notation rg := (counted (tape_rng s)).
  Notation block_max := (@block_max D cfg P a).

  Lemma decideI_count W : forall L v h k0, (forall k, expects (h k) (v + INR k)) ->
    expects (fun tp => let (es, g) := decideI ideal_env D W alpha rg L (tp, k0) in h (snd g) (fst g)) (v + INR k0 + INR (length L)).
  Proof.
    induction L as [|[x y] L IH]; intros v h k0 Hh.
    - cbn [decideI length INR]. rewrite Rplus_0_r. exact (Hh k0).
    - apply ex_draw with (g := fun _ => v + INR k0 + INR (length ((x, y) :: L))); [|apply RInt_const01]. intros u.
      apply (expects_ext (fun tp => let (es, g) := decideI ideal_env D W alpha rg L (tp, S k0) in h (snd g) (fst g))).
      { intros tp. cbn [decideI u01 counted tape_rng fst snd]. change (ttail (tcons u tp)) with tp.
        assert (Q : forall (X : list event * (tape * nat)) e, (let (es, g) := X in h (snd g) (fst g)) = (let (es, g) := (let (es, g2) := X in (e :: es, g2)) in h (snd g) (fst g))) by (intros [? ?] ?; reflexivity). exact (Q _ _). }
      replace (v + INR k0 + INR (length ((x, y) :: L))) with (v + INR (S k0) + INR (length L)) by (cbn [length]; rewrite !S_INR; ring). now apply IH.
  Qed.
  Lemma typeI_count A B l i j : in_level D l A -> in_level D l B -> (i < p_layers P)%nat -> (j < p_layers P)%nat -> (l <= base_level D (p_c P) i j)%N ->
    forall v h k0, (forall k, expects (h k) (v + INR k)) ->
    expects (fun tp => KC h (sampleTypeI ideal_env D t alpha rg A B l i j (tp, k0))) (v + INR k0 + INR (length (@pairsL D ws ps cfg P ord A B l i j))).
  Proof.
    intros HA HB Hi Hj Hl v h k0 Hh.
    assert (E1 : nodes_in D t i A l = Some (map mk (V i A l))).
    { eapply nodes_in_eq; eauto. unfold tl. etransitivity; [exact Hl|]. apply base_le_target, HD. }
    assert (E2 : nodes_in D t j B l = Some (map mk (V j B l))).
    { eapply nodes_in_eq; eauto. unfold tl. etransitivity; [exact Hl|]. rewrite base_sym. apply base_le_target, HD. }
    unfold sampleTypeI. rewrite E1, E2. cbn [obind]. unfold pairsL. set (same := (A =? B)%N && (i =? j)%nat).
    assert (Hs : same = true -> V i A l = V j B l).
    { unfold same. intros H. apply andb_prop in H as [H1%N.eqb_eq H2%Nat.eqb_eq]. now subst. }
    set (va := V i A l) in *. set (vb := V j B l) in *.
    assert (Hp : pairsI same 0 (map mk va) (map mk vb) = map (fun ab => (mk (fst ab), mk (snd ab))) (if same then uptri va else list_prod va vb)).
    { destruct same.
      - rewrite <- (Hs eq_refl), pairsI_same. apply uptri_map.
      - rewrite pairsI_prod. apply prod_map. }
    assert (EM : (va = [] \/ vb = []) \/ (va <> [] /\ vb <> [])) by (destruct va, vb; auto; right; split; discriminate).
    destruct EM as [EM|[EM1 EM2]].
    - assert (N : (if same then uptri va else list_prod va vb) = []).
      { destruct same; [specialize (Hs eq_refl); destruct EM as [EM|EM]; [|rewrite <- Hs in EM]; rewrite EM; reflexivity|]. destruct EM as [-> | ->]; [reflexivity|apply prod_nil_r]. }
      rewrite N. cbn [length INR]. rewrite Rplus_0_r. apply (expects_ext (h k0)); [|exact (Hh k0)]. intros tp. destruct EM as [-> | ->]; [reflexivity|]. now destruct (map mk va).
    - apply (expects_ext (fun tp => let (es, g) := decideI ideal_env D (p_W P) alpha rg (pairsI same 0 (map mk va) (map mk vb)) (tp, k0) in h (snd g) (fst g))).
      + intros tp. rewrite (ts_P _ _ _ _ _ _ _ _ TS). destruct (map mk va) as [|x xs] eqn:Ex; [destruct va; [congruence|discriminate]|]. destruct (map mk vb) as [|y ys] eqn:Ey; [destruct vb; [congruence|discriminate]|].
        assert (Q : forall (X : list event * (tape * nat)) z1 z2, (let (es, g) := X in h (snd g) (fst g)) = KC h (let (es, g) := X in Some {| evs := es; type1 := z1; type2 := z2; gen := g |})) by (intros [? ?] ? ?; reflexivity). exact (Q _ _ _).
      + rewrite Hp. rewrite <- (map_length (fun ab => (mk (fst ab), mk (snd ab))) (if same then uptri va else list_prod va vb)). now apply decideI_count.
  Qed.
  (** the expected number of draws of one call *)
  Definition call_draws (x : call) : R :=
    match x with
    | CallI A B l i j => INR (length (@pairsL D ws ps cfg P ord A B l i j))
    | CallII A B l i j => let m := INR (length (V i A l) * length (V j B l)) in
      if Rltb (1 / 5) (block_max A B l i j) then m else if Rltb (m * block_max A B l i j) (1 / 1000000) then 0 else 1 + 2 * block_max A B l i j * m
    end.
  Lemma typeII_count A B l i j : call_ok cfg D P (CallII A B l i j) -> forall v h k0, (forall k, expects (h k) (v + INR k)) ->
    expects (fun tp => KC h (sampleTypeII ideal_env cfg D t alpha rg A B l i j (tp, k0))) (v + INR k0 + call_draws (CallII A B l i j)).
  Proof.
    intros Hok v h k0 Hh. destruct (far_ranges HI cfg P t ord TS A B l i j Hok) as [E1 E2]. destruct (far_facts_ok HI cfg P NO IP t ord TS A B l i j Hok) as (wub & dlb & F).
    cbn [call_draws]. unfold sampleTypeII. rewrite E1, E2. cbn [obind]. rewrite (ts_P _ _ _ _ _ _ _ _ TS).
    assert (L1 := V_length _ _ _ _ _ _ HL Hn _ _ TS i A l). assert (L2 := V_length _ _ _ _ _ _ HL Hn _ _ TS j B l).
    assert (Hnum : (N.of_nat (length (V i A l) * length (V j B l)) + 1 < 2 ^ 62)%N).
    { assert (Hn' := Hn). change (2 ^ 31)%N with 2147483648%N in Hn'. change (2 ^ 62)%N with (2147483648 * 2147483648)%N. rewrite Nat2N.inj_mul.
      assert (N.of_nat (length (V i A l)) * N.of_nat (length (V j B l)) <= 2147483647 * 2147483647)%N by (apply N.mul_le_mono; lia). lia. }
    pose proof Hok as (HA & HB & Hi & Hj & Hl & Ht).
    assert (HAB : A <> B) by (eapply (call_II_ne _ _ _ _ _ _ HD NO HL Hn t ord TS); exact Hok).
    pose proof (typeI_count A B l i j HA HB Hi Hj Hl v h k0 Hh) as TI. unfold pairsL in TI.
    assert (Hs : (A =? B)%N && (i =? j)%nat = false) by (destruct (N.eqb_spec A B); [contradiction|reflexivity]). rewrite Hs, prod_length in TI.
    set (va := V i A l) in *. set (vb := V j B l) in *.
    assert (EM : (va = [] \/ vb = []) \/ (va <> [] /\ vb <> [])) by (destruct va, vb; auto; right; split; discriminate).
    destruct EM as [EM|[EM1 EM2]].
    { assert (N : (length va * length vb)%nat = 0%nat) by (destruct EM as [-> | ->]; cbn [length]; lia).
      rewrite N. cbn [INR]. rewrite Rmult_0_l. rewrite (proj2 (Rltb_true 0 (1 / 1000000))) by lra.
      replace (v + INR k0 + (if Rltb (1 / 5) (block_max A B l i j) then 0 else 0)) with (v + INR k0) by (destruct (Rltb _ _); ring).
      apply (expects_ext (h k0)); [|exact (Hh k0)]. intros tp. destruct EM as [-> | ->]; [reflexivity|]. now destruct (map mk va). }
    assert (BM : block_max A B l i j = max_connection_prob ideal_env alpha wub dlb) by (unfold Prob_Girg.block_max; now rewrite (ff_w _ _ _ _ _ _ _ _ _ _ F), (ff_d _ _ _ _ _ _ _ _ _ _ F)).
    rewrite (ff_w _ _ _ _ _ _ _ _ _ _ F). cbn [obind]. rewrite (ff_d _ _ _ _ _ _ _ _ _ _ F). cbn [obind].
    rewrite <- BM. set (p := block_max A B l i j) in *. rewrite !map_length. cbn [rnd ideal_env].
    assert (ME : forall (T : Type) (x : T) (y : T), match map mk va, map mk vb with [], _ => x | _ :: _, [] => x | _ :: _, _ :: _ => y end = y).
    { intros T x y. destruct va; [congruence|]. destruct vb; [congruence|]. reflexivity. }
    destruct (Rltb (1 / 5) p) eqn:P5.
    { eapply expects_ext; [|exact TI]. intros tp. cbn beta. f_equal. symmetry. apply ME. }
    apply Rltb_false in P5. destruct (Rltb (INR (length va * length vb) * p) (1 / 1000000)) eqn:P6.
    { rewrite Rplus_0_r. apply (expects_ext (h k0)); [|exact (Hh k0)]. intros tp. rewrite ME. reflexivity. }
    apply Rltb_false in P6.
    assert (Pp : 0 < p).
    { destruct (Rlt_dec 0 p) as [|Np]; [assumption|]. exfalso. pose proof (pos_INR (length va * length vb)). nra. }
    set (loop := fun fuel r g => skip_loop ideal_env D (p_W P) alpha rg p (map mk va) (map mk vb) fuel r g).
    set (num := (length va * length vb)%nat) in *.
    apply (expects_ext (fun tp => KN h (loop num (w64 (N.of_nat 0 + geo_of p (val (tp 0%nat)))) (ttail tp, S k0)))).
    { intros tp. rewrite ME. cbn [geo counted tape_rng fst snd]. rewrite w64_id', N.add_0_l by (unfold geo_of; change (2 ^ 63)%N with 9223372036854775808%N; change (2 ^ 64)%N with 18446744073709551616%N; lia).
      fold (loop num (geo_of p (val (tp 0%nat))) (ttail tp, S k0)). destruct (loop num _ _) as [[hits [tp' k']]|]; reflexivity. }
    replace (v + INR k0 + (1 + 2 * p * INR num)) with (v + INR k0 + 1 + 2 * p * INR (num - 0)) by (rewrite Nat.sub_0_r; ring).
    apply (skip_count p num (list (nat * nat)) loop ltac:(lra) Hnum) with (d := num); [| |lia|lia|lia|exact Hh].
    - intros fuel r g Hr. exists []. unfold loop. destruct fuel; cbn [skip_loop]; rewrite !map_length; fold num; now rewrite (proj2 (N.leb_le _ _) Hr).
    - intros h' fuel q g k Hq. unfold loop at 1. cbn [skip_loop]. rewrite !map_length. fold num. destruct (N.leb_spec (N.of_nat num) (N.of_nat q)) as [L|L]; [lia|].
      assert (La : length va <> 0%nat) by (destruct va; [congruence|discriminate]).
      assert (Q1 : (q mod length va < length va)%nat) by now apply Nat.mod_upper_bound. assert (Q2 : (q / length va < length vb)%nat) by (apply Nat.div_lt_upper_bound; unfold num in Hq; lia).
      rewrite <- Nat2N.inj_mod, <- Nat2N.inj_div, !Nat2N.id by lia.
      rewrite (map_nth_error mk _ _ (nth_error_nth' va 0%nat Q1)), (map_nth_error mk _ _ (nth_error_nth' vb 0%nat Q2)). cbn [obind uni0 geo counted tape_rng fst snd].
      change (ttail g 0%nat) with (g 1%nat).
      assert (Q : forall (X : option (list (nat * nat) * (tape * nat))) hd, KN h' (do (hits, g3) <- X; Some (hd ++ hits, g3)) = KN h' X) by (intros [[? [? ?]]|] ?; reflexivity). exact (Q _ _).
  Qed.
  Lemma call_count x : call_ok cfg D P x -> forall v h k0, (forall k, expects (h k) (v + INR k)) ->
    expects (fun tp => KC h (run_call ideal_env cfg D t alpha rg x (tp, k0))) (v + INR k0 + call_draws x).
  Proof.
    destruct x as [A B l i j|A B l i j]; intros Hok; cbn [run_call].
    - destruct Hok as (HA & HB & Hi & Hj & Hl). intros v h k0 Hh. exact (typeI_count A B l i j HA HB Hi Hj ltac:(lia) v h k0 Hh).
    - now apply typeII_count.
  Qed.
  Lemma calls_count xs : (forall x, In x xs -> call_ok cfg D P x) -> forall v h k0, (forall k, expects (h k) (v + INR k)) ->
    expects (fun tp => KC h (run_calls ideal_env cfg D t alpha rg xs (tp, k0))) (v + INR k0 + sumR (map call_draws xs)).
  Proof.
    induction xs as [|x xs IH]; intros Hok v h k0 Hh.
    - cbn [run_calls KC gen fst snd map]. unfold sumR. cbn [fold_right]. rewrite Rplus_0_r. exact (Hh k0).
    - apply (expects_ext (fun tp => KC (fun k1 tp1 => KC h (run_calls ideal_env cfg D t alpha rg xs (tp1, k1))) (run_call ideal_env cfg D t alpha rg x (tp, k0)))).
      + intros tp. cbn [run_calls]. destruct (run_call ideal_env cfg D t alpha rg x (tp, k0)) as [r1|]; [|reflexivity]. cbn [obind KC].
        assert (Q2 : forall g : tape * nat, (fst g, snd g) = g) by (intros [? ?]; reflexivity). refine (eq_trans (f_equal (fun g => KC h (run_calls ideal_env cfg D t alpha rg xs g)) (Q2 (gen r1))) _).
        assert (Q : forall (X : option (result (tape * nat))) f z1 z2, KC h X = KC h (do r2 <- X; Some {| evs := f r2; type1 := z1 r2; type2 := z2 r2; gen := gen r2 |})) by (intros [?|] ? ? ?; reflexivity).
        exact (Q (run_calls ideal_env cfg D t alpha rg xs (gen r1)) (fun r2 => evs r1 ++ evs r2) (fun r2 => type1 r1 + type1 r2)%Z (fun r2 => type2 r1 + type2 r2)%Z).
      + replace (v + INR k0 + sumR (map call_draws (x :: xs))) with (v + sumR (map call_draws xs) + INR k0 + call_draws x) by (unfold sumR; cbn [map fold_right]; ring).
        apply call_count; [apply Hok; now left|]. intros k. replace (v + sumR (map call_draws xs) + INR k) with (v + INR k + sumR (map call_draws xs)) by ring.
        apply IH; [intros; apply Hok; now right|exact Hh].
  Qed.
  Definition cthreads (calls : list (list call)) (tapes : list tape) : option (list (result (tape * nat))) :=
    omap (fun cg => run_calls ideal_env cfg D t alpha rg (fst cg) (snd cg)) (combine calls (map (fun tp => (tp, 0%nat)) tapes)).
  (** what all the threads drew *)
  Definition draws_of (o : option (list (result (tape * nat)))) : R := match o with Some rs => INR (list_sum (map (fun r => snd (gen r)) rs)) | None => 0 end.
  Lemma calls_total xs : (forall x, In x xs -> call_ok cfg D P x) -> forall g, exists r, run_calls ideal_env cfg D t alpha rg xs g = Some r.
  Proof.
    intros Hok g. assert (Hok' : forall x, In x (concat [xs]) -> call_ok cfg D P x) by (intros x Hx; cbn [concat] in Hx; rewrite app_nil_r in Hx; auto).
    destruct (threads_decided ideal_env cfg D ws ps P ideal_good HD NO HL (use_vp HI) Hn t ord TS (AFin a) rg (counted_good _ (tape_good s)) [xs] [g] ltac:(cbn; lia) Hok') as (rs & Er & _).
    unfold run_threads in Er. cbn [length Nat.ltb Nat.leb combine omap fst snd] in Er. destruct (run_calls ideal_env cfg D t alpha rg xs g) as [r|]; [|discriminate]. eauto.
  Qed.
  Lemma cthreads_total calls tapes : (length calls <= length tapes)%nat -> (forall x, In x (concat calls) -> call_ok cfg D P x) -> exists rs, cthreads calls tapes = Some rs.
  Proof.
    intros Lc Hok. assert (Lg : (length calls <= length (map (fun tp => (tp, 0%nat)) tapes))%nat) by now rewrite map_length.
    destruct (threads_decided ideal_env cfg D ws ps P ideal_good HD NO HL (use_vp HI) Hn t ord TS (AFin a) rg (counted_good _ (tape_good s)) calls (map (fun tp => (tp, 0%nat)) tapes) Lg Hok) as (rs & Er & _).
    exists rs. assert (E' : (if (length (map (fun tp : tape => (tp, 0%nat)) tapes) <? length calls)%nat then None else cthreads calls tapes) = Some rs) by exact Er. now rewrite (proj2 (Nat.ltb_ge _ _) Lg) in E'.
  Qed.
  Lemma threads_count calls : (forall x, In x (concat calls) -> call_ok cfg D P x) -> forall m, (length calls <= m)%nat ->
    expects_n m (fun tapes => draws_of (cthreads calls tapes)) (sumR (map call_draws (concat calls))).
  Proof.
    induction calls as [|xs calls IH]; intros Hok m Hm.
    - apply expects_n_ext with (f1 := fun _ => 0); [|apply expects_n_const]. intros ts _. reflexivity.
    - destruct m as [|m]; [cbn in Hm; lia|]. cbn [concat]. rewrite map_app, sumR_app. cbn [expects_n].
      specialize (IH ltac:(intros x Hx; apply Hok; cbn [concat]; apply in_or_app; now right) m ltac:(cbn in Hm; lia)).
      set (C := sumR (map call_draws (concat calls))) in *.
      exists (fun tp => KC (fun k _ => C + INR k) (run_calls ideal_env cfg D t alpha rg xs (tp, 0%nat))). split.
      + intros tp. destruct (calls_total xs ltac:(intros x Hx; apply Hok; cbn [concat]; apply in_or_app; now left) (tp, 0%nat)) as (r & Er).
        assert (EK : KC (fun k _ => C + INR k) (run_calls ideal_env cfg D t alpha rg xs (tp, 0%nat)) = INR (snd (gen r)) + C).
        { transitivity (KC (fun k _ => C + INR k) (Some r)); [f_equal; exact Er|]. cbn [KC]. apply Rplus_comm. }
        refine (eq_ind _ (fun z => expects_n m (fun ts => draws_of (cthreads (xs :: calls) (tp :: ts))) z) _ _ (eq_sym EK)). apply expects_n_ext with (f1 := fun ts => INR (snd (gen r)) + draws_of (cthreads calls ts)).
        2:{ apply (expects_n_plus m (INR (snd (gen r)))). exact IH. }
        intros ts Lts. destruct (cthreads_total calls ts) as (rs & Ets); [cbn in Hm; lia|intros x Hx; apply Hok; cbn [concat]; apply in_or_app; now right|].
        rewrite Ets. assert (EC : cthreads (xs :: calls) (tp :: ts) = Some (r :: rs)).
        { unfold cthreads in *. cbn [map combine omap fst snd]. refine (eq_trans (f_equal (fun o => obind o _) Er) _). cbn [obind]. refine (eq_trans (f_equal (fun o => obind o _) Ets) _). reflexivity. }
        rewrite EC. cbn [draws_of map]. match goal with |- context [list_sum (?x :: ?y)] => change (list_sum (x :: y)) with (x + list_sum y)%nat end. rewrite plus_INR. reflexivity.
      + replace (sumR (map call_draws xs) + C) with (C + INR 0 + sumR (map call_draws xs)) by (cbn [INR]; ring). apply calls_count.
        * intros x Hx. apply Hok. cbn [concat]. apply in_or_app. now left.
        * intros k. now apply ex_value.
  Qed.
End Count.

(** the runs of generateEdges *)
Definition total_draws (rs : list (result (tape * nat))) : nat := list_sum (map (fun r => snd (gen r)) rs).
Lemma combine_len {A B} (l : list A) : forall l' : list B, (length l <= length l')%nat -> length (combine l l') = length l.
Proof. intros l' H. rewrite combine_length. lia. Qed.
Section Runs.
  Context {D : N} {ws : list R} {ps : list (list R)} {seed : Z} {omp_max team : nat} (HI : girg_input D ws ps seed omp_max team).
  Variables (cfg : config) (P : tparams) (NO : num_ok ideal_env D ws P) (IP : ideal_params ws P).
  Variables (t : tree) (ord : list nat) (TS : tree_spec ideal_env cfg D ws ps P t ord).
  Variables (a : R) (Ha : 0 <= a) (Hs : (0 <= seed)%Z).
  Notation plan0 := (plan cfg D P (N.to_nat (p_levels P - 1)) 0%N 0%N 0%N).
  Lemma edges_count_law : forall out : list tape -> list (result (tape * nat)),
    (forall tapes, length tapes = omp_max -> edges_outcome ideal_env cfg D t (AFin a) (counted (tape_rng (seeded seed tapes))) seed omp_max team (Some (out tapes))) ->
    expects_n omp_max (fun tapes => INR (total_draws (out tapes))) (sumR (map (@call_draws D ws ps cfg P ord a) plan0)).
  Proof.
    intros out Hout. pose proof (gi_dim _ _ _ _ _ _ HI) as HD. pose proof (gi_len _ _ _ _ _ _ HI) as HL. pose proof (gi_n _ _ _ _ _ _ HI) as Hn.
    pose proof (levels_eq _ cfg _ _ ps _ NO t ord TS) as HLE. pose proof (no_c _ _ _ _ NO) as Hc.
    destruct (thread_calls_ok cfg D P (AFin a) HD Hc HLE ideal_env omp_max team (use_fpl HI) (gi_team _ _ _ _ _ _ HI)) as (calls & Ec & Lc & HP).
    assert (HP0 : Permutation (concat calls) plan0).
    { rewrite HP. unfold full_plan. rewrite filter_true; [reflexivity|]. intros x _. unfold keep. cbn [is_inf]. rewrite andb_false_r. apply orb_true_r. }
    assert (Hok : forall x, In x (concat calls) -> call_ok cfg D P x).
    { intros x Hx. apply (Permutation_in _ HP0) in Hx. revert Hx. apply (plan0_ok ideal_env cfg D ws ps P HD NO HL Hn t ord TS). }
    assert (SP : sumR (map (@call_draws D ws ps cfg P ord a) (concat calls)) = sumR (map (@call_draws D ws ps cfg P ord a) plan0)).
    { apply (Permutation_map (@call_draws D ws ps cfg P ord a)) in HP0. clear -HP0. unfold sumR. induction HP0; cbn [fold_right]; lra. }
    rewrite <- SP. set (s0 := seeded 0 []).
    eapply expects_n_ext; [|apply (threads_count HI cfg P NO IP t ord TS a s0 calls Hok omp_max); lia].
    intros tapes Lt. specialize (Hout tapes Lt). set (s := seeded seed tapes) in *.
    unfold edges_outcome in Hout. rewrite (use_seed HI) in Hout. destruct Hout as (gens & Hg & Ho). unfold gens_ok in Hg. rewrite (proj2 (Z.leb_le _ _) Hs) in Hg.
    assert (Eg : gens = map (fun tp => (tp, 0%nat)) tapes).
    { transitivity (map (fun tp : tape => (tp, 0%nat)) (map (fun k => seeded seed tapes (seed + Z.of_nat k)%Z) (seq 0 (length tapes)))); [rewrite map_map, Lt; exact Hg|now rewrite seeded_gens]. }
    rewrite Eg in Ho. rewrite (ts_P _ _ _ _ _ _ _ _ TS), Ec in Ho. cbn [obind] in Ho.
    assert (Ho' : Some (out tapes) = (if (length (map (fun tp : tape => (tp, 0%nat)) tapes) <? length calls)%nat then None else @cthreads D cfg t a s calls tapes)) by exact Ho. clear Ho.
    assert (Lg : (length calls <= length (map (fun tp : tape => (tp, 0%nat)) tapes))%nat) by (rewrite map_length; lia). rewrite (proj2 (Nat.ltb_ge _ _) Lg) in Ho'.
    assert (EI : @cthreads D cfg t a s0 calls tapes = @cthreads D cfg t a s calls tapes).
    { unfold cthreads. generalize (map (fun tp : tape => (tp, 0%nat)) tapes) as gs. clear. induction calls as [|xs calls IH]; intros gs; [reflexivity|]. destruct gs as [|g gs]; [reflexivity|]. cbn [combine omap fst snd].
      refine (eq_trans (f_equal (fun o => obind o _) (ccalls_irr ideal_env cfg D t (AFin a) s0 s xs g)) _).
      assert (Q : forall (X : option (result (tape * nat))) Y Y', Y = Y' -> obind X (fun y => obind Y (fun ys : list (result (tape * nat)) => Some (y :: ys))) = obind X (fun y => obind Y' (fun ys => Some (y :: ys)))) by (intros X Y Y' ->; reflexivity).
      apply Q. apply IH. }
    rewrite EI, <- Ho'. reflexivity.
  Qed.
  Lemma edges_runs : exists out : list tape -> list (result (tape * nat)),
    forall tapes, edges_outcome ideal_env cfg D t (AFin a) (counted (tape_rng (seeded seed tapes))) seed omp_max team (Some (out tapes)).
  Proof.
    pose proof (omp_nat _ (gi_omp _ _ _ _ _ _ HI)) as OM.
    assert (EX : forall tapes, exists rs, edges_outcome ideal_env cfg D t (AFin a) (counted (tape_rng (seeded seed tapes))) seed omp_max team (Some rs)).
    { intros tapes. destruct (edges_ok ideal_env cfg D ws ps P ideal_good (gi_dim _ _ _ _ _ _ HI) NO (gi_len _ _ _ _ _ _ HI) (use_vp HI) (gi_n _ _ _ _ _ _ HI) (AFin a) (counted (tape_rng (seeded seed tapes))) seed omp_max team
        (counted_good _ (tape_good _)) (proj1 OM) (use_fpl HI) (gi_team _ _ _ _ _ _ HI) (use_seed HI) t ord TS) as [[o Ho] Q]. destruct (Q o Ho) as (rs & -> & _). eauto. }
    set (f := fun tapes => do calls <- thread_calls ideal_env cfg D (tP t) (AFin a) omp_max team; run_threads ideal_env cfg D t (AFin a) (counted (tape_rng (seeded seed tapes))) calls (map (fun k => rseed (counted (tape_rng (seeded seed tapes))) (seed + Z.of_nat k)%Z) (seq 0 omp_max))).
    exists (fun tapes => match f tapes with Some rs => rs | None => [] end). intros tapes. destruct (EX tapes) as (rs & H). pose proof H as H'. unfold edges_outcome in H. rewrite (use_seed HI) in H. destruct H as (gens & Hg & Ho). unfold gens_ok in Hg. rewrite (proj2 (Z.leb_le _ _) Hs) in Hg. subst gens.
    assert (E : f tapes = Some rs) by (symmetry; exact Ho). rewrite E. exact H'.
  Qed.
End Runs.
