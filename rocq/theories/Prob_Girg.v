(** The law of the edges of girgs::generateEdges for finite alpha, exact reals and ideal randomness. *)
From Coq Require Import Arith NArith ZArith List Bool Reals Lra Lia Permutation.
From Coquelicot Require Import Coquelicot.
From Verif Require Import Base Sched Bits_Model Coord_Model Coord_Proofs Coord_Geo IntSort_Model IntSort_Proofs Cover Tree_Model Tree_Proofs Tree_Build Tree_Plan Tree_Run Girg_Model Girg_Proofs Girg_Num
  Prop_Girg Prob_Spec Prob Prob_Events.
Import ListNotations.
Local Open Scope R_scope.

Lemma tape_good s : good_rng (tape_rng s).
Proof.
  constructor; cbn [u01 uni0 geo tape_rng G fst].
  - intros g. apply val_range.
  - intros p g Hp. pose proof (val_range (g 0%nat)). split; [apply Rmult_le_pos; lra|]. nra.
  - intros p g Hp. unfold geo_of. assert (K2 : (2 ^ 63 = 9223372036854775808)%N) by reflexivity. lia.
Qed.
(** the draws do not depend on the seeding *)
Section Irrelevant.
  Variables (E : fenv) (cfg : config) (D : N) (t : tree) (alpha : alphaT) (s1 s2 : Z -> tape).
  Lemma decideI_irr W ps : forall g, decideI E D W alpha (tape_rng s1) ps g = decideI E D W alpha (tape_rng s2) ps g.
  Proof. induction ps as [|[a b] ps IH]; intros g; [reflexivity|]. cbn [decideI]. destruct alpha; cbn [u01 tape_rng]; now rewrite IH. Qed.
  Lemma skip_irr W p ra rb fuel : forall r g, skip_loop E D W alpha (tape_rng s1) p ra rb fuel r g = skip_loop E D W alpha (tape_rng s2) p ra rb fuel r g.
  Proof.
    induction fuel as [|f IH]; intros r g; cbn [skip_loop]; destruct (_ <=? _)%N; try reflexivity.
    destruct (nth_error ra _); [|reflexivity]. cbn [obind]. destruct (nth_error rb _); [|reflexivity]. cbn [obind uni0 geo tape_rng]. now rewrite IH.
  Qed.
  Lemma typeI_irr A B l i j g : sampleTypeI E D t alpha (tape_rng s1) A B l i j g = sampleTypeI E D t alpha (tape_rng s2) A B l i j g.
  Proof. unfold sampleTypeI. destruct (nodes_in D t i A l); [|reflexivity]. cbn [obind]. destruct (nodes_in D t j B l); [|reflexivity]. cbn [obind]. now rewrite decideI_irr. Qed.
  Lemma typeII_irr A B l i j g : sampleTypeII E cfg D t alpha (tape_rng s1) A B l i j g = sampleTypeII E cfg D t alpha (tape_rng s2) A B l i j g.
  Proof.
    unfold sampleTypeII. destruct (nodes_in D t i A l); [|reflexivity]. cbn [obind]. destruct (nodes_in D t j B l); [|reflexivity]. cbn [obind].
    destruct (w_upper_bound E (tP t) i j); [|reflexivity]. cbn [obind]. destruct (dist_lower_bound E cfg D A B l); [|reflexivity]. cbn [obind].
    rewrite typeI_irr. cbn [geo tape_rng]. now rewrite skip_irr.
  Qed.
  Lemma calls_irr xs : forall g, run_calls E cfg D t alpha (tape_rng s1) xs g = run_calls E cfg D t alpha (tape_rng s2) xs g.
  Proof.
    induction xs as [|x xs IH]; intros g; [reflexivity|]. cbn [run_calls].
    assert (C : run_call E cfg D t alpha (tape_rng s1) x g = run_call E cfg D t alpha (tape_rng s2) x g) by (destruct x; [apply typeI_irr|apply typeII_irr]).
    rewrite C. destruct (run_call E cfg D t alpha (tape_rng s2) x g) as [r|]; [|reflexivity]. cbn [obind]. now rewrite IH.
  Qed.
End Irrelevant.

(** continuation of a result *)
Definition KR (h : list event -> tape -> R) (o : option (result tape)) : R := match o with Some r => h (evs r) (gen r) | None => 0 end.

Lemma KR_bind h (r1 : result tape) (o : option (result tape)) :
  KR (fun es2 => h (evs r1 ++ es2)) o = KR h (do r2 <- o; Some {| evs := evs r1 ++ evs r2; type1 := (type1 r1 + type1 r2)%Z; type2 := (type2 r1 + type2 r2)%Z; gen := gen r2 |}).
Proof. destruct o; reflexivity. Qed.
Lemma xlt_xmin1 u x : 0 <= u < 1 -> xlt u x = Rltb u (xmin1 x).
Proof.
  intros H. destruct x as [|y]; cbn [xlt xmin1].
  - symmetry. apply Rltb_true. lra.
  - unfold Rmin. destruct (Rle_dec y 1); [reflexivity|]. rewrite (proj2 (Rltb_true u 1)) by lra. apply Rltb_true. lra.
Qed.

Section Law.
  Context {D : N} {ws : list R} {ps : list (list R)} {seed : Z} {omp_max team : nat} (HI : girg_input D ws ps seed omp_max team).
  Variables (cfg : config) (P : tparams) (NO : num_ok ideal_env D ws P) (IP : ideal_params ws P).
  Variables (t : tree) (ord : list nat) (TS : tree_spec ideal_env cfg D ws ps P t ord).
  Variables (a : R) (Ha : 0 <= a).
  Notation alpha := (AFin a).
  Notation HD := (gi_dim _ _ _ _ _ _ HI).
  Notation HL := (gi_len _ _ _ _ _ _ HI).
  Notation Hn := (gi_n _ _ _ _ _ _ HI).
  Notation n := (length ws).
  Notation mk := (Tree_Build.mk ideal_env cfg D ws ps P).
  Notation V := (V ideal_env cfg D ws ps P ord).
  Notation call_pairs := (call_pairs ideal_env cfg D ws ps P ord).
  Variable s : Z -> tape.
  Notation rg := (tape_rng s).
  Variable phi : nat -> nat -> bool -> R.

  (** the probability the code computes for a pair *)
  Definition pnode (x y : node) : R := xmin1 (conn_prob ideal_env D (p_W P) alpha x y).
  Definition pe (u v : nat) : R := pnode (mk u) (mk v).
  Lemma pnode_range x y : 0 < w_term ideal_env (p_W P) x y -> 0 <= pnode x y <= 1.
  Proof.
    intros Hw. unfold pnode, conn_prob, xmin1. destruct (xpow _ _ _) as [|r] eqn:E; [lra|]. split; [|apply Rmin_r].
    apply Rmin_glb; [|lra]. unfold xdiv in E. destruct (Req_EM_T _ 0) as [Z|Z]; cbn [xpow] in E.
    - destruct (Rlt_dec 0 a); [discriminate|]. destruct (Rlt_dec a 0); injection E as <-; lra.
    - injection E as <-. left. apply exp_pos.
  Qed.
  Lemma w_pos u v : (u < n)%nat -> (v < n)%nat -> 0 < w_term ideal_env (p_W P) (mk u) (mk v).
  Proof.
    intros Hu Hv. unfold w_term. cbn [weight Tree_Build.mk rnd ideal_env]. pose proof (ip_pos _ _ IP) as Pw. pose proof (ip_Wpos _ _ IP) as PW.
    assert (Iu : In (Tree_Build.wt ws u) ws) by (now apply nth_In). assert (Iv : In (Tree_Build.wt ws v) ws) by (now apply nth_In).
    pose proof (proj2 (ip_min _ _ IP) _ Iu) as Gu. pose proof (proj2 (ip_min _ _ IP) _ Iv) as Gv.
    apply Rdiv_lt_0_compat; [apply Rmult_lt_0_compat; lra|exact PW].
  Qed.
  Lemma pe_range u v : (u < n)%nat -> (v < n)%nat -> 0 <= pe u v <= 1.
  Proof. intros Hu Hv. apply pnode_range. now apply w_pos. Qed.

  Lemma decideI_law L : (forall u v, In (u, v) L -> (u < n)%nat /\ (v < n)%nat) -> forall c h, (forall es, expects (h es) (c * ev_wt phi es)) ->
    expects (fun tp => let (es, tp') := decideI ideal_env D (p_W P) alpha rg (map (fun ab => (mk (fst ab), mk (snd ab))) L) tp in h es tp')
      (c * prodR L (fun uv => bern phi (pe (fst uv) (snd uv)) (fst uv) (snd uv))).
  Proof.
    induction L as [|[u v] L IH]; intros HR c h Hh.
    - cbn [map decideI]. exact (Hh []).
    - cbn [map fst snd]. set (p := pe u v).
      assert (Hp : 0 <= p <= 1) by (apply pe_range; apply (HR u v); now left).
      set (T := prodR L (fun uv => bern phi (pe (fst uv) (snd uv)) (fst uv) (snd uv))).
      apply ex_draw with (g := fun x => if Rltb x p then c * phi u v true * T else c * phi u v false * T).
      + intros x. set (b := Rltb (val x) p).
        replace (if b then c * phi u v true * T else c * phi u v false * T) with (c * phi u v b * T) by (destruct b; reflexivity).
        apply (expects_ext (fun tp => let (es, tp') := decideI ideal_env D (p_W P) alpha rg (map (fun ab => (mk (fst ab), mk (snd ab))) L) tp in h (EPair u v b :: es) tp')).
        { intros tp. cbn [decideI u01 tape_rng]. rewrite (xlt_xmin1 (val (tcons x tp 0%nat))) by apply val_range. change (xmin1 (conn_prob ideal_env D (p_W P) alpha (mk u) (mk v))) with p.
          change (tcons x tp 0%nat) with x. fold b. change (ttail (tcons x tp)) with tp. cbn [index Tree_Build.mk]. match goal with |- context [decideI ?E ?Dm ?W ?al ?r ?xs ?g] => destruct (decideI E Dm W al r xs g) end. reflexivity. }
        apply IH; [intros; apply HR; now right|]. intros es. replace (c * phi u v b * ev_wt phi es) with (c * ev_wt phi (EPair u v b :: es)) by (unfold ev_wt; rewrite prodR_cons; cbn [ev_wt1]; ring). apply Hh.
      + rewrite prodR_cons. cbn [fst snd]. fold T. fold p. replace (c * (bern phi p u v * T)) with (p * (c * phi u v true * T) + (1 - p) * (c * phi u v false * T)) by (unfold bern; ring).
        now apply RInt_coin.
  Qed.
  Definition pairsL (A B : N) (l : N) (i j : nat) : list (nat * nat) := if (A =? B)%N && (i =? j)%nat then uptri (V i A l) else list_prod (V i A l) (V j B l).
  Lemma pairsL_range A B l i j u v : In (u, v) (pairsL A B l i j) -> (u < n)%nat /\ (v < n)%nat.
  Proof.
    unfold pairsL. destruct (_ && _); intros H; [apply uptri_In in H as [H1 H2]|apply in_prod_iff in H as [H1 H2]];
      apply (V_In _ _ _ _ _ _ HL Hn _ _ TS) in H1, H2; tauto.
  Qed.
  Lemma typeI_law A B l i j : in_level D l A -> in_level D l B -> (i < p_layers P)%nat -> (j < p_layers P)%nat -> (l <= base_level D (p_c P) i j)%N ->
    forall c h, (forall es, expects (h es) (c * ev_wt phi es)) ->
    expects (fun tp => KR h (sampleTypeI ideal_env D t alpha rg A B l i j tp)) (c * prodR (pairsL A B l i j) (fun uv => bern phi (pe (fst uv) (snd uv)) (fst uv) (snd uv))).
  Proof.
    intros HA HB Hi Hj Hl c h Hh.
    assert (E1 : nodes_in D t i A l = Some (map mk (V i A l))).
    { eapply nodes_in_eq; eauto. unfold tl. etransitivity; [exact Hl|]. apply base_le_target, HD. }
    assert (E2 : nodes_in D t j B l = Some (map mk (V j B l))).
    { eapply nodes_in_eq; eauto. unfold tl. etransitivity; [exact Hl|]. rewrite base_sym. apply base_le_target, HD. }
    unfold sampleTypeI. rewrite E1, E2. cbn [obind]. unfold pairsL. set (same := (A =? B)%N && (i =? j)%nat).
    assert (Hs : same = true -> V i A l = V j B l).
    { unfold same. intros H. apply andb_prop in H as [H1%N.eqb_eq H2%Nat.eqb_eq]. now subst. }
    assert (HR : forall u v, In (u, v) (if same then uptri (V i A l) else list_prod (V i A l) (V j B l)) -> (u < n)%nat /\ (v < n)%nat) by (intros u v; apply pairsL_range).
    set (va := V i A l) in *. set (vb := V j B l) in *.
    assert (Hp : pairsI same 0 (map mk va) (map mk vb) = map (fun ab => (mk (fst ab), mk (snd ab))) (if same then uptri va else list_prod va vb)).
    { destruct same.
      - rewrite <- (Hs eq_refl), pairsI_same. apply uptri_map.
      - rewrite pairsI_prod. apply prod_map. }
    assert (EM : (va = [] \/ vb = []) \/ (va <> [] /\ vb <> [])) by (destruct va, vb; auto; right; split; discriminate).
    destruct EM as [EM|[EM1 EM2]].
    - assert (N : (if same then uptri va else list_prod va vb) = []).
      { destruct same; [specialize (Hs eq_refl); destruct EM as [EM|EM]; [|rewrite <- Hs in EM]; rewrite EM; reflexivity|]. destruct EM as [-> | ->]; [reflexivity|apply prod_nil_r]. }
      rewrite N. apply (expects_ext (h [])); [|exact (Hh [])]. intros tp. destruct EM as [-> | ->]; [reflexivity|]. now destruct (map mk va).
    - apply (expects_ext (fun tp => let (es, tp') := decideI ideal_env D (p_W P) alpha rg (pairsI same 0 (map mk va) (map mk vb)) tp in h es tp')).
      + intros tp. rewrite (ts_P _ _ _ _ _ _ _ _ TS). destruct (map mk va) as [|x xs] eqn:Ex; [destruct va; [congruence|discriminate]|]. destruct (map mk vb) as [|y ys] eqn:Ey; [destruct vb; [congruence|discriminate]|].
        match goal with |- context [decideI ?E ?Dm ?W ?al ?r ?xs ?g] => destruct (decideI E Dm W al r xs g) end. reflexivity.
      + rewrite Hp. apply decideI_law; [exact HR|exact Hh].
  Qed.

  (** blocks the code drops: fewer than 10^-6 expected edges *)
  Definition block_max (A B l : N) (i j : nat) : R :=
    match w_upper_bound ideal_env P i j, dist_lower_bound ideal_env cfg D A B l with
    | Some wub, Some dlb => max_connection_prob ideal_env alpha wub dlb
    | _, _ => 0
    end.
  Definition dropped (x : call) : bool :=
    match x with
    | CallI _ _ _ _ _ => false
    | CallII A B l i j => negb (Rltb (1 / 5) (block_max A B l i j)) && Rltb (INR (length (V i A l) * length (V j B l)) * block_max A B l i j) (1 / 1000000)
    end.
  Definition call_q (x : call) (u v : nat) : R := if dropped x then 0 else pe u v.
  Lemma block_bound A B l i j u v : call_ok cfg D P (CallII A B l i j) -> In u (V i A l) -> In v (V j B l) -> 0 <= pe u v <= block_max A B l i j /\ block_max A B l i j <= 1.
  Proof.
    intros Hok Hu Hv. destruct (far_facts_ok HI cfg P NO IP t ord TS A B l i j Hok) as (wub & dlb & F). destruct (ff_pair _ _ _ _ _ _ _ _ _ _ F u v Hu Hv) as [[W0 W1] D1].
    pose proof (ff_wpos _ _ _ _ _ _ _ _ _ _ F) as Fw. pose proof (ff_dpos _ _ _ _ _ _ _ _ _ _ F) as Fd.
    unfold block_max. rewrite (ff_w _ _ _ _ _ _ _ _ _ _ F), (ff_d _ _ _ _ _ _ _ _ _ _ F).
    assert (R0 := pnode_range (mk u) (mk v) W0). fold (pe u v) in R0. split; [split; [apply R0|]|unfold max_connection_prob; unfold xmin1; destruct (xpow _ _ _); [lra|apply Rmin_r]].
    unfold pe, pnode, max_connection_prob, conn_prob. set (w := w_term _ _ _ _) in *. set (d := d_term _ _ _ _) in *. unfold xdiv. cbn [rnd ideal_env].
    destruct (Req_EM_T d 0) as [|_]; [lra|]. destruct (Req_EM_T dlb 0) as [|_]; [lra|]. cbn [xpow xmin1 fpow ideal_env].
    apply Rle_min_compat_r. unfold Rpower. assert (M : ln (w / d) <= ln (wub / dlb)).
    { left. apply ln_increasing; [apply Rdiv_lt_0_compat; lra|]. apply Rlt_le_trans with (wub / d)%R; [apply Rmult_lt_compat_r; [apply Rinv_0_lt_compat; lra|exact W1]|].
      apply Rmult_le_compat_l; [lra|]. apply Rinv_le_contravar; lra. }
    assert (M' : a * ln (w / d) <= a * ln (wub / dlb)) by (apply Rmult_le_compat_l; lra). destruct M' as [M'|M']; [left; now apply exp_increasing|right; now rewrite M'].
  Qed.
  Lemma typeII_law A B l i j : call_ok cfg D P (CallII A B l i j) ->
    forall c h, (forall es, expects (h es) (c * ev_wt phi es)) ->
    expects (fun tp => KR h (sampleTypeII ideal_env cfg D t alpha rg A B l i j tp))
      (c * prodR (list_prod (V i A l) (V j B l)) (fun uv => bern phi (call_q (CallII A B l i j) (fst uv) (snd uv)) (fst uv) (snd uv))).
  Proof.
    intros Hok c h Hh. destruct (far_ranges HI cfg P t ord TS A B l i j Hok) as [E1 E2]. destruct (far_facts_ok HI cfg P NO IP t ord TS A B l i j Hok) as (wub & dlb & F).
    pose proof (block_bound A B l i j) as BB. unfold call_q. cbn [dropped]. unfold sampleTypeII. rewrite E1, E2. cbn [obind]. rewrite (ts_P _ _ _ _ _ _ _ _ TS).
    assert (HR1 : forall u, In u (V i A l) -> (u < n)%nat) by (intros u Hu; now apply (V_In _ _ _ _ _ _ HL Hn _ _ TS) in Hu).
    assert (HR2 : forall u, In u (V j B l) -> (u < n)%nat) by (intros u Hu; now apply (V_In _ _ _ _ _ _ HL Hn _ _ TS) in Hu).
    assert (N1 : NoDup (V i A l)) by (eapply V_NoDup; eauto). assert (N2 : NoDup (V j B l)) by (eapply V_NoDup; eauto).
    assert (L1 := V_length _ _ _ _ _ _ HL Hn _ _ TS i A l). assert (L2 := V_length _ _ _ _ _ _ HL Hn _ _ TS j B l).
    assert (Hnum : (N.of_nat (length (V i A l) * length (V j B l)) + 1 < 2 ^ 62)%N).
    { assert (Hn' := Hn). change (2 ^ 31)%N with 2147483648%N in Hn'. change (2 ^ 62)%N with (2147483648 * 2147483648)%N. rewrite Nat2N.inj_mul.
      assert (N.of_nat (length (V i A l)) * N.of_nat (length (V j B l)) <= 2147483647 * 2147483647)%N by (apply N.mul_le_mono; lia). lia. }
    pose proof Hok as (HA & HB & Hi & Hj & Hl & Ht).
    assert (HAB : A <> B) by (eapply (call_II_ne _ _ _ _ _ _ HD NO HL Hn t ord TS); exact Hok).
    pose proof (typeI_law A B l i j HA HB Hi Hj Hl c h Hh) as TI. unfold pairsL in TI.
    assert (Hs : (A =? B)%N && (i =? j)%nat = false) by (destruct (N.eqb_spec A B); [contradiction|reflexivity]). rewrite Hs in TI.
    set (va := V i A l) in *. set (vb := V j B l) in *.
    assert (EM : (va = [] \/ vb = []) \/ (va <> [] /\ vb <> [])) by (destruct va, vb; auto; right; split; discriminate).
    destruct EM as [EM|[EM1 EM2]].
    { assert (N : list_prod va vb = []) by (destruct EM as [-> | ->]; [reflexivity|apply prod_nil_r]).
      rewrite N. apply (expects_ext (h [])); [|exact (Hh [])]. intros tp. destruct EM as [-> | ->]; [reflexivity|]. now destruct (map mk va). }
    assert (BM : block_max A B l i j = max_connection_prob ideal_env alpha wub dlb) by (unfold block_max; now rewrite (ff_w _ _ _ _ _ _ _ _ _ _ F), (ff_d _ _ _ _ _ _ _ _ _ _ F)).
    rewrite (ff_w _ _ _ _ _ _ _ _ _ _ F). cbn [obind]. rewrite (ff_d _ _ _ _ _ _ _ _ _ _ F). cbn [obind].
    rewrite <- BM. set (p := block_max A B l i j) in *. rewrite !map_length. cbn [rnd ideal_env].
    assert (ME : forall (T : Type) (x : T) (y : T), match map mk va, map mk vb with [], _ => x | _ :: _, [] => x | _ :: _, _ :: _ => y end = y).
    { intros T x y. destruct va; [congruence|]. destruct vb; [congruence|]. reflexivity. }
    destruct (Rltb (1 / 5) p) eqn:P5; cbn [negb andb].
    { eapply expects_ext; [|exact TI]. intros tp. cbn beta. f_equal. symmetry. apply ME. }
    apply Rltb_false in P5. destruct (Rltb (INR (length va * length vb) * p) (1 / 1000000)) eqn:P6.
    { apply (expects_ext (h [EBlock va vb []])).
      - intros tp. rewrite ME. cbn [KR evs gen]. now rewrite !map_index.
      - replace (prodR (list_prod va vb) _) with (ev_wt phi [EBlock va vb []]); [apply Hh|]. unfold ev_wt. rewrite prodR_cons. cbn [ev_wt1]. unfold prodR at 2. cbn [fold_right]. rewrite Rmult_1_r.
        apply prodR_ext. intros [u v] _. unfold bern. cbn [fst snd memb existsb]. ring. }
    apply Rltb_false in P6.
    assert (Pp : 0 < p).
    { destruct (Rlt_dec 0 p) as [|Np]; [assumption|]. exfalso. pose proof (pos_INR (length va * length vb)). nra. }
    set (loop := fun fuel r g => skip_loop ideal_env D (p_W P) alpha rg p (map mk va) (map mk vb) fuel r g).
    pose proof (block_law p va vb pe phi loop) as BL. eapply expects_ext; [|apply (BL ltac:(lra) Hnum N1 N2)].
    - intros tp. rewrite ME. cbn [geo tape_rng]. unfold KR, K. fold (loop (length va * length vb)%nat (geo_of p (val (tp 0%nat))) (ttail tp)).
      destruct (loop (length va * length vb)%nat (geo_of p (val (tp 0%nat))) (ttail tp)) as [[hits tp']|]; cbn [obind]; [|reflexivity]. cbn [evs gen]. rewrite !map_index. 
      instantiate (1 := fun hits => h [EBlock va vb hits]). reflexivity.
    - intros u v Hu Hv. apply BB; assumption.
    - intros fuel r g Hr. unfold loop. destruct fuel; cbn [skip_loop]; rewrite !map_length; now rewrite (proj2 (N.leb_le _ _) Hr).
    - intros fuel q g Hq. unfold loop at 1. cbn [skip_loop]. rewrite !map_length. destruct (N.leb_spec (N.of_nat (length va * length vb)) (N.of_nat q)) as [L|L]; [lia|].
      assert (La : length va <> 0%nat) by (destruct va; [congruence|discriminate]).
      assert (Q1 : (q mod length va < length va)%nat) by now apply Nat.mod_upper_bound. assert (Q2 : (q / length va < length vb)%nat) by (apply Nat.div_lt_upper_bound; lia).
      rewrite <- Nat2N.inj_mod, <- Nat2N.inj_div, !Nat2N.id by lia.
      rewrite (map_nth_error mk _ _ (nth_error_nth' va 0%nat Q1)), (map_nth_error mk _ _ (nth_error_nth' vb 0%nat Q2)). cbn [obind uni0 geo tape_rng].
      fold (loop fuel (w64 (N.of_nat q + w64 (1 + geo_of p (val (ttail g 0%nat))))) (ttail (ttail g))). change (ttail (ttail g)) with (fun k => g (S (S k))). change (ttail g 0%nat) with (g 1%nat).
      destruct (loop fuel _ _) as [[hits tp']|]; cbn [obind]; [|reflexivity]. f_equal. f_equal. f_equal. unfold bpos. cbn [fst snd index Tree_Build.mk].
      set (u := nth (q mod length va) va 0%nat). set (v := nth (q / length va) vb 0%nat).
      assert (XL : xlt (p * val (g 0%nat)) (conn_prob ideal_env D (p_W P) alpha (mk u) (mk v)) = Rltb (p * val (g 0%nat)) (pe u v)); [|now rewrite XL].
      apply xlt_xmin1. pose proof (val_range (g 0%nat)). split; [apply Rmult_le_pos; lra|nra].
    - intros hits. replace (ev_wt1 phi (EBlock va vb hits)) with (ev_wt phi [EBlock va vb hits]); [apply Hh|]. unfold ev_wt. rewrite prodR_cons. unfold prodR. cbn [fold_right]. ring.
  Qed.
  Definition call_mean (x : call) : R := prodR (call_pairs x) (fun uv => bern phi (call_q x (fst uv) (snd uv)) (fst uv) (snd uv)).
  Lemma call_law x : call_ok cfg D P x -> forall c h, (forall es, expects (h es) (c * ev_wt phi es)) ->
    expects (fun tp => KR h (run_call ideal_env cfg D t alpha rg x tp)) (c * call_mean x).
  Proof.
    destruct x as [A B l i j|A B l i j]; intros Hok; cbn [run_call]; unfold call_mean.
    - destruct Hok as (HA & HB & Hi & Hj & Hl). intros c h Hh. exact (typeI_law A B l i j HA HB Hi Hj ltac:(lia) c h Hh).
    - now apply typeII_law.
  Qed.
  Lemma calls_law xs : (forall x, In x xs -> call_ok cfg D P x) -> forall c h, (forall es, expects (h es) (c * ev_wt phi es)) ->
    expects (fun tp => KR h (run_calls ideal_env cfg D t alpha rg xs tp)) (c * prodR xs call_mean).
  Proof.
    induction xs as [|x xs IH]; intros Hok c h Hh.
    - cbn [run_calls KR evs gen]. exact (Hh []).
    - rewrite prodR_cons. replace (c * (call_mean x * prodR xs call_mean)) with ((c * prodR xs call_mean) * call_mean x) by ring.
      apply (expects_ext (fun tp => KR (fun es1 tp1 => KR (fun es2 => h (es1 ++ es2)) (run_calls ideal_env cfg D t alpha rg xs tp1)) (run_call ideal_env cfg D t alpha rg x tp))).
      + intros tp. cbn [run_calls]. destruct (run_call ideal_env cfg D t alpha rg x tp) as [r1|]; [|reflexivity]. cbn [obind KR]. pose proof (@KR_bind h r1 (run_calls ideal_env cfg D t alpha rg xs (gen r1))) as KB. exact KB.
      + apply call_law; [apply Hok; now left|]. intros es1. replace (c * prodR xs call_mean * ev_wt phi es1) with (c * ev_wt phi es1 * prodR xs call_mean) by ring.
        apply IH; [intros; apply Hok; now right|]. intros es2. rewrite Rmult_assoc, <- ev_wt_app. apply Hh.
  Qed.
End Law.
