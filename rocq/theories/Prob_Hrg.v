(** The law of the edges of hypergirgs::generateEdges for positive temperature: single calls. *)
From Coq Require Import Arith NArith ZArith List Bool Reals Lra Lia Permutation.
From Coquelicot Require Import Coquelicot.
From Verif Require Import Base Sched Bits_Model Coord_Model Coord_Proofs Coord_Geo IntSort_Model IntSort_Proofs Cover Tree_Model Tree_Proofs Tree_Build Tree_Plan Tree_Run Girg_Model Girg_Proofs Girg_Num
  Prop_Girg Hyp_Model Hyp_Math Hyp_Angle Hyp_Levels Hyp_Build Hyp_Run Hyp_Filter Hyp_Sched Hyp_Threads Hyp_Gen Prop_Hyp Prob_Spec Prob Prob_Events Prob_Girg Prob_Law.
Import ListNotations.
Local Open Scope R_scope.

Definition KE (h : list event -> tape -> R) (o : option (list event * tape)) : R := match o with Some (es, tp) => h es tp | None => 0 end.
Section HLaw.
  Context {radii angles : list R} {T Rd : R} {omp_max team : nat} (HI : hrg_input radii angles Rd omp_max team).
  Hypotheses (HT : 1 / IZR (2 ^ 52) < T) (HR99 : 2 * T * ln 99 <= Rd).
  Variables (t : htree) (ord : list nat) (TS : htree_spec radii angles T Rd t ord).
  Variables (s : Z -> tape) (w : nat -> nat -> bool -> R).
  Notation rg := (tape_rng s).
  Notation n := (length radii).
  Notation DI := (use_di HI).
  Notation mk := (hmk radii angles Rd).
  Notation V := (hV radii angles Rd ord).
  Notation cok := (hcall_ok Rd t).
  Notation cpairs := (hcall_pairs radii angles Rd ord).

  Lemma T_pos : 0 < T.
  Proof. eapply Rlt_trans; [|exact HT]. apply Rdiv_lt_0_compat; [lra|]. apply IZR_lt. reflexivity. Qed.
  Lemma not_threshold : threshold_mode T = false.
  Proof. unfold threshold_mode. apply Rleb_false. exact HT. Qed.
  Lemma not_zero : is_zero T = false.
  Proof. unfold is_zero. pose proof T_pos. destruct (Req_EM_T T 0); [lra|reflexivity]. Qed.
  Definition hpe (u v : nat) : R := 1 / (1 + exp ((hyp_distance (rad radii u) (phi angles u) (rad radii v) (phi angles v) - Rd) / (2 * T))).
  Lemma hpe_range u v : 0 < hpe u v < 1.
  Proof.
    unfold hpe. set (x := exp _). assert (0 < x) by apply exp_pos. split; [apply Rdiv_lt_0_compat; lra|]. unfold Rdiv. rewrite Rmult_1_l.
    rewrite <- Rinv_1 at 2. apply Rinv_lt_contravar; lra.
  Qed.
  Lemma hpe_sym u v : hpe u v = hpe v u.
  Proof. unfold hpe. rewrite !hyp_distance_eq. unfold hc. replace (phi angles v - phi angles u) with (- (phi angles u - phi angles v)) by ring. rewrite cos_neg. now rewrite (Rmult_comm (cosh (rad radii v))), (Rmult_comm (sinh (rad radii v))). Qed.
  Lemma hmk_point u : (u < n)%nat -> mk_point u (rad radii u) (phi angles u) (pcell (mk u)) = Some (mk u).
  Proof. intros Hu. destruct (rad_ok radii angles Rd DI u Hu) as [P1 _]. unfold mk_point. destruct (Req_EM_T (rad radii u) 0); [lra|]. reflexivity. Qed.
  Lemma decide_eq F u v x : (u < n)%nat -> (v < n)%nat -> f_R F = Rd -> f_T F = T -> 0 < f_max F <= 1 -> 0 <= x < f_max F ->
    0 <= Rd + 2 * T * ln (1 / (f_max F / 100 * 99) - 1) -> filter_decide F T Rd (mk u) (mk v) x = Some (Rltb x (hpe u v)).
  Proof.
    intros Hu Hv FR FT FM Hx HL. rewrite (filter_exact F T Rd (mk u) (mk v) x T_pos FR FT FM Hx (distanceCosh_ge_1 _ _) HL). f_equal.
    destruct (rad_ok radii angles Rd DI u Hu) as [P1 _]. destruct (rad_ok radii angles Rd DI v Hv) as [P2 _].
    rewrite (distanceCosh_eq (mk u) (mk v) u v _ _ _ _ _ _ P1 P2 (hmk_point u Hu) (hmk_point v Hv)). unfold hpe. rewrite hyp_distance_eq.
    set (e := exp _). assert (0 < e) by apply exp_pos. destruct (Rltb x (1 / (1 + e))) eqn:B.
    - apply Rltb_true in B. apply Rltb_true. apply (Rmult_lt_compat_r (1 + e)) in B; [|lra]. replace (1 / (1 + e) * (1 + e)) with 1 in B by (field; lra). exact B.
    - apply Rltb_false in B. apply Rltb_false. apply (Rmult_le_compat_r (1 + e)) in B; [|lra]. replace (1 / (1 + e) * (1 + e)) with 1 in B by (field; lra). exact B.
  Qed.

  (** ** type I *)
  Lemma hdecideI_law L : (forall u v, In (u, v) L -> (u < n)%nat /\ (v < n)%nat) ->
    forall c h, (forall es, expects (h es) (c * ev_wt w es)) ->
    expects (fun tp => KE h (hdecideI t rg (map (fun ab => (mk (fst ab), mk (snd ab))) L) tp))
      (c * prodR L (fun uv => bern w (hpe (fst uv) (snd uv)) (fst uv) (snd uv))).
  Proof.
    induction L as [|[u v] L IH]; intros HR c h Hh.
    - cbn [map hdecideI KE]. exact (Hh []).
    - cbn [map fst snd]. set (p := hpe u v). assert (Hp : 0 <= p <= 1) by (pose proof (hpe_range u v); unfold p; lra).
      destruct (HR u v (or_introl eq_refl)) as [Hu Hv].
      set (TT := prodR L (fun uv => bern w (hpe (fst uv) (snd uv)) (fst uv) (snd uv))).
      apply ex_draw with (g := fun x => if Rltb x p then c * w u v true * TT else c * w u v false * TT).
      + intros x. set (b := Rltb (val x) p).
        replace (if b then c * w u v true * TT else c * w u v false * TT) with (c * w u v b * TT) by (destruct b; reflexivity).
        apply (expects_ext (fun tp => KE (fun es => h (EPair u v b :: es)) (hdecideI t rg (map (fun ab => (mk (fst ab), mk (snd ab))) L) tp))).
        { intros tp. cbn [hdecideI]. rewrite (hs_T _ _ _ _ _ _ TS), (hs_R _ _ _ _ _ _ TS), not_threshold. cbn [u01 tape_rng].
          rewrite decide_eq; auto; try (cbn [typeI_filter f_R f_T f_max]; rewrite ?(hs_R _ _ _ _ _ _ TS), ?(hs_T _ _ _ _ _ _ TS); auto; lra).
          - cbn [obind]. change (tcons x tp 0%nat) with x. fold p b. change (ttail (tcons x tp)) with tp.
            match goal with |- _ = KE h (obind ?e _) => change e with (hdecideI t rg (map (fun ab => (mk (fst ab), mk (snd ab))) L) tp) end.
            destruct (hdecideI t rg (map (fun ab => (mk (fst ab), mk (snd ab))) L) tp) as [[es g2]|]; reflexivity.
          - apply val_range.
          - cbn [typeI_filter f_max]. now apply last_stage_typeI; [apply T_pos|]. }
        apply IH; [intros; apply HR; now right|]. intros es. replace (c * w u v b * ev_wt w es) with (c * ev_wt w (EPair u v b :: es)) by (unfold ev_wt; rewrite prodR_cons; cbn [ev_wt1]; ring). apply Hh.
      + rewrite prodR_cons. cbn [fst snd]. fold TT. fold p. replace (c * (bern w p u v * TT)) with (p * (c * w u v true * TT) + (1 - p) * (c * w u v false * TT)) by (unfold bern; ring).
        now apply RInt_coin.
  Qed.
  Lemma cpairs_range A B l i j u v : In (u, v) (if (A =? B)%N && (i =? j)%nat then uptri (V i A l) else list_prod (V i A l) (V j B l)) -> (u < n)%nat /\ (v < n)%nat.
  Proof.
    destruct (_ && _); intros H; [apply uptri_In in H as [H1 H2]|apply in_prod_iff in H as [H1 H2]]; apply (hV_In _ _ _ _ _ _ TS) in H1, H2; tauto.
  Qed.
  Lemma htypeI_law A B l i j : in_lv l A -> in_lv l B -> (i < h_layers t)%nat -> (j < h_layers t)%nat -> (l <= base Rd i j)%N ->
    forall c h, (forall es, expects (h es) (c * ev_wt w es)) ->
    expects (fun tp => KR h (hsampleTypeI t rg A B l i j tp))
      (c * prodR (if (A =? B)%N && (i =? j)%nat then uptri (V i A l) else list_prod (V i A l) (V j B l)) (fun uv => bern w (hpe (fst uv) (snd uv)) (fst uv) (snd uv))).
  Proof.
    intros HA HB Hi Hj Hl c h Hh. destruct (hbase_ok radii angles T Rd DI t ord TS i j Hi Hj) as (B1 & B2 & _).
    unfold hsampleTypeI. rewrite (points_in_eq radii angles T Rd t ord TS i A l Hi ltac:(lia) HA), (points_in_eq radii angles T Rd t ord TS j B l Hj ltac:(lia) HB). cbn [obind].
    pose proof (cpairs_range A B l i j) as HR. set (same := (A =? B)%N && (i =? j)%nat) in *.
    assert (Hs : same = true -> V i A l = V j B l).
    { unfold same. intros H. apply andb_prop in H as [H1%N.eqb_eq H2%Nat.eqb_eq]. now subst. }
    set (va := V i A l) in *. set (vb := V j B l) in *.
    assert (Hp : pairsI same 0 (map mk va) (map mk vb) = map (fun ab => (mk (fst ab), mk (snd ab))) (if same then uptri va else list_prod va vb)).
    { destruct same.
      - rewrite <- (Hs eq_refl), pairsI_same. apply uptri_map.
      - rewrite pairsI_prod. apply prod_map. }
    assert (EM : (va = [] \/ vb = []) \/ (va <> [] /\ vb <> [])) by (destruct va, vb; auto; right; split; discriminate).
    destruct EM as [EM|[EM1 EM2]].
    - assert (N : (if same then uptri va else list_prod va vb) = []).
      { destruct same; [specialize (Hs eq_refl); destruct EM as [EM|EM]; [|rewrite <- Hs in EM]; rewrite EM; reflexivity|]. destruct EM as [-> | ->]; [reflexivity|apply prod_nil_r]. }
      rewrite N. apply (expects_ext (h [])); [|exact (Hh [])]. intros tp. destruct EM as [-> | ->]; [reflexivity|]. now destruct (map mk va).
    - apply (expects_ext (fun tp => KE h (hdecideI t rg (pairsI same 0 (map mk va) (map mk vb)) tp))).
      + intros tp. destruct (map mk va) as [|x xs] eqn:Ex; [destruct va; [congruence|discriminate]|]. destruct (map mk vb) as [|y ys] eqn:Ey; [destruct vb; [congruence|discriminate]|].
        match goal with |- context [hdecideI ?a ?b ?c ?d] => destruct (hdecideI a b c d) as [[es g']|] end; reflexivity.
      + rewrite Hp. apply hdecideI_law; [exact HR|exact Hh].
  Qed.

  (** ** type II *)
  Definition hblock_max (A B l : N) (i j : nat) : R :=
    match lookup_filters t i j l, cellsBetween A B l with
    | Some (f1, f2), Some cb => f_max (if (cb =? 1)%N then f1 else f2)
    | _, _ => 0
    end.
  Definition hdropped (x : call) : bool :=
    match x with
    | CallI _ _ _ _ _ => false
    | CallII A B l i j => negb (Rltb (1 / 5) (hblock_max A B l i j)) && Rltb (INR (length (V i A l) * length (V j B l)) * hblock_max A B l i j) (1 / 1000000)
    end.
  Definition hcall_q (x : call) (u v : nat) : R := if hdropped x then 0 else hpe u v.
  (** the filter of a block *)
  Lemma hblock A B l i j : cok (CallII A B l i j) -> exists F f1 f2 cb, lookup_filters t i j l = Some (f1, f2) /\ cellsBetween A B l = Some cb /\ F = (if (cb =? 1)%N then f1 else f2) /\
    hblock_max A B l i j = f_max F /\ f_R F = Rd /\ f_T F = T /\ 0 < f_max F <= 1 /\ forall u v, In u (V i A l) -> In v (V j B l) -> hpe u v <= f_max F.
  Proof.
    intros Hok. pose proof Hok as (HA & HB & Hi & Hj & Hl & Ht). destruct (nontouch_ring radii angles T Rd DI t ord TS A B l i j Hok) as (Hr & Hl2 & HAB).
    destruct (hbase_ok radii angles T Rd DI t ord TS i j Hi Hj) as (B1 & B2 & B3 & B4).
    pose proof (fun u v f1 f2 cb => envelope_bound radii angles T Rd DI t ord TS A B l i j u v f1 f2 cb T_pos Hok) as ENV.
    assert (LK : exists f1 f2, lookup_filters t i j l = Some (f1, f2) /\ good_filter f1 /\ good_filter f2 /\ f_R f1 = Rd /\ f_R f2 = Rd /\ f_T f1 = T /\ f_T f2 = T).
    { unfold lookup_filters. rewrite B4. rewrite (proj2 (N.leb_le 2 l)) by lia. rewrite (proj2 (N.leb_le l _) Hl). cbn [andb].
      rewrite (hs_T _ _ _ _ _ _ TS), (hs_R _ _ _ _ _ _ TS), (typeII_filters_eq T Rd i j l Hl2). do 2 eexists. split; [reflexivity|]. split; [apply rec_good|]. split; [apply rec_good|]. auto. }
    destruct LK as (f1 & f2 & LK & G1 & G2 & R1 & R2 & T1 & T2). pose proof (cellsBetween_eq l A B ltac:(lia) HA HB) as CB.
    set (cb := (ring l A B - 1)%N) in *. exists (if (cb =? 1)%N then f1 else f2), f1, f2, cb. split; [exact LK|]. split; [exact CB|]. split; [reflexivity|].
    split; [unfold hblock_max; now rewrite LK, CB|]. split; [destruct (cb =? 1)%N; assumption|]. split; [destruct (cb =? 1)%N; assumption|]. split; [destruct (cb =? 1)%N; assumption|].
    intros u v Hu Hv. specialize (ENV u v f1 f2 cb Hu Hv LK CB). rewrite rec_eq in ENV by (pose proof T_pos; lra). exact ENV.
  Qed.
  Lemma htypeII_law A B l i j : cok (CallII A B l i j) ->
    forall c h, (forall es, expects (h es) (c * ev_wt w es)) ->
    expects (fun tp => KR h (hsampleTypeII t rg A B l i j tp))
      (c * prodR (list_prod (V i A l) (V j B l)) (fun uv => bern w (hcall_q (CallII A B l i j) (fst uv) (snd uv)) (fst uv) (snd uv))).
  Proof.
    intros Hok c h Hh. destruct (hblock A B l i j Hok) as (F & f1 & f2 & cb & LK & CB & EF & BM & FR & FT & FM & ENV).
    destruct (nontouch_ring radii angles T Rd DI t ord TS A B l i j Hok) as (Hr & Hl2 & HAB). pose proof Hok as (HA & HB & Hi & Hj & Hl & Ht).
    destruct (hbase_ok radii angles T Rd DI t ord TS i j Hi Hj) as (B1 & B2 & B3 & B4).
    pose proof (htypeI_law A B l i j HA HB Hi Hj Hl c h Hh) as TI.
    assert (Hs : (A =? B)%N && (i =? j)%nat = false) by (destruct (N.eqb_spec A B); [contradiction|reflexivity]). rewrite Hs in TI.
    unfold hcall_q. cbn [hdropped]. rewrite BM. unfold hsampleTypeII. rewrite (points_in_eq radii angles T Rd t ord TS i A l Hi ltac:(lia) HA), (points_in_eq radii angles T Rd t ord TS j B l Hj ltac:(lia) HB). cbn [obind].
    assert (HR1 : forall u, In u (V i A l) -> (u < n)%nat) by (intros u Hu; apply (hV_In _ _ _ _ _ _ TS) in Hu; exact (proj1 Hu)).
    assert (HR2 : forall u, In u (V j B l) -> (u < n)%nat) by (intros u Hu; apply (hV_In _ _ _ _ _ _ TS) in Hu; exact (proj1 Hu)).
    assert (N1 : NoDup (V i A l)) by exact (hV_NoDup radii angles T Rd t ord TS _ _ _). assert (N2 : NoDup (V j B l)) by exact (hV_NoDup radii angles T Rd t ord TS _ _ _).
    assert (L1 := hV_length radii angles T Rd t ord TS i A l). assert (L2 := hV_length radii angles T Rd t ord TS j B l).
    assert (Hnum : (N.of_nat (length (V i A l) * length (V j B l)) + 1 < 2 ^ 62)%N).
    { assert (Hn' := hi_n31 _ _ _ _ _ HI). change (2 ^ 31)%N with 2147483648%N in Hn'. change (2 ^ 62)%N with (2147483648 * 2147483648)%N. rewrite Nat2N.inj_mul.
      assert (N.of_nat (length (V i A l)) * N.of_nat (length (V j B l)) <= 2147483647 * 2147483647)%N by (apply N.mul_le_mono; lia). lia. }
    set (va := V i A l) in *. set (vb := V j B l) in *. rewrite (hs_T _ _ _ _ _ _ TS), (hs_R _ _ _ _ _ _ TS), not_zero, LK, CB, !map_length, !map_pid. cbn [orb obind]. rewrite <- EF.
    assert (EM : (va = [] \/ vb = []) \/ (va <> [] /\ vb <> [])) by (destruct va, vb; auto; right; split; discriminate).
    assert (NONE : forall q, (forall u v, In (u, v) (list_prod va vb) -> q u v = 0) -> expects (h [EBlock va vb []]) (c * prodR (list_prod va vb) (fun uv => bern w (q (fst uv) (snd uv)) (fst uv) (snd uv)))).
    { intros q Hq. replace (prodR (list_prod va vb) _) with (ev_wt w [EBlock va vb []]); [apply Hh|]. unfold ev_wt. rewrite prodR_cons. cbn [ev_wt1]. unfold prodR at 2. cbn [fold_right]. rewrite Rmult_1_r.
      apply prodR_ext. intros [u v] I. unfold bern. cbn [fst snd memb existsb]. rewrite (Hq u v I). ring. }
    destruct EM as [EM|[EM1 EM2]].
    { assert (N : list_prod va vb = []) by (destruct EM as [-> | ->]; [reflexivity|apply prod_nil_r]).
      apply (expects_ext (h [EBlock va vb []])).
      - intros tp. destruct EM as [-> | ->]; cbn [length Nat.eqb]; rewrite ?orb_true_r; reflexivity.
      - rewrite N. specialize (NONE (fun _ _ => 0)). rewrite N in NONE. apply NONE. reflexivity. }
    assert (ME : (length va =? 0)%nat || (length vb =? 0)%nat = false) by (destruct va; [congruence|]; destruct vb; [congruence|]; reflexivity).
    rewrite ME. set (p := f_max F) in *.
    destruct (Rltb (1 / 5) p) eqn:P5; cbn [negb andb]; [exact TI|].
    apply Rltb_false in P5. destruct (Rltb (INR (length va * length vb) * p) (1 / 1000000)) eqn:P6.
    { exact (NONE (fun _ _ => 0) (fun _ _ _ => eq_refl)). }
    assert (Pp : 0 < p) by apply FM.
    set (loop := fun fuel r g => hskip_loop T Rd F rg (map mk va) (map mk vb) fuel r g).
    pose proof (block_law p va vb hpe w loop) as BL. eapply expects_ext; [|apply (BL ltac:(lra) Hnum N1 N2)].
    - intros tp. cbn [geo tape_rng]. unfold KR, K. fold (loop (length va * length vb)%nat (geo_of p (val (tp 0%nat))) (ttail tp)).
      destruct (loop (length va * length vb)%nat (geo_of p (val (tp 0%nat))) (ttail tp)) as [[hits tp']|]; cbn [obind]; [|reflexivity]. cbn [evs gen].
      instantiate (1 := fun hits => h [EBlock va vb hits]). reflexivity.
    - intros u v Hu Hv. pose proof (hpe_range u v). specialize (ENV u v Hu Hv). lra.
    - intros fuel r g Hr2. unfold loop. destruct fuel; cbn [hskip_loop]; rewrite !map_length; rewrite (proj2 (N.leb_le _ _) Hr2); reflexivity.
    - intros fuel q g Hq. unfold loop at 1. cbn [hskip_loop]. rewrite !map_length. destruct (N.leb_spec (N.of_nat (length va * length vb)) (N.of_nat q)) as [L|L]; [lia|].
      assert (La : length va <> 0%nat) by (destruct va; [congruence|discriminate]).
      assert (Q1 : (q mod length va < length va)%nat) by now apply Nat.mod_upper_bound. assert (Q2 : (q / length va < length vb)%nat) by (apply Nat.div_lt_upper_bound; lia).
      rewrite <- Nat2N.inj_mod, <- Nat2N.inj_div, !Nat2N.id by lia.
      rewrite (map_nth_error mk _ _ (nth_error_nth' va 0%nat Q1)), (map_nth_error mk _ _ (nth_error_nth' vb 0%nat Q2)). cbn [obind uni0 geo tape_rng].
      set (u := nth (q mod length va) va 0%nat). set (v := nth (q / length va) vb 0%nat).
      assert (Iu : In u va) by now apply nth_In. assert (Iv : In v vb) by now apply nth_In.
      rewrite decide_eq; auto.
      + fold p. pose proof (val_range (g 0%nat)). split; [apply Rmult_le_pos; lra|nra].
      + apply last_stage_typeII; [apply T_pos|pose proof (hi_R _ _ _ _ _ HI); lra|]. fold p. lra.
    - intros hits. replace (ev_wt1 w (EBlock va vb hits)) with (ev_wt w [EBlock va vb hits]); [apply Hh|]. unfold ev_wt. rewrite prodR_cons. unfold prodR. cbn [fold_right]. ring.
  Qed.
  Definition hcall_mean (x : call) : R := prodR (cpairs x) (fun uv => bern w (hcall_q x (fst uv) (snd uv)) (fst uv) (snd uv)).
  Lemma hcall_law x : cok x -> forall c h, (forall es, expects (h es) (c * ev_wt w es)) -> expects (fun tp => KR h (hrun_call t rg x tp)) (c * hcall_mean x).
  Proof.
    destruct x as [A B l i j|A B l i j]; intros Hok; cbn [hrun_call]; unfold hcall_mean.
    - destruct Hok as (HA & HB & Hi & Hj & Hl). intros c h Hh. exact (htypeI_law A B l i j HA HB Hi Hj ltac:(lia) c h Hh).
    - now apply htypeII_law.
  Qed.
  Lemma hcalls_law xs : (forall x, In x xs -> cok x) -> forall c h, (forall es, expects (h es) (c * ev_wt w es)) ->
    expects (fun tp => KR h (hrun_calls t rg xs tp)) (c * prodR xs hcall_mean).
  Proof.
    induction xs as [|x xs IH]; intros Hok c h Hh.
    - cbn [hrun_calls KR evs gen]. exact (Hh []).
    - rewrite prodR_cons. replace (c * (hcall_mean x * prodR xs hcall_mean)) with ((c * prodR xs hcall_mean) * hcall_mean x) by ring.
      apply (expects_ext (fun tp => KR (fun es1 tp1 => KR (fun es2 => h (es1 ++ es2)) (hrun_calls t rg xs tp1)) (hrun_call t rg x tp))).
      + intros tp. cbn [hrun_calls]. destruct (hrun_call t rg x tp) as [r1|]; [|reflexivity]. cbn [obind KR]. pose proof (@KR_bind h r1 (hrun_calls t rg xs (gen r1))) as KB. exact KB.
      + apply hcall_law; [apply Hok; now left|]. intros es1. replace (c * prodR xs hcall_mean * ev_wt w es1) with (c * ev_wt w es1 * prodR xs hcall_mean) by ring.
        apply IH; [intros; apply Hok; now right|]. intros es2. rewrite Rmult_assoc, <- ev_wt_app. apply Hh.
  Qed.
End HLaw.
