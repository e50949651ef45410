(** How many random numbers hypergirgs::generateEdges draws for positive temperature: the expected value for given points. *)
From Coq Require Import Arith NArith ZArith List Bool Reals Lra Lia Permutation.
From Coquelicot Require Import Coquelicot.
From Verif Require Import Base Sched Bits_Model Coord_Model Coord_Proofs Coord_Geo IntSort_Model IntSort_Proofs Cover Tree_Model Tree_Proofs Tree_Build Tree_Plan Tree_Run Girg_Model Girg_Proofs Girg_Num
  Prop_Girg Hyp_Model Hyp_Math Hyp_Angle Hyp_Levels Hyp_Build Hyp_Run Hyp_Filter Hyp_Sched Hyp_Threads Hyp_Gen Prop_Hyp Prob_Spec Prob Prob_Events Prob_Girg Prob_Law Prob_Hrg Prob_HrgLaw Draws_Law.
Import ListNotations.
Local Open Scope R_scope.

(** an engine with a counter of the random numbers it has handed out to the distributions *)
Definition hcounted (hg : hrng) : hrng :=
  {| hb := counted (hb hg);
     draw_u32 := fun g => (fst (draw_u32 hg (fst g)), (snd (draw_u32 hg (fst g)), snd g));
     seed_seq := fun l => (seed_seq hg l, 0%nat) |}.

(** ** engines that simulate each other *)
Section Hom.
  Variables (r1 r2 : rng) (f : G r1 -> G r2).
  Hypotheses (f_u01 : forall g, u01 r2 (f g) = (fst (u01 r1 g), f (snd (u01 r1 g)))) (f_uni : forall p g, uni0 r2 p (f g) = (fst (uni0 r1 p g), f (snd (uni0 r1 p g))))
    (f_geo : forall p g, geo r2 p (f g) = (fst (geo r1 p g), f (snd (geo r1 p g)))).
  Variable t : htree.
  Definition rmap (r : result (G r1)) : result (G r2) := {| evs := evs r; type1 := type1 r; type2 := type2 r; gen := f (gen r) |}.
  Definition omapr (o : option (result (G r1))) : option (result (G r2)) := match o with Some r => Some (rmap r) | None => None end.
  Definition omapp {X} (o : option (X * G r1)) : option (X * G r2) := match o with Some (x, g) => Some (x, f g) | None => None end.
  Lemma decideI_hom ps : forall g, hdecideI t r2 ps (f g) = omapp (hdecideI t r1 ps g).
  Proof.
    induction ps as [|[a b] ps IH]; intros g; [reflexivity|]. cbn [hdecideI]. rewrite f_u01. destruct (u01 r1 g) as [x g']. cbn [fst snd]. destruct (threshold_mode (h_T t)); cbn [obind].
    - rewrite IH. destruct (hdecideI t r1 ps g) as [[es tp']|]; reflexivity.
    - destruct (filter_decide _ _ _ _ _ _) as [hit|]; [|reflexivity]. cbn [obind]. rewrite IH. destruct (hdecideI t r1 ps g') as [[es tp']|]; reflexivity.
  Qed.
  Lemma skip_hom T Rd F ra rb fuel : forall r g, hskip_loop T Rd F r2 ra rb fuel r (f g) = omapp (hskip_loop T Rd F r1 ra rb fuel r g).
  Proof.
    induction fuel as [|fl IH]; intros r g; cbn [hskip_loop]; destruct (_ <=? _)%N; try reflexivity.
    destruct (nth_error ra _); [|reflexivity]. cbn [obind]. destruct (nth_error rb _); [|reflexivity]. cbn [obind]. rewrite f_uni. destruct (uni0 r1 (f_max F) g) as [x g1]. cbn [fst snd].
    destruct (filter_decide _ _ _ _ _ _) as [hit|]; [|reflexivity]. cbn [obind]. rewrite f_geo. destruct (geo r1 (f_max F) g1) as [k g2]. cbn [fst snd]. rewrite IH.
    match goal with |- context [hskip_loop T Rd F r1 ra rb fl ?x ?y] => destruct (hskip_loop T Rd F r1 ra rb fl x y) as [[es tp']|] end; reflexivity.
  Qed.
  Lemma typeI_hom A B l i j g : hsampleTypeI t r2 A B l i j (f g) = omapr (hsampleTypeI t r1 A B l i j g).
  Proof.
    unfold hsampleTypeI. destruct (points_in t i A l) as [ra|]; [|reflexivity]. cbn [obind]. destruct (points_in t j B l) as [rb|]; [|reflexivity]. cbn [obind].
    destruct ra as [|x ra]; [reflexivity|]. destruct rb as [|y rb]; [reflexivity|]. rewrite decideI_hom. match goal with |- context [hdecideI t r1 ?x ?y] => destruct (hdecideI t r1 x y) as [[es tp']|] end; reflexivity.
  Qed.
  Lemma typeII_hom A B l i j g : hsampleTypeII t r2 A B l i j (f g) = omapr (hsampleTypeII t r1 A B l i j g).
  Proof.
    unfold hsampleTypeII. destruct (points_in t i A l) as [ra|]; [|reflexivity]. cbn [obind]. destruct (points_in t j B l) as [rb|]; [|reflexivity]. cbn [obind].
    destruct (_ || _ || _); [reflexivity|]. destruct (lookup_filters t i j l) as [[f1 f2]|]; [|reflexivity]. cbn [obind]. destruct (cellsBetween A B l) as [cb|]; [|reflexivity]. cbn [obind].
    rewrite typeI_hom. destruct (Rltb _ _); [reflexivity|]. destruct (Rltb _ _); [reflexivity|]. rewrite f_geo. match goal with |- context [geo r1 ?p g] => destruct (geo r1 p g) as [k g1] end. cbn [fst snd]. rewrite skip_hom.
    match goal with |- context [hskip_loop ?T ?Rd ?F r1 ?ra ?rb ?f ?x ?y] => destruct (hskip_loop T Rd F r1 ra rb f x y) as [[es tp']|] end; reflexivity.
  Qed.
  Lemma calls_hom xs : forall g, hrun_calls t r2 xs (f g) = omapr (hrun_calls t r1 xs g).
  Proof.
    induction xs as [|x xs IH]; intros g; [reflexivity|]. cbn [hrun_calls].
    assert (C : hrun_call t r2 x (f g) = omapr (hrun_call t r1 x g)) by (destruct x; [apply typeI_hom|apply typeII_hom]).
    rewrite C. destruct (hrun_call t r1 x g) as [r|]; [|reflexivity]. cbn [obind omapr gen rmap]. rewrite IH. destruct (hrun_calls t r1 xs (gen r)); reflexivity.
  Qed.
End Hom.
Lemma omap_rmap {A B C} (h : B -> C) (g : A -> option B) L : omap (fun x => match g x with Some y => Some (h y) | None => None end) L = match omap g L with Some ys => Some (map h ys) | None => None end.
Proof. induction L as [|x L IH]; [reflexivity|]. cbn [omap]. rewrite IH. destruct (g x); [|reflexivity]. cbn [obind]. destruct (omap g L); reflexivity. Qed.

(** what generate does with the generators: the same in every schedule *)
Section RunsHom.
  Context {radii angles : list R} {T Rd : R} {omp_max team : nat} (HI : hrg_input radii angles Rd omp_max team).
  Hypotheses (HT : 1 / IZR (2 ^ 52) < T).
  Variables (t : htree) (ord : list nat) (TS : htree_spec radii angles T Rd t ord).
  Variables (nd : bool) (part : list (N * N) -> list (N * N)) (HP : is_partition task_eq part).
  Notation DI := (use_di HI).
  Notation plan0 := (hplan Rd t (N.to_nat (h_levels t - 1)) 0%N 0%N 0%N).
  Definition run_all (rg : rng) (start : nat -> G rg) (calls : list (list call)) : option (list (result (G rg))) :=
    omap (fun ic => hrun_calls t rg (snd ic) (start (fst ic))) (combine (seq 0 (length calls)) calls).
  Lemma gen_hom seed : returns Rd omp_max team ->
    exists calls, Permutation (concat calls) plan0 /\ (1 <= length calls <= 15 * omp_max)%nat /\
    forall (rg : rng) (hr : hrng) (f : G rg -> G (hb hr)) (start : nat -> G rg),
      (forall g, u01 (hb hr) (f g) = (fst (u01 rg g), f (snd (u01 rg g)))) -> (forall p g, uni0 (hb hr) p (f g) = (fst (uni0 rg p g), f (snd (uni0 rg p g)))) ->
      (forall p g, geo (hb hr) p (f g) = (fst (geo rg p g), f (snd (geo rg p g)))) -> good_rng (hb hr) -> good_rng rg ->
      (forall z, rseed (hb hr) z = f (start 0%nat)) -> (forall m z, initialize_prngs hr m z = map (fun i => f (start i)) (seq 0 m)) ->
      forall ors, generate_outcome nd part t hr seed omp_max team ors ->
      exists rss rs, ors = Some rss /\ run_all rg start calls = Some rs /\ Permutation (concat rss) (map (rmap rg (hb hr) f) rs).
  Proof.
    intros HRet. destruct (omp_nat _ (hi_omp _ _ _ _ _ HI)) as [O1 O2].
    pose proof (proj2 (use_finishing HI T t ord TS) HRet) as HF. destruct HF as [[E1 _]|(N2 & E2 & fpl & Ef & HL)].
    - exists [plan0]. cbn [concat length]. rewrite app_nil_r. split; [reflexivity|]. split; [lia|]. intros rg hr f start H1 H2 H3 G2 G1 HS0 _ ors (z & Hz & Ho).
      pose proof (levels_pos radii angles T Rd t ord TS) as LP0.
      rewrite E1 in Ho. cbn [Nat.eqb] in Ho. rewrite (hvisit_eq radii angles T Rd DI t ord TS nd (N.to_nat (h_levels t - 1))) in Ho; try exact root_lv; try lia.
      rewrite (keep_id HT) in Ho. cbn [obind] in Ho. rewrite HS0, (calls_hom rg (hb hr) f H1 H2 H3) in Ho.
      destruct (hcalls_decided radii angles T Rd DI t ord TS rg G1 plan0 ltac:(apply (hplan0_ok radii angles T Rd DI t ord TS)) (start 0%nat)) as (r & Er & _).
      rewrite Er in Ho. cbn [omapr obind] in Ho. exists [[rmap rg (hb hr) f r]], [r]. split; [exact Ho|]. split; [|reflexivity].
      unfold run_all. cbn [length seq combine omap fst snd]. rewrite Er. reflexivity.
    - destruct (fpl_defined omp_max ltac:(lia)) as (f0 & Ef' & Hf & F1 & F2). rewrite Ef in Ef'. injection Ef' as <-. destruct (num_tasks_defined fpl Hf) as (ntask & Ek).
      pose proof (created_eq radii angles T Rd DI t ord TS fpl ltac:(lia) HL) as Ec.
      set (sp := hseqplan Rd t fpl (N.to_nat (h_levels t - 1)) 0%N 0%N 0%N) in *. set (tasks := part (snd sp)) in *.
      assert (PT : Permutation tasks (snd sp)) by apply HP.
      assert (LT : length tasks = N.to_nat ntask).
      { rewrite (Permutation_length PT). destruct (task_count fpl ntask ltac:(lia) Ek) as (ts & E & L). rewrite Ec in E. injection E as E. rewrite E. lia. }
      set (samples := map (fun tid => fst (my_calls (omp_max - 1) tid (fst sp))) (seq 0 (omp_max - 1))).
      set (works := map (fun ab => hplan Rd t (N.to_nat (h_levels t - 1 - fpl)) (fst ab) (snd ab) fpl) tasks).
      assert (Ls : length samples = (omp_max - 1)%nat) by (unfold samples; now rewrite map_length, seq_length).
      assert (Lw : length works = N.to_nat ntask) by (unfold works; now rewrite map_length).
      assert (PC : Permutation (concat (samples ++ works)) plan0).
      { rewrite concat_app. pose proof (hphases Rd t fpl HL ltac:(lia)) as PH. fold sp in PH. rewrite PH. apply Permutation_app.
        - unfold samples. rewrite <- flat_map_concat_map. apply round_robin; [lia|reflexivity].
        - unfold works. rewrite <- flat_map_concat_map. now apply Permutation_flat_map. }
      exists (samples ++ works). split; [exact PC|]. rewrite app_length, Ls, Lw. split.
      { split; [lia|]. assert (NT : (ntask <= 14 * N.of_nat omp_max)%N); [|lia].
        assert (P2 : (2 ^ fpl <= 4 * N.of_nat omp_max)%N).
        { assert (Pf : (2 ^ fpl = 2 * 2 ^ (fpl - 1))%N) by (replace fpl with (1 + (fpl - 1))%N at 1 by lia; rewrite N.pow_add_r; reflexivity).
          assert (Q : (pow2R (fpl - 1) < INR (2 * omp_max))%R).
          { replace (fpl - 1)%N with (N.of_nat (N.to_nat (fpl - 1))) by lia. rewrite pow2R_nat. apply log2R_pow_iff; [apply lt_0_INR; lia|].
            rewrite INR_IZR_INZ. replace (Z.of_nat (N.to_nat (fpl - 1))) with (Z.of_N fpl - 1)%Z by lia. rewrite minus_IZR. lra. }
          unfold pow2R in Q. rewrite INR_IZR_INZ in Q. apply lt_IZR in Q. lia. }
        unfold num_tasks in Ek. destruct (N.eqb_spec fpl 2); [injection Ek as <-; lia|]. destruct (N.eqb_spec fpl 0); [discriminate|]. destruct (_ <? _)%N; [|discriminate]. assert (Ek' : ntask = (2 * 2 ^ fpl + 3 * 2 ^ (fpl - 1))%N) by congruence.
        assert (Pf : (2 ^ fpl = 2 * 2 ^ (fpl - 1))%N) by (replace fpl with (1 + (fpl - 1))%N at 1 by lia; rewrite N.pow_add_r; reflexivity).
        clear - Ek' Pf P2. revert Ek' Pf P2. generalize (2 ^ fpl)%N as a, (2 ^ (fpl - 1))%N as b. intros a b Ek' Pf P2. lia. }
      intros rg hr f start H1 H2 H3 G2 G1 HS0 HIP ors (z & Hz & Ho). destruct (Nat.eqb_spec omp_max 1) as [|_]; [lia|]. rewrite Ef in Ho. cbn [obind] in Ho. rewrite Ek in Ho. cbn [obind] in Ho.
      rewrite Ec in Ho. rewrite (proj2 (N.ltb_lt _ _) HL) in Ho. rewrite E2 in Ho. destruct Ho as (k & m & fin & HS & HF & Ho). fold tasks in HS, Ho.
      set (gens := initialize_prngs hr (omp_max - 1 + N.to_nat ntask) z) in *.
      assert (Lg : length gens = (omp_max - 1 + N.to_nat ntask)%nat) by apply prngs_len.
      destruct (par_run radii angles T Rd DI t ord TS hr G2 nd part HP omp_max fpl ntask N2 ltac:(lia) HL Ek gens Lg k m fin HS HF) as (rss & Q1 & Q2 & _ & us & U1 & U2).
      fold sp tasks in Q1, U1, U2. rewrite Q1 in Ho. set (units := map USample (seq 0 (omp_max - 1)) ++ map UTask (seq 0 (length tasks))) in *.
      assert (EU : omap (unit_result nd t hr fpl omp_max tasks gens) units =
        omap (fun ic => do g <- nth_error gens (fst ic); hrun_calls t (hb hr) (snd ic) g) (combine (seq 0 (length (samples ++ works))) (samples ++ works))).
      { rewrite app_length, Ls, Lw, seq_app. unfold units. rewrite omap_app'.
        assert (CA : forall (A B : Type) (a1 a2 : list A) (b1 b2 : list B), length a1 = length b1 -> combine (a1 ++ a2) (b1 ++ b2) = combine a1 b1 ++ combine a2 b2).
        { intros A B a1. induction a1 as [|x a1 IH]; intros a2 b1 b2 E; destruct b1 as [|y b1]; try discriminate; [reflexivity|]. cbn [app combine]. f_equal. apply IH. now injection E. }
        rewrite CA by (now rewrite seq_length, Ls). rewrite omap_app'.
        assert (CM : forall (B : Type) (f : nat -> B) a l, combine (seq a l) (map f (seq 0 l)) = map (fun i => (a + i, f i)%nat) (seq 0 l)).
        { intros B fB a l. assert (G : forall c, combine (seq (a + c) l) (map fB (seq c l)) = map (fun i => (a + i, fB i)%nat) (seq c l)); [|specialize (G 0%nat); now rewrite Nat.add_0_r in G].
          induction l as [|l IH]; intros c; [reflexivity|]. cbn [seq map combine]. f_equal. specialize (IH (S c)). rewrite Nat.add_succ_r in IH. exact IH. }
        assert (E3 : omap (unit_result nd t hr fpl omp_max tasks gens) (map USample (seq 0 (omp_max - 1))) =
          omap (fun ic => do g <- nth_error gens (fst ic); hrun_calls t (hb hr) (snd ic) g) (combine (seq 0 (omp_max - 1)) samples)).
        { unfold samples. rewrite CM, !omap_map. apply omap_ext_in. intros tid Hin. apply in_seq in Hin. cbn [unit_result fst snd].
          rewrite (hsample_eq radii angles T Rd DI t ord TS fpl (omp_max - 1) HL (N.to_nat (h_levels t - 1)) (N.to_nat fpl) 0%N 0%N 0%N tid); try exact root_lv; try lia.
          fold sp. destruct (my_calls (omp_max - 1) tid (fst sp)) as [cs s']. reflexivity. }
        assert (E4 : omap (unit_result nd t hr fpl omp_max tasks gens) (map UTask (seq 0 (length tasks))) =
          omap (fun ic => do g <- nth_error gens (fst ic); hrun_calls t (hb hr) (snd ic) g) (combine (seq (0 + (omp_max - 1)) (N.to_nat ntask)) works)).
        { assert (EW : works = map (fun i => match nth_error tasks i with Some ab => hplan Rd t (N.to_nat (h_levels t - 1 - fpl)) (fst ab) (snd ab) fpl | None => [] end) (seq 0 (N.to_nat ntask))).
          { unfold works. rewrite <- LT. clear. induction tasks as [|a l IH]; [reflexivity|]. cbn [length seq map nth_error]. f_equal. rewrite IH, <- seq_shift, map_map. reflexivity. }
          rewrite EW, CM, LT, !omap_map. apply omap_ext_in. intros i Hin. apply in_seq in Hin. cbn [unit_result fst snd].
          destruct (nth_error tasks i) as [ab|] eqn:Ea; [|apply nth_error_None in Ea; lia]. cbn [obind].
          pose proof (nth_error_In _ _ Ea) as Hab. apply (Permutation_in _ PT) in Hab as Hab'.
          destruct (tasks_lv radii angles T Rd DI t ord TS fpl HL (N.to_nat (h_levels t - 1)) 0%N 0%N 0%N ltac:(lia) root_lv root_lv ab Hab') as [HA HB].
          rewrite (hvisit_eq radii angles T Rd DI t ord TS nd (N.to_nat (h_levels t - 1 - fpl))); auto; try lia. rewrite (keep_id HT). reflexivity. }
        now rewrite E3, E4. }
      assert (LTH : omap (fun ic => do g <- nth_error gens (fst ic); hrun_calls t (hb hr) (snd ic) g) (combine (seq 0 (length (samples ++ works))) (samples ++ works)) =
        match run_all rg start (samples ++ works) with Some rs => Some (map (rmap rg (hb hr) f) rs) | None => None end).
      { unfold run_all. rewrite <- omap_rmap. apply omap_ext_in. intros [i cs] Hin. cbn [fst snd]. apply in_combine_l, in_seq in Hin. rewrite app_length, Ls, Lw in Hin. unfold gens. rewrite HIP.
        rewrite (map_nth_error _ i (seq 0 (omp_max - 1 + N.to_nat ntask)) (d := i)) by (rewrite nth_error_nth' with (d := 0%nat) by (rewrite seq_length; lia); now rewrite seq_nth by lia).
        cbn [obind]. apply (calls_hom rg (hb hr) f H1 H2 H3). }
      assert (EU' := eq_trans EU LTH).
      assert (Hok : forall x, In x (concat (samples ++ works)) -> hcall_ok Rd t x).
      { intros x Hx. apply (Permutation_in _ PC) in Hx. revert Hx. apply (hplan0_ok radii angles T Rd DI t ord TS). }
      assert (TOT : exists rs, run_all rg start (samples ++ works) = Some rs).
      { unfold run_all. assert (TT : forall L j, (forall cs, In cs L -> forall x, In x cs -> hcall_ok Rd t x) -> exists rs, omap (fun ic => hrun_calls t rg (snd ic) (start (fst ic))) (combine (seq j (length L)) L) = Some rs).
        { induction L as [|cs L IH]; intros j Hc; [now exists []|]. cbn [length seq combine omap fst snd].
          destruct (hcalls_decided radii angles T Rd DI t ord TS rg G1 cs (Hc cs (or_introl eq_refl)) (start j)) as (r & Er & _). rewrite Er. cbn [obind].
          destruct (IH (S j) (fun c Ic => Hc c (or_intror Ic))) as (rs & Ers). rewrite Ers. cbn [obind]. eauto. }
        apply TT. intros cs Hc x Hx. apply Hok. apply in_concat. eauto. }
      destruct TOT as (rs & ER).
      rewrite ER in EU'. exists rss, rs. split; [exact Ho|]. split; [exact ER|]. eapply omap_perm; [exact U1|exact U2|exact EU'].
  Qed.
End RunsHom.

(** ** the number of draws of the calls *)
Definition KP {X} (h : nat -> tape -> R) (o : option (X * (tape * nat))) : R := match o with Some (_, g) => h (snd g) (fst g) | None => 0 end.
Section Count.
  Context {radii angles : list R} {T Rd : R} {omp_max team : nat} (HI : hrg_input radii angles Rd omp_max team).
  Hypotheses (HT : 1 / IZR (2 ^ 52) < T) (HR99 : 2 * T * ln 99 <= Rd).
  Variables (t : htree) (ord : list nat) (TS : htree_spec radii angles T Rd t ord).
  Variables (s : Z -> tape).
  Notation rg := (counted (tape_rng s)).
  Notation n := (length radii).
  Notation DI := (use_di HI).
  Notation mk := (hmk radii angles Rd).
  Notation V := (hV radii angles Rd ord).
  Notation cok := (hcall_ok Rd t).
  Notation hpe := (@hpe radii angles T Rd).
  Notation hblock_max := (hblock_max t).
  Notation T_pos := (T_pos HT).
  Notation pairsH A B l i j := (if (A =? B)%N && (i =? j)%nat then uptri (V i A l) else list_prod (V i A l) (V j B l)).

  Lemma hdecideI_count L : (forall u v, In (u, v) L -> (u < n)%nat /\ (v < n)%nat) -> forall v h k0, (forall k, expects (h k) (v + INR k)) ->
    expects (fun tp => KP h (hdecideI t rg (map (fun ab => (mk (fst ab), mk (snd ab))) L) (tp, k0))) (v + INR k0 + INR (length L)).
  Proof.
    induction L as [|[x y] L IH]; intros HR v h k0 Hh.
    - cbn [map hdecideI KP length INR fst snd]. rewrite Rplus_0_r. exact (Hh k0).
    - destruct (HR x y (or_introl eq_refl)) as [Hu Hv].
      apply ex_draw with (g := fun _ => v + INR k0 + INR (length ((x, y) :: L))); [|apply RInt_const01]. intros u.
      apply (expects_ext (fun tp => KP h (hdecideI t rg (map (fun ab => (mk (fst ab), mk (snd ab))) L) (tp, S k0)))).
      { intros tp. cbn [map fst snd]. cbn [hdecideI]. rewrite (hs_T _ _ _ _ _ _ TS), (hs_R _ _ _ _ _ _ TS), (not_threshold HT). cbn [u01 tape_rng counted fst snd].
        rewrite (decide_eq HI HT); auto; try (cbn [typeI_filter f_R f_T f_max]; rewrite ?(hs_R _ _ _ _ _ _ TS), ?(hs_T _ _ _ _ _ _ TS); auto; lra).
        - cbn [obind]. change (ttail (tcons u tp)) with tp.
          match goal with |- _ = KP h (obind ?e _) => change e with (hdecideI t rg (map (fun ab => (mk (fst ab), mk (snd ab))) L) (tp, S k0)) end.
          destruct (hdecideI t rg (map (fun ab => (mk (fst ab), mk (snd ab))) L) (tp, S k0)) as [[es g2]|]; reflexivity.
        - apply val_range.
        - cbn [typeI_filter f_max]. apply last_stage_typeI; [apply T_pos|exact HR99]. }
      replace (v + INR k0 + INR (length ((x, y) :: L))) with (v + INR (S k0) + INR (length L)) by (cbn [length]; rewrite !S_INR; ring). apply IH; [intros; apply HR; now right|exact Hh].
  Qed.
  Lemma htypeI_count A B l i j : in_lv l A -> in_lv l B -> (i < h_layers t)%nat -> (j < h_layers t)%nat -> (l <= base Rd i j)%N ->
    forall v h k0, (forall k, expects (h k) (v + INR k)) ->
    expects (fun tp => KC h (hsampleTypeI t rg A B l i j (tp, k0))) (v + INR k0 + INR (length (pairsH A B l i j))).
  Proof.
    intros HA HB Hi Hj Hl v h k0 Hh. destruct (hbase_ok radii angles T Rd DI t ord TS i j Hi Hj) as (B1 & B2 & _).
    unfold hsampleTypeI. rewrite (points_in_eq radii angles T Rd t ord TS i A l Hi ltac:(lia) HA), (points_in_eq radii angles T Rd t ord TS j B l Hj ltac:(lia) HB). cbn [obind].
    pose proof (cpairs_range (Rd := Rd) (omp_max := omp_max) t ord TS (fun _ _ _ => 0) A B l i j) as HR. set (same := (A =? B)%N && (i =? j)%nat) in *.
    assert (Hs : same = true -> V i A l = V j B l).
    { unfold same. intros H. apply andb_prop in H as [H1%N.eqb_eq H2%Nat.eqb_eq]. now subst. }
    set (va := V i A l) in *. set (vb := V j B l) in *.
    assert (Hp : pairsI same 0 (map mk va) (map mk vb) = map (fun ab => (mk (fst ab), mk (snd ab))) (if same then uptri va else list_prod va vb)).
    { destruct same.
      - rewrite <- (Hs eq_refl), pairsI_same. apply uptri_map.
      - rewrite pairsI_prod. apply prod_map. }
    assert (EM : (va = [] \/ vb = []) \/ (va <> [] /\ vb <> [])) by (destruct va, vb; auto; right; split; discriminate).
    destruct EM as [EM|[EM1 EM2]].
    - assert (N : (if same then uptri va else list_prod va vb) = []).
      { destruct same; [specialize (Hs eq_refl); destruct EM as [EM|EM]; [|rewrite <- Hs in EM]; rewrite EM; reflexivity|]. destruct EM as [-> | ->]; [reflexivity|apply prod_nil_r]. }
      rewrite N. cbn [length INR]. rewrite Rplus_0_r. apply (expects_ext (h k0)); [|exact (Hh k0)]. intros tp. destruct EM as [-> | ->]; [reflexivity|]. now destruct (map mk va).
    - apply (expects_ext (fun tp => KP h (hdecideI t rg (pairsI same 0 (map mk va) (map mk vb)) (tp, k0)))).
      + intros tp. destruct (map mk va) as [|x xs] eqn:Ex; [destruct va; [congruence|discriminate]|]. destruct (map mk vb) as [|y ys] eqn:Ey; [destruct vb; [congruence|discriminate]|].
        match goal with |- context [hdecideI ?a ?b ?c ?d] => destruct (hdecideI a b c d) as [[es g']|] end; reflexivity.
      + rewrite Hp. now apply hdecideI_count.
  Qed.
  (** the expected number of draws of one call *)
  Definition hcall_draws (x : call) : R :=
    match x with
    | CallI A B l i j => INR (length (pairsH A B l i j))
    | CallII A B l i j => let m := INR (length (V i A l) * length (V j B l)) in
      if Rltb (1 / 5) (hblock_max A B l i j) then m else if Rltb (m * hblock_max A B l i j) (1 / 1000000) then 0 else 1 + 2 * hblock_max A B l i j * m
    end.
  Lemma htypeII_count A B l i j : cok (CallII A B l i j) -> forall v h k0, (forall k, expects (h k) (v + INR k)) ->
    expects (fun tp => KC h (hsampleTypeII t rg A B l i j (tp, k0))) (v + INR k0 + hcall_draws (CallII A B l i j)).
  Proof.
    intros Hok v h k0 Hh. destruct (hblock HI HT t ord TS A B l i j Hok) as (F & f1 & f2 & cb & LK & CB & EF & BM & FR & FT & FM & ENV).
    destruct (nontouch_ring radii angles T Rd DI t ord TS A B l i j Hok) as (Hr & Hl2 & HAB). pose proof Hok as (HA & HB & Hi & Hj & Hl & Ht).
    destruct (hbase_ok radii angles T Rd DI t ord TS i j Hi Hj) as (B1 & B2 & B3 & B4).
    pose proof (htypeI_count A B l i j HA HB Hi Hj Hl v h k0 Hh) as TI.
    assert (Hs : (A =? B)%N && (i =? j)%nat = false) by (destruct (N.eqb_spec A B); [contradiction|reflexivity]). rewrite Hs, prod_length in TI.
    cbn [hcall_draws]. rewrite BM. unfold hsampleTypeII. rewrite (points_in_eq radii angles T Rd t ord TS i A l Hi ltac:(lia) HA), (points_in_eq radii angles T Rd t ord TS j B l Hj ltac:(lia) HB). cbn [obind].
    assert (HR1 : forall u, In u (V i A l) -> (u < n)%nat) by (intros u Hu; apply (hV_In _ _ _ _ _ _ TS) in Hu; exact (proj1 Hu)).
    assert (HR2 : forall u, In u (V j B l) -> (u < n)%nat) by (intros u Hu; apply (hV_In _ _ _ _ _ _ TS) in Hu; exact (proj1 Hu)).
    assert (L1 := hV_length radii angles T Rd t ord TS i A l). assert (L2 := hV_length radii angles T Rd t ord TS j B l).
    assert (Hnum : (N.of_nat (length (V i A l) * length (V j B l)) + 1 < 2 ^ 62)%N).
    { assert (Hn' := hi_n31 _ _ _ _ _ HI). change (2 ^ 31)%N with 2147483648%N in Hn'. change (2 ^ 62)%N with (2147483648 * 2147483648)%N. rewrite Nat2N.inj_mul.
      assert (N.of_nat (length (V i A l)) * N.of_nat (length (V j B l)) <= 2147483647 * 2147483647)%N by (apply N.mul_le_mono; lia). lia. }
    set (va := V i A l) in *. set (vb := V j B l) in *. rewrite (hs_T _ _ _ _ _ _ TS), (hs_R _ _ _ _ _ _ TS), (not_zero HT), LK, CB, !map_length, !map_pid. cbn [orb obind]. rewrite <- EF.
    assert (EM : (va = [] \/ vb = []) \/ (va <> [] /\ vb <> [])) by (destruct va, vb; auto; right; split; discriminate).
    destruct EM as [EM|[EM1 EM2]].
    { assert (N : (length va * length vb)%nat = 0%nat) by (destruct EM as [-> | ->]; cbn [length]; lia).
      rewrite N. cbn [INR]. rewrite Rmult_0_l. rewrite (proj2 (Rltb_true 0 (1 / 1000000))) by lra.
      replace (v + INR k0 + (if Rltb (1 / 5) (f_max F) then 0 else 0)) with (v + INR k0) by (destruct (Rltb _ _); ring).
      apply (expects_ext (h k0)); [|exact (Hh k0)]. intros tp. destruct EM as [-> | ->]; cbn [length Nat.eqb]; rewrite ?orb_true_r; reflexivity. }
    assert (ME : (length va =? 0)%nat || (length vb =? 0)%nat = false) by (destruct va; [congruence|]; destruct vb; [congruence|]; reflexivity).
    rewrite ME. set (p := f_max F) in *.
    destruct (Rltb (1 / 5) p) eqn:P5; [exact TI|].
    apply Rltb_false in P5. destruct (Rltb (INR (length va * length vb) * p) (1 / 1000000)) eqn:P6.
    { rewrite Rplus_0_r. exact (Hh k0). }
    assert (Pp : 0 < p) by apply FM.
    set (loop := fun fuel r g => hskip_loop T Rd F rg (map mk va) (map mk vb) fuel r g). set (num := (length va * length vb)%nat) in *.
    apply (expects_ext (fun tp => KN h (loop num (w64 (N.of_nat 0 + geo_of p (val (tp 0%nat)))) (ttail tp, S k0)))).
    { intros tp. cbn [geo counted tape_rng fst snd]. rewrite w64_id', N.add_0_l by (unfold geo_of; change (2 ^ 63)%N with 9223372036854775808%N; change (2 ^ 64)%N with 18446744073709551616%N; lia).
      fold (loop num (geo_of p (val (tp 0%nat))) (ttail tp, S k0)). destruct (loop num _ _) as [[hits [tp' k']]|]; reflexivity. }
    replace (v + INR k0 + (1 + 2 * p * INR num)) with (v + INR k0 + 1 + 2 * p * INR (num - 0)) by (rewrite Nat.sub_0_r; ring).
    apply (skip_count p num (list (nat * nat)) loop ltac:(lra) Hnum) with (d := num); [| |lia|lia|lia|exact Hh].
    - intros fuel r g Hr2. exists []. unfold loop. destruct fuel; cbn [hskip_loop]; rewrite !map_length; fold num; now rewrite (proj2 (N.leb_le _ _) Hr2).
    - intros h' fuel q g k Hq. unfold loop at 1. cbn [hskip_loop]. rewrite !map_length. fold num. destruct (N.leb_spec (N.of_nat num) (N.of_nat q)) as [L|L]; [lia|].
      assert (La : length va <> 0%nat) by (destruct va; [congruence|discriminate]).
      assert (Q1 : (q mod length va < length va)%nat) by now apply Nat.mod_upper_bound. assert (Q2 : (q / length va < length vb)%nat) by (apply Nat.div_lt_upper_bound; unfold num in Hq; lia).
      rewrite <- Nat2N.inj_mod, <- Nat2N.inj_div, !Nat2N.id by lia.
      rewrite (map_nth_error mk _ _ (nth_error_nth' va 0%nat Q1)), (map_nth_error mk _ _ (nth_error_nth' vb 0%nat Q2)). cbn [obind uni0 geo counted tape_rng fst snd].
      set (u := nth (q mod length va) va 0%nat). set (w := nth (q / length va) vb 0%nat).
      assert (Iu : In u va) by now apply nth_In. assert (Iv : In w vb) by now apply nth_In.
      rewrite (decide_eq HI HT F u w); auto.
      + cbn [obind]. fold p. change (ttail g 0%nat) with (g 1%nat).
        assert (Q : forall (X : option (list (nat * nat) * (tape * nat))) hd, KN h' (do (hits, g3) <- X; Some (hd ++ hits, g3)) = KN h' X) by (intros [[? [? ?]]|] ?; reflexivity). exact (Q _ _).
      + fold p. pose proof (val_range (g 0%nat)). split; [apply Rmult_le_pos; lra|nra].
      + apply last_stage_typeII; [apply T_pos|pose proof (hi_R _ _ _ _ _ HI); lra|]. fold p. lra.
  Qed.
  Lemma hcall_count x : cok x -> forall v h k0, (forall k, expects (h k) (v + INR k)) -> expects (fun tp => KC h (hrun_call t rg x (tp, k0))) (v + INR k0 + hcall_draws x).
  Proof.
    destruct x as [A B l i j|A B l i j]; intros Hok; cbn [hrun_call].
    - destruct Hok as (HA & HB & Hi & Hj & Hl). intros v h k0 Hh. exact (htypeI_count A B l i j HA HB Hi Hj ltac:(lia) v h k0 Hh).
    - now apply htypeII_count.
  Qed.
  Lemma hcalls_count xs : (forall x, In x xs -> cok x) -> forall v h k0, (forall k, expects (h k) (v + INR k)) ->
    expects (fun tp => KC h (hrun_calls t rg xs (tp, k0))) (v + INR k0 + sumR (map hcall_draws xs)).
  Proof.
    induction xs as [|x xs IH]; intros Hok v h k0 Hh.
    - cbn [hrun_calls KC gen fst snd map]. unfold sumR. cbn [fold_right]. rewrite Rplus_0_r. exact (Hh k0).
    - apply (expects_ext (fun tp => KC (fun k1 tp1 => KC h (hrun_calls t rg xs (tp1, k1))) (hrun_call t rg x (tp, k0)))).
      + intros tp. cbn [hrun_calls]. destruct (hrun_call t rg x (tp, k0)) as [r1|]; [|reflexivity]. cbn [obind KC].
        assert (Q2 : forall g : tape * nat, (fst g, snd g) = g) by (intros [? ?]; reflexivity). refine (eq_trans (f_equal (fun g => KC h (hrun_calls t rg xs g)) (Q2 (gen r1))) _).
        assert (Q : forall (X : option (result (tape * nat))) f z1 z2, KC h X = KC h (do r2 <- X; Some {| evs := f r2; type1 := z1 r2; type2 := z2 r2; gen := gen r2 |})) by (intros [?|] ? ? ?; reflexivity).
        exact (Q (hrun_calls t rg xs (gen r1)) (fun r2 => evs r1 ++ evs r2) (fun r2 => type1 r1 + type1 r2)%Z (fun r2 => type2 r1 + type2 r2)%Z).
      + replace (v + INR k0 + sumR (map hcall_draws (x :: xs))) with (v + sumR (map hcall_draws xs) + INR k0 + hcall_draws x) by (unfold sumR; cbn [map fold_right]; ring).
        apply hcall_count; [apply Hok; now left|]. intros k. replace (v + sumR (map hcall_draws xs) + INR k) with (v + INR k + sumR (map hcall_draws xs)) by ring.
        apply IH; [intros; apply Hok; now right|exact Hh].
  Qed.
  Definition hcthreads (calls : list (list call)) (tapes : list tape) : option (list (result (tape * nat))) :=
    omap (fun cg => hrun_calls t rg (fst cg) (snd cg)) (combine calls (map (fun tp => (tp, 0%nat)) tapes)).
  Lemma hcalls_total xs : (forall x, In x xs -> cok x) -> forall g, exists r, hrun_calls t rg xs g = Some r.
  Proof. intros Hok g. destruct (hcalls_decided radii angles T Rd DI t ord TS rg (counted_good _ (tape_good s)) xs Hok g) as (r & Er & _). eauto. Qed.
  Lemma hcthreads_total calls : (forall x, In x (concat calls) -> cok x) -> forall tapes, exists rs, hcthreads calls tapes = Some rs.
  Proof.
    induction calls as [|xs calls IH]; intros Hok tapes; [now exists []|]. destruct tapes as [|tp tapes]; [now exists []|]. unfold hcthreads. cbn [map combine omap fst snd].
    destruct (hcalls_total xs ltac:(intros x Hx; apply Hok; cbn [concat]; apply in_or_app; now left) (tp, 0%nat)) as (r & Er).
    destruct (IH ltac:(intros x Hx; apply Hok; cbn [concat]; apply in_or_app; now right) tapes) as (rs & Ers). exists (r :: rs).
    refine (eq_trans (f_equal (fun o => obind o _) Er) _). cbn [obind]. refine (eq_trans (f_equal (fun o => obind o _) Ers) _). reflexivity.
  Qed.
  Lemma hthreads_count calls : (forall x, In x (concat calls) -> cok x) -> forall m, (length calls <= m)%nat ->
    expects_n m (fun tapes => draws_of (hcthreads calls tapes)) (sumR (map hcall_draws (concat calls))).
  Proof.
    induction calls as [|xs calls IH]; intros Hok m Hm.
    - apply expects_n_ext with (f1 := fun _ => 0); [|apply expects_n_const]. intros ts _. reflexivity.
    - destruct m as [|m]; [cbn in Hm; lia|]. cbn [concat]. rewrite map_app, sumR_app. cbn [expects_n].
      specialize (IH ltac:(intros x Hx; apply Hok; cbn [concat]; apply in_or_app; now right) m ltac:(cbn in Hm; lia)).
      set (C := sumR (map hcall_draws (concat calls))) in *.
      exists (fun tp => KC (fun k _ => C + INR k) (hrun_calls t rg xs (tp, 0%nat))). split.
      + intros tp. destruct (hcalls_total xs ltac:(intros x Hx; apply Hok; cbn [concat]; apply in_or_app; now left) (tp, 0%nat)) as (r & Er).
        assert (EK : KC (fun k _ => C + INR k) (hrun_calls t rg xs (tp, 0%nat)) = INR (snd (gen r)) + C).
        { transitivity (KC (fun k _ => C + INR k) (Some r)); [f_equal; exact Er|]. cbn [KC]. apply Rplus_comm. }
        refine (eq_ind _ (fun z => expects_n m (fun ts => draws_of (hcthreads (xs :: calls) (tp :: ts))) z) _ _ (eq_sym EK)). apply expects_n_ext with (f1 := fun ts => INR (snd (gen r)) + draws_of (hcthreads calls ts)).
        2:{ apply (expects_n_plus m (INR (snd (gen r)))). exact IH. }
        intros ts Lts. destruct (hcthreads_total calls ltac:(intros x Hx; apply Hok; cbn [concat]; apply in_or_app; now right) ts) as (rs & Ets).
        rewrite Ets. assert (EC : hcthreads (xs :: calls) (tp :: ts) = Some (r :: rs)).
        { unfold hcthreads in *. cbn [map combine omap fst snd]. refine (eq_trans (f_equal (fun o => obind o _) Er) _). cbn [obind]. refine (eq_trans (f_equal (fun o => obind o _) Ets) _). reflexivity. }
        rewrite EC. cbn [draws_of map]. match goal with |- context [list_sum (?x :: ?y)] => change (list_sum (x :: y)) with (x + list_sum y)%nat end. rewrite plus_INR. reflexivity.
      + replace (sumR (map hcall_draws xs) + C) with (C + INR 0 + sumR (map hcall_draws xs)) by (cbn [INR]; ring). apply hcalls_count.
        * intros x Hx. apply Hok. cbn [concat]. apply in_or_app. now left.
        * intros k. now apply ex_value.
  Qed.
End Count.

(** ** the runs of generate *)
Lemma hcounted_draws hg m : forall g, draws_u32 (hcounted hg) m g = draws_u32 hg m (fst g).
Proof. induction m as [|m IH]; intros g; [reflexivity|]. cbn [draws_u32 draw_u32 hcounted]. rewrite IH. cbn [fst]. destruct (draw_u32 hg (fst g)) as [x g']. reflexivity. Qed.
Lemma hcounted_prngs hg m z : initialize_prngs (hcounted hg) m z = map (fun g => (g, 0%nat)) (initialize_prngs hg m z).
Proof. unfold initialize_prngs. rewrite map_map. apply map_ext. intros i. cbn [seed_seq hcounted hb]. now rewrite hcounted_draws. Qed.
(** the numbers all the tasks and threads drew *)
Definition hrun_draws {tapes} (rss : list (list (result (G (hb (hcounted (tape_hrng tapes))))))) : nat := list_sum (map (fun r => snd (gen r)) (concat rss)).
Section Runs.
  Context {radii angles : list R} {T Rd : R} {omp_max team : nat} (HI : hrg_input radii angles Rd omp_max team).
  Hypotheses (HT : 1 / IZR (2 ^ 52) < T) (HR99 : 2 * T * ln 99 <= Rd).
  Variables (t : htree) (ord : list nat) (TS : htree_spec radii angles T Rd t ord).
  Variables (nd : bool) (part : list (N * N) -> list (N * N)) (HP : is_partition task_eq part).
  Notation DI := (use_di HI).
  Notation plan0 := (hplan Rd t (N.to_nat (h_levels t - 1)) 0%N 0%N 0%N).
  Lemma run_all_threads s (tapes : list tape) : forall calls j (TT : list tape), (length calls <= length tapes)%nat -> (forall i, (i < length calls)%nat -> nth (j + i) TT (fun _ => zero_draw) = nth i tapes (fun _ => zero_draw)) ->
    omap (fun ic => hrun_calls t (counted (tape_rng s)) (snd ic) (nth (fst ic) TT (fun _ => zero_draw), 0%nat)) (combine (seq j (length calls)) calls) = hcthreads t s calls tapes.
  Proof.
    induction tapes as [|tp tapes IH]; intros [|xs calls] j TT Hl H; cbn in Hl; try lia; try reflexivity. unfold hcthreads. cbn [length seq combine omap fst snd map].
    pose proof (H 0%nat ltac:(cbn; lia)) as H0. rewrite Nat.add_0_r in H0. cbn [nth] in H0. rewrite H0. f_equal. specialize (IH calls (S j) TT ltac:(lia)). unfold hcthreads in IH.
    assert (Q : forall (X Y : option (list (result (tape * nat)))), X = Y -> (fun y => obind X (fun ys => Some (y :: ys))) = (fun y => obind Y (fun ys => Some (y :: ys)))) by (intros X Y ->; reflexivity).
    apply Q. apply IH. intros i Hi. specialize (H (S i) ltac:(cbn; lia)). cbn [nth] in H. rewrite <- H. f_equal. lia.
  Qed.
  Lemma hgen_count seed : returns Rd omp_max team -> forall k, (15 * omp_max <= k)%nat ->
    forall out : (forall tapes, list (list (result (G (hb (hcounted (tape_hrng tapes))))))),
    (forall tapes, length tapes = k -> generate_outcome nd part t (hcounted (tape_hrng tapes)) seed omp_max team (Some (out tapes))) ->
    expects_n k (fun tapes => INR (hrun_draws (out tapes))) (sumR (map (@hcall_draws radii angles Rd t ord) plan0)).
  Proof.
    intros HRet k Hk out Hout. destruct (gen_hom HI HT t ord TS nd part HP seed HRet) as (calls & PC & [L1 L2] & HG).
    assert (Hok : forall x, In x (concat calls) -> hcall_ok Rd t x).
    { intros x Hx. apply (Permutation_in _ PC) in Hx. revert Hx. apply (hplan0_ok radii angles T Rd DI t ord TS). }
    set (s0 := seeded 0 []).
    assert (SP : sumR (map (@hcall_draws radii angles Rd t ord) (concat calls)) = sumR (map (@hcall_draws radii angles Rd t ord) plan0)).
    { apply (Permutation_map (@hcall_draws radii angles Rd t ord)) in PC. clear -PC. unfold sumR. induction PC; cbn [fold_right]; lra. }
    rewrite <- SP. eapply expects_n_ext; [|apply (hthreads_count HI HT HR99 t ord TS s0 calls Hok k); lia].
    intros tapes Lt. specialize (Hout tapes Lt).
    set (f := fun g : tape * nat => ((fst g, 0%N), snd g)).
    destruct (HG (counted (tape_rng s0)) (hcounted (tape_hrng tapes)) f (fun i => (nth i tapes (fun _ => zero_draw), 0%nat))) with (ors := Some (out tapes)) as (rss & rs & E1 & E2 & PR); try (intros; reflexivity).
    - apply counted_good, tape_hgood.
    - apply counted_good, tape_good.
    - intros m z. rewrite hcounted_prngs, prngs_eq, map_map. reflexivity.
    - exact Hout.
    - injection E1 as E1. unfold run_all in E2. rewrite (run_all_threads s0 tapes calls 0 tapes) in E2 by (try lia; reflexivity). rewrite E2. cbn [draws_of]. f_equal. unfold hrun_draws. rewrite E1.
      apply (Permutation_map (fun r => snd (gen r))) in PR. rewrite map_map in PR. cbn [rmap gen] in PR.
      assert (Q : forall l l', Permutation l l' -> list_sum l = list_sum l') by (clear; intros l l' P; unfold list_sum; induction P; cbn [fold_right]; lia). symmetry. exact (Q _ _ PR).
  Qed.
  Lemma hgen_runs seed : returns Rd omp_max team -> exists out : (forall tapes, list (list (result (G (hb (hcounted (tape_hrng tapes))))))),
    forall tapes, generate_outcome nd part t (hcounted (tape_hrng tapes)) seed omp_max team (Some (out tapes)).
  Proof.
    intros HRet. pose proof (proj2 (use_finishing HI T t ord TS) HRet) as HF. destruct (omp_nat _ (hi_omp _ _ _ _ _ HI)) as [O1 O2].
    destruct (gen_hom HI HT t ord TS nd part HP seed HRet) as (calls & PC & _ & HG).
    assert (Ex : exists orsf : forall tapes, option (list (list (result (G (hb (hcounted (tape_hrng tapes))))))), forall tapes, generate_outcome nd part t (hcounted (tape_hrng tapes)) seed omp_max team (orsf tapes)).
    { destruct HF as [[E1 _]|(N2 & E2 & fpl & Ef & HL)].
      - eexists (fun tapes => _). intros tapes. exists seed. split; [reflexivity|]. rewrite E1. cbn [Nat.eqb]. reflexivity.
      - destruct (fpl_defined omp_max ltac:(lia)) as (f & Ef' & Hf & F1 & F2). rewrite Ef in Ef'. injection Ef' as <-. destruct (num_tasks_defined fpl Hf) as (ntask & Ek).
        pose proof (created_eq radii angles T Rd (use_di HI) t ord TS fpl ltac:(lia) HL) as Ec.
        destruct (can_finish omp_max (length (part (snd (hseqplan Rd t fpl (N.to_nat (h_levels t - 1)) 0%N 0%N 0%N)))) true 0 0 (pinit omp_max) eq_refl ltac:(lia) (psteps_refl _ _ _ _)) as (k' & fin & HS & HFin).
        eexists (fun tapes => _). intros tapes. exists seed. split; [reflexivity|]. destruct (Nat.eqb_spec omp_max 1) as [|_]; [lia|]. rewrite Ef. cbn [obind]. rewrite Ek. cbn [obind].
        rewrite Ec. rewrite (proj2 (N.ltb_lt _ _) HL). rewrite E2. exists (k' + 0)%nat, 0%nat, fin. split; [exact HS|]. split; [exact HFin|]. reflexivity. }
    destruct Ex as (orsf & Ho). exists (fun tapes => match orsf tapes with Some rss => rss | None => [] end). intros tapes. specialize (Ho tapes).
    destruct (HG (counted (tape_rng (seeded 0 []))) (hcounted (tape_hrng tapes)) (fun g : tape * nat => ((fst g, 0%N), snd g)) (fun i => (nth i tapes (fun _ => zero_draw), 0%nat))) with (ors := orsf tapes) as (rss & rs & E1 & _); try (intros; reflexivity); try exact Ho.
    - apply counted_good, tape_hgood.
    - apply counted_good, tape_good.
    - intros m z. rewrite hcounted_prngs, prngs_eq, map_map. reflexivity.
    - rewrite E1 in *. exact Ho.
  Qed.
End Runs.
