(** The law of the edges of hypergirgs::generateEdges: all threads and tasks, all pairs. *)
From Coq Require Import Arith NArith ZArith List Bool Reals Lra Lia Permutation.
From Coquelicot Require Import Coquelicot.
From Verif Require Import Base Sched Bits_Model Coord_Model Coord_Proofs Coord_Geo IntSort_Model IntSort_Proofs Cover Tree_Model Tree_Proofs Tree_Build Tree_Plan Tree_Run Girg_Model Girg_Proofs Girg_Num
  Prop_Girg Hyp_Model Hyp_Math Hyp_Angle Hyp_Levels Hyp_Build Hyp_Run Hyp_Filter Hyp_Sched Hyp_Threads Hyp_Gen Prop_Hyp Prob_Spec Prob Prob_Events Prob_Girg Prob_Law Prob_Hrg.
Import ListNotations.
Local Open Scope R_scope.

Lemma tape_hgood tapes : good_rng (hb (tape_hrng tapes)).
Proof.
  constructor; cbn [u01 uni0 geo hb tape_hrng G fst].
  - intros g. apply val_range.
  - intros p g Hp. pose proof (val_range (fst g 0%nat)). split; [apply Rmult_le_pos; lra|]. nra.
  - intros p g Hp. unfold geo_of. assert (K2 : (2 ^ 63 = 9223372036854775808)%N) by reflexivity. lia.
Qed.

(** ** the generators *)
Lemma draws_eq tapes m : forall tp k, draws_u32 (tape_hrng tapes) m (tp, k) = map (fun i => (k + N.of_nat i)%N) (seq 0 m).
Proof.
  induction m as [|m IH]; intros tp k; [reflexivity|]. cbn [draws_u32 draw_u32 tape_hrng snd fst seq map]. f_equal; [lia|].
  etransitivity; [apply IH|]. rewrite <- seq_shift, map_map. apply map_ext. intros i. lia.
Qed.
Lemma hd_firstn_skipn {A} (d : A) a b l : hd d (firstn (S a) (skipn b l)) = nth b l d.
Proof.
  revert l. induction b as [|b IH]; intros l; [destruct l; reflexivity|]. destruct l as [|x l]; [reflexivity|]. cbn [skipn nth]. apply IH.
Qed.
Lemma prngs_eq tapes m seed : initialize_prngs (tape_hrng tapes) m seed = map (fun i => (nth i tapes (fun _ => zero_draw), 0%N)) (seq 0 m).
Proof.
  unfold initialize_prngs. cbn [rseed hb tape_hrng]. apply map_ext_in. intros i Hi. apply in_seq in Hi. cbn [seed_seq tape_hrng]. rewrite draws_eq.
  set (b := 312%nat) in *. assert (Eb : b = S 311) by reflexivity. rewrite Eb at 1. rewrite hd_firstn_skipn. clearbody b.
  assert (Hb : (i * b < m * b)%nat) by nia.
  rewrite (nth_indep _ 0%N ((0 + N.of_nat 0)%N)) by (rewrite map_length, seq_length; exact Hb). rewrite (map_nth (fun i => (0 + N.of_nat i)%N)), seq_nth by exact Hb.
  f_equal. f_equal. rewrite N.add_0_l, Nat.add_0_l, Nat2N.inj_mul. replace (N.of_nat b) with 312%N by (rewrite Eb; reflexivity). rewrite N.div_mul by lia. apply Nat2N.id.
Qed.

(** ** the counter is not touched by sampling *)
Section Lift.
  Variables (t : htree) (s : Z -> tape) (tapes : list tape).
  Notation hr := (hb (tape_hrng tapes)).
  Definition lift (k : N) (o : option (result tape)) : option (result (tape * N)) :=
    match o with Some r => Some {| evs := evs r; type1 := type1 r; type2 := type2 r; gen := (gen r, k) |} | None => None end.
  Lemma decideI_lift k ps : forall tp, hdecideI t hr ps (tp, k) = match hdecideI t (tape_rng s) ps tp with Some (es, tp') => Some (es, (tp', k)) | None => None end.
  Proof.
    induction ps as [|[a b] ps IH]; intros tp; [reflexivity|]. cbn [hdecideI u01 hb tape_hrng tape_rng fst snd]. destruct (threshold_mode (h_T t)); cbn [obind].
    - specialize (IH tp). match goal with |- obind ?x _ = _ => replace x with (match hdecideI t (tape_rng s) ps tp with Some (es, tp') => Some (es, (tp', k)) | None => None end) by (symmetry; exact IH) end.
      destruct (hdecideI t (tape_rng s) ps tp) as [[es tp']|]; reflexivity.
    - destruct (filter_decide _ _ _ _ _ _) as [hit|]; [|reflexivity]. cbn [obind]. specialize (IH (ttail tp)).
      match goal with |- obind ?x _ = _ => replace x with (match hdecideI t (tape_rng s) ps (ttail tp) with Some (es, tp') => Some (es, (tp', k)) | None => None end) by (symmetry; exact IH) end.
      match goal with |- context [hdecideI t (tape_rng s) ps ?z] => destruct (hdecideI t (tape_rng s) ps z) as [[es tp']|] end; reflexivity.
  Qed.
  Lemma skip_lift k T Rd F ra rb fuel : forall r tp, hskip_loop T Rd F hr ra rb fuel r (tp, k) =
    match hskip_loop T Rd F (tape_rng s) ra rb fuel r tp with Some (hits, tp') => Some (hits, (tp', k)) | None => None end.
  Proof.
    induction fuel as [|f IH]; intros r tp; cbn [hskip_loop]; destruct (_ <=? _)%N; try reflexivity.
    destruct (nth_error ra _); [|reflexivity]. cbn [obind]. destruct (nth_error rb _); [|reflexivity]. cbn [obind uni0 geo tape_rng hb tape_hrng fst snd].
    destruct (filter_decide _ _ _ _ _ _) as [hit|]; [|reflexivity]. cbn [obind]. specialize (IH (w64 (r + w64 (1 + geo_of (f_max F) (val (ttail tp 0%nat))))) (ttail (ttail tp))).
    match goal with |- obind ?x _ = _ => replace x with (match hskip_loop T Rd F (tape_rng s) ra rb f (w64 (r + w64 (1 + geo_of (f_max F) (val (ttail tp 0%nat))))) (ttail (ttail tp)) with Some (hits, tp') => Some (hits, (tp', k)) | None => None end) by (symmetry; exact IH) end.
    match goal with |- context [hskip_loop T Rd F (tape_rng s) ra rb f ?x ?y] => destruct (hskip_loop T Rd F (tape_rng s) ra rb f x y) as [[es tp']|] end; reflexivity.
  Qed.
  Lemma typeI_lift k A B l i j tp : hsampleTypeI t hr A B l i j (tp, k) = lift k (hsampleTypeI t (tape_rng s) A B l i j tp).
  Proof.
    unfold hsampleTypeI. destruct (points_in t i A l) as [ra|]; [|reflexivity]. cbn [obind]. destruct (points_in t j B l) as [rb|]; [|reflexivity]. cbn [obind].
    destruct ra as [|x ra]; [reflexivity|]. destruct rb as [|y rb]; [reflexivity|]. rewrite decideI_lift.
    match goal with |- context [hdecideI t (tape_rng s) ?x ?y] => destruct (hdecideI t (tape_rng s) x y) as [[es tp']|] end; reflexivity.
  Qed.
  Lemma typeII_lift k A B l i j tp : hsampleTypeII t hr A B l i j (tp, k) = lift k (hsampleTypeII t (tape_rng s) A B l i j tp).
  Proof.
    unfold hsampleTypeII. destruct (points_in t i A l) as [ra|]; [|reflexivity]. cbn [obind]. destruct (points_in t j B l) as [rb|]; [|reflexivity]. cbn [obind].
    destruct (_ || _ || _); [reflexivity|]. destruct (lookup_filters t i j l) as [[f1 f2]|]; [|reflexivity]. cbn [obind]. destruct (cellsBetween A B l) as [cb|]; [|reflexivity]. cbn [obind].
    rewrite typeI_lift. destruct (Rltb _ _); [reflexivity|]. destruct (Rltb _ _); [reflexivity|]. cbn [geo tape_rng hb tape_hrng fst snd].
    set (F := if (cb =? 1)%N then f1 else f2). pose proof (skip_lift k (h_T t) (h_R t) F ra rb (length ra * length rb) (geo_of (f_max F) (val (tp 0%nat))) (ttail tp)) as SL.
    match goal with |- obind ?x _ = _ => replace x with (match hskip_loop (h_T t) (h_R t) F (tape_rng s) ra rb (length ra * length rb) (geo_of (f_max F) (val (tp 0%nat))) (ttail tp) with Some (hits, tp') => Some (hits, (tp', k)) | None => None end) by (symmetry; exact SL) end.
    match goal with |- context [hskip_loop ?T ?Rd ?F (tape_rng s) ?ra ?rb ?f ?x ?y] => destruct (hskip_loop T Rd F (tape_rng s) ra rb f x y) as [[es tp']|] end; reflexivity.
  Qed.
  Lemma calls_lift k xs : forall tp, hrun_calls t hr xs (tp, k) = lift k (hrun_calls t (tape_rng s) xs tp).
  Proof.
    induction xs as [|x xs IH]; intros tp; [reflexivity|]. cbn [hrun_calls].
    assert (C : hrun_call t hr x (tp, k) = lift k (hrun_call t (tape_rng s) x tp)) by (destruct x; [apply typeI_lift|apply typeII_lift]).
    rewrite C. destruct (hrun_call t (tape_rng s) x tp) as [r|]; [|reflexivity]. cbn [obind lift gen]. specialize (IH (gen r)).
    match goal with |- obind ?x _ = _ => replace x with (lift k (hrun_calls t (tape_rng s) xs (gen r))) by (symmetry; exact IH) end.
    destruct (hrun_calls t (tape_rng s) xs (gen r)); reflexivity.
  Qed.
End Lift.

(** ** the shape of what one call does *)
Lemma hdecideI_pairs t rg xs : forall g es g', hdecideI t rg xs g = Some (es, g') -> List.Forall (fun e => match e with EPair _ _ _ => True | _ => False end) es.
Proof.
  induction xs as [|[a b] xs IH]; intros g es g'; cbn [hdecideI]; [intros [= <- <-]; constructor|].
  destruct (if threshold_mode (h_T t) then _ else _) as [[hit g1]|]; [|discriminate]. cbn [obind]. destruct (hdecideI t rg xs g1) as [[es1 g2]|] eqn:E; [|discriminate]. cbn [obind].
  intros [= <- <-]. constructor; [exact I|]. eapply IH. exact E.
Qed.
Lemma htypeI_ev_ok t rg A B l i j g r : hsampleTypeI t rg A B l i j g = Some r -> List.Forall ev_ok (evs r).
Proof.
  unfold hsampleTypeI. destruct (points_in t i A l) as [ra|]; [|discriminate]. cbn [obind]. destruct (points_in t j B l) as [rb|]; [|discriminate]. cbn [obind].
  destruct ra as [|x ra]; [intros [= <-]; constructor|]. destruct rb as [|y rb]; [intros [= <-]; constructor|].
  destruct (hdecideI t rg _ g) as [[es g']|] eqn:E; [|discriminate]. cbn [obind]. intros [= <-]. cbn [evs]. apply pairs_ev_ok. eapply hdecideI_pairs. exact E.
Qed.
Lemma hcall_ev_ok t rg x g r : hrun_call t rg x g = Some r -> le_count (edges_of r) (pairs_of r) -> List.Forall ev_ok (evs r).
Proof.
  destruct x as [A B l i j|A B l i j]; cbn [hrun_call]; intros H HL; [eapply htypeI_ev_ok; exact H|].
  unfold hsampleTypeII in H. destruct (points_in t i A l) as [ra|]; [|discriminate]. cbn [obind] in H. destruct (points_in t j B l) as [rb|]; [|discriminate]. cbn [obind] in H.
  assert (H' : List.Forall ev_ok (evs r) \/ exists e, evs r = [e]).
  { destruct (_ || _ || _); [injection H as <-; right; eexists; reflexivity|]. destruct (lookup_filters t i j l) as [[f1 f2]|]; [|discriminate]. cbn [obind] in H.
    destruct (cellsBetween A B l) as [cb|]; [|discriminate]. cbn [obind] in H. destruct (Rltb _ _); [left; eapply htypeI_ev_ok; exact H|].
    destruct (Rltb _ _); [injection H as <-; right; eexists; reflexivity|]. destruct (geo rg _ g) as [k0 g1].
    destruct (hskip_loop _ _ _ _ _ _ _ _ _) as [[hits g2]|]; [|discriminate]. cbn [obind] in H. injection H as <-. right. eexists. reflexivity. }
  destruct H' as [H'|(e & Ee)]; [exact H'|]. unfold edges_of, pairs_of in HL. rewrite Ee in *. constructor; [|constructor]. now apply single_ev_ok.
Qed.

Section HLaw2.
  Context {radii angles : list R} {T Rd : R} {omp_max team : nat} (HI : hrg_input radii angles Rd omp_max team).
  Hypotheses (HT : 1 / IZR (2 ^ 52) < T) (HR99 : 2 * T * ln 99 <= Rd).
  Variables (t : htree) (ord : list nat) (TS : htree_spec radii angles T Rd t ord).
  Notation n := (length radii).
  Notation DI := (use_di HI).
  Notation V := (hV radii angles Rd ord).
  Notation cok := (hcall_ok Rd t).
  Notation cpairs := (hcall_pairs radii angles Rd ord).
  Notation hpe := (@hpe radii angles T Rd).
  Notation hdropped := (@hdropped radii angles Rd t ord).
  Notation hcall_q := (@hcall_q radii angles T Rd t ord).
  Notation hmean w := (@hcall_mean radii angles T Rd t ord w).
  Notation plan0 := (hplan Rd t (N.to_nat (h_levels t - 1)) 0%N 0%N 0%N).

  Lemma hcalls_ev_ok s xs : (forall x, In x xs -> cok x) -> forall g r, hrun_calls t (tape_rng s) xs g = Some r -> List.Forall ev_ok (evs r) /\ pairs_of r = flat_map cpairs xs.
  Proof.
    induction xs as [|x xs IH]; intros Hok g r; cbn [hrun_calls]; [intros [= <-]; split; [constructor|reflexivity]|].
    destruct (hcall_decided radii angles T Rd DI t ord TS (tape_rng s) (tape_good s) x g (Hok x (or_introl eq_refl))) as (r1 & E1 & D1).
    rewrite E1. cbn [obind]. destruct (hrun_calls t (tape_rng s) xs (gen r1)) as [r2|] eqn:E2; [|discriminate]. cbn [obind]. intros [= <-]. unfold pairs_of. cbn [evs flat_map].
    destruct (IH ltac:(intros; apply Hok; now right) _ _ E2) as [I1 I2]. split.
    - apply List.Forall_app. split; [|exact I1]. exact (hcall_ev_ok t (tape_rng s) x g r1 E1 (hd_edges _ _ _ _ _ _ _ D1)).
    - rewrite flat_map_app. f_equal; [apply (hd_pairs _ _ _ _ _ _ _ D1)|exact I2].
  Qed.
  Definition hthreads (s : Z -> tape) (calls : list (list call)) (tapes : list tape) : option (list (result tape)) :=
    omap (fun cg => hrun_calls t (tape_rng s) (fst cg) (snd cg)) (combine calls tapes).
  Lemma hthreads_ok s calls : (forall x, In x (concat calls) -> cok x) -> forall tapes, (length calls <= length tapes)%nat ->
    exists rs, hthreads s calls tapes = Some rs /\ List.Forall ev_ok (flat_map evs rs) /\ flat_map pairs_of rs = flat_map cpairs (concat calls).
  Proof.
    induction calls as [|xs calls IH]; intros Hok tapes Hl; [exists []; repeat split; constructor|]. destruct tapes as [|tp tapes]; [cbn in Hl; lia|].
    destruct (IH ltac:(intros x Hx; apply Hok; cbn [concat]; apply in_or_app; now right) tapes ltac:(cbn in Hl; lia)) as (rs & E & F1 & F2).
    assert (Hok1 : forall x, In x xs -> cok x) by (intros x Hx; apply Hok; cbn [concat]; apply in_or_app; now left).
    destruct (hcalls_decided radii angles T Rd DI t ord TS (tape_rng s) (tape_good s) xs Hok1 tp) as (r & Er & _).
    destruct (hcalls_ev_ok s xs Hok1 tp r Er) as [G1 G2]. exists (r :: rs). split; [|split].
    - unfold hthreads. cbn [combine omap fst snd]. match goal with |- obind ?x _ = _ => replace x with (Some r) by (symmetry; exact Er) end. cbn [obind]. fold (hthreads s calls tapes). now rewrite E.
    - cbn [flat_map]. apply List.Forall_app. now split.
    - cbn [flat_map concat]. rewrite flat_map_app. now f_equal.
  Qed.
  Lemma hthreads_law w s calls : (forall x, In x (concat calls) -> cok x) -> forall m, (length calls <= m)%nat ->
    expects_n m (fun tapes => thr_wt w (hthreads s calls tapes)) (prodR (concat calls) (hmean w)).
  Proof.
    induction calls as [|xs calls IH]; intros Hok m Hm.
    - cbn [concat]. apply expects_n_ext with (f1 := fun _ => 1); [|apply expects_n_const]. intros ts _. reflexivity.
    - destruct m as [|m]; [cbn in Hm; lia|]. cbn [concat]. rewrite prodR_app. cbn [expects_n].
      specialize (IH ltac:(intros x Hx; apply Hok; cbn [concat]; apply in_or_app; now right) m ltac:(cbn in Hm; lia)).
      set (C := prodR (concat calls) (hmean w)) in *.
      exists (fun tp => KR (fun es _ => C * ev_wt w es) (hrun_calls t (tape_rng s) xs tp)). split.
      + intros tp. destruct (hrun_calls t (tape_rng s) xs tp) as [r|] eqn:Er; cbn [KR].
        * apply expects_n_ext with (f1 := fun ts => ev_wt w (evs r) * thr_wt w (hthreads s calls ts)).
          { intros ts _. unfold hthreads. cbn [combine omap fst snd].
            match goal with |- _ = thr_wt w (obind ?x _) => replace x with (Some r) by (symmetry; exact Er) end. cbn [obind]. fold (hthreads s calls ts).
            destruct (hthreads s calls ts) as [rs|]; cbn [obind thr_wt]; [|ring]. cbn [flat_map]. now rewrite ev_wt_app. }
          rewrite (Rmult_comm C). apply (expects_n_scal m (ev_wt w (evs r))). exact IH.
        * apply expects_n_ext with (f1 := fun _ => 0); [|apply expects_n_const]. intros ts _. unfold hthreads. cbn [combine omap fst snd].
          match goal with |- _ = thr_wt w (obind ?x _) => replace x with (@None (result tape)) by (symmetry; exact Er) end. reflexivity.
      + rewrite Rmult_comm. apply (hcalls_law HI HT HR99 t ord TS s w xs).
        * intros x Hx. apply Hok. cbn [concat]. apply in_or_app. now left.
        * intros es. now apply ex_value.
  Qed.

  (** the probability of a pair: the code drops blocks with fewer than 10^-6 expected edges *)
  Definition hqpair (u v : nat) : R := if existsb (fun x => hdropped x && joinedb (cpairs x) u v) plan0 then 0 else hpe u v.
  Lemma hqpair_sym u v : hqpair u v = hqpair v u.
  Proof.
    unfold hqpair. rewrite hpe_sym. replace (existsb (fun x => hdropped x && joinedb (cpairs x) v u) plan0) with (existsb (fun x => hdropped x && joinedb (cpairs x) u v) plan0); [reflexivity|].
    induction plan0 as [|x l IH]; [reflexivity|]. cbn [existsb]. now rewrite IH, joinedb_comm.
  Qed.
  Lemma hqpair_call x u v : In x plan0 -> In (u, v) (cpairs x) -> hcall_q x u v = hqpair u v.
  Proof.
    intros Hx Hp. pose proof (hplan0_ok radii angles T Rd DI t ord TS x Hx) as Hok.
    destruct (hcall_pairs_In radii angles T Rd t ord TS x u v Hp) as [Hu Hv].
    assert (Hne : u <> v) by (intros <-; revert Hp; now apply (hcall_pairs_irrefl radii angles T Rd DI t ord TS x u)).
    assert (Hj : joinedb (cpairs x) u v = true) by (apply joinedb_In; now left).
    unfold Prob_Hrg.hcall_q, hqpair. destruct (hdropped x) eqn:Dx.
    - replace (existsb _ plan0) with true; [reflexivity|]. symmetry. apply existsb_exists. exists x. split; [exact Hx|]. now rewrite Dx, Hj.
    - replace (existsb _ plan0) with false; [reflexivity|]. symmetry. destruct (existsb _ plan0) eqn:Ex; [|reflexivity]. exfalso.
      apply existsb_exists in Ex as (y & Hy & Ey). apply andb_prop in Ey as [Dy Jy].
      assert (x = y); [|congruence]. apply (once_inj cpairs plan0 u v); auto; [|now apply cnt2_joined|now apply cnt2_joined].
      now apply (hplan0_pairs radii angles T Rd DI t ord TS).
  Qed.
  Lemma hqpair_cases u v : (u < n)%nat -> (v < n)%nat -> u <> v -> hqpair u v = hpe u v \/ (hqpair u v = 0 /\ hpe u v < 1 / 1000000).
  Proof.
    intros Hu Hv Hne. unfold hqpair. destruct (existsb _ plan0) eqn:Ex; [|now left]. right. split; [reflexivity|].
    apply existsb_exists in Ex as (x & Hx & E). apply andb_prop in E as [Dx Jx]. pose proof (hplan0_ok radii angles T Rd DI t ord TS x Hx) as Hok.
    destruct x as [A B l i j|A B l i j]; [discriminate|]. cbn [Prob_Hrg.hdropped] in Dx. apply andb_prop in Dx as [_ Dx]. apply Rltb_true in Dx.
    apply joinedb_In in Jx. cbn [hcall_pairs] in Jx.
    assert (B1 : forall y z, In (y, z) (list_prod (V i A l) (V j B l)) -> hpe y z < 1 / 1000000).
    { intros y z I. apply in_prod_iff in I as [I1 I2]. destruct (hblock HI HT t ord TS A B l i j Hok) as (F & f1 & f2 & cb & _ & _ & _ & BM & _ & _ & FM & ENV). specialize (ENV y z I1 I2).
      eapply Rle_lt_trans; [exact ENV|]. eapply Rle_lt_trans; [|exact Dx]. rewrite BM.
      set (k := length (V i A l)) in *. set (m := length (V j B l)) in *.
      assert (Hk : (1 <= k * m)%nat). { assert (k <> 0%nat) by (unfold k; destruct (V i A l); [destruct I1|discriminate]). assert (m <> 0%nat) by (unfold m; destruct (V j B l); [destruct I2|discriminate]). nia. }
      apply le_INR in Hk. change (INR 1) with 1 in Hk. nra. }
    destruct Jx as [J|J]; [now apply B1|]. rewrite hpe_sym. now apply B1.
  Qed.
  Lemma plan_range u v : In (u, v) (flat_map cpairs plan0) -> (u < n)%nat /\ (v < n)%nat /\ u <> v.
  Proof.
    intros I. apply in_flat_map in I as (x & Hx & I). destruct (hcall_pairs_In radii angles T Rd t ord TS x u v I) as [Hu Hv]. repeat split; auto.
    intros <-. revert I. apply (hcall_pairs_irrefl radii angles T Rd DI t ord TS x u). now apply (hplan0_ok radii angles T Rd DI t ord TS).
  Qed.
  Lemma hmean_all w calls : Permutation (concat calls) plan0 ->
    prodR (concat calls) (hmean (sym w)) = prodR (all_pairs n) (fun uv => bern w (hqpair (fst uv) (snd uv)) (fst uv) (snd uv)).
  Proof.
    intros HP. rewrite (prodR_perm _ _ _ HP).
    transitivity (prodR (flat_map cpairs plan0) (fun uv => bern (sym w) (hqpair (fst uv) (snd uv)) (fst uv) (snd uv))).
    - rewrite prodR_flat_map. apply prodR_ext. intros x Hx. unfold hcall_mean. apply prodR_ext. intros [u v] Hp. cbn [fst snd]. now rewrite (hqpair_call x u v Hx Hp).
    - rewrite (prodR_norm _ n (fun u v => bern (sym w) (hqpair u v) u v)).
      + apply prodR_ext. intros [u v] I. apply all_pairs_In in I. cbn [fst snd]. unfold bern, sym. now rewrite (proj2 (Nat.ltb_lt u v)) by lia.
      + exact plan_range.
      + intros u v Hu Hv Hne. now apply (hplan0_pairs radii angles T Rd DI t ord TS).
      + intros u v. destruct (Nat.eq_dec u v) as [->|Hne]; [reflexivity|]. unfold bern. now rewrite hqpair_sym, !(sym_comm w u v) by exact Hne.
  Qed.
  Lemma keep_true nd x : hkeep T nd x = true.
  Proof. unfold hkeep. rewrite (not_zero HT). rewrite andb_false_r. apply orb_true_r. Qed.
  Lemma keep_id nd l : filter (hkeep T nd) l = l.
  Proof. apply filter_true. intros x _. apply keep_true. Qed.
End HLaw2.

Lemma omap_map {A B C} (f : B -> option C) (g : A -> B) L : omap f (map g L) = omap (fun x => f (g x)) L.
Proof. induction L as [|x L IH]; [reflexivity|]. cbn [map omap]. now rewrite IH. Qed.
Lemma omap_ext_in {A B} (f g : A -> option B) L : (forall x, In x L -> f x = g x) -> omap f L = omap g L.
Proof. induction L as [|x L IH]; intros H; [reflexivity|]. cbn [omap]. rewrite (H x) by now left. now rewrite IH by (intros; apply H; now right). Qed.
Lemma omap_app' {A B} (f : A -> option B) L M : omap f (L ++ M) = (do a <- omap f L; do b <- omap f M; Some (a ++ b)).
Proof.
  induction L as [|x L IH]; cbn [omap app obind]; [destruct (omap f M); reflexivity|]. destruct (f x); [|reflexivity]. cbn [obind]. rewrite IH. destruct (omap f L); [|reflexivity]. cbn [obind].
  destruct (omap f M); reflexivity.
Qed.
(** results with the counter *)
Definition lifted (k : N) (r : result tape) : result (tape * N) := {| evs := evs r; type1 := type1 r; type2 := type2 r; gen := (gen r, k) |}.
Lemma lift_threads t s tapes0 calls : forall tapes j (TT : list (tape * N)), (length calls <= length tapes)%nat ->
  (forall i, (i < length calls)%nat -> nth_error TT (j + i) = Some (nth i tapes (fun _ => zero_draw), 0%N)) ->
  omap (fun ic => do g <- nth_error TT (fst ic); hrun_calls t (hb (tape_hrng tapes0)) (snd ic) g) (combine (seq j (length calls)) calls) =
  match hthreads t s calls tapes with Some rs => Some (map (lifted 0) rs) | None => None end.
Proof.
  induction calls as [|xs calls IH]; intros tapes j TT Hl HT; [reflexivity|]. destruct tapes as [|tp tapes]; [cbn in Hl; lia|].
  cbn [length seq combine omap fst snd]. pose proof (HT 0%nat ltac:(cbn; lia)) as H0. rewrite Nat.add_0_r in H0. cbn [nth] in H0. rewrite H0. cbn [obind].
  unfold hthreads. cbn [combine omap fst snd]. pose proof (calls_lift t s tapes0 0%N xs tp) as CL. cbn [hb tape_hrng G] in *.
  match goal with |- obind ?x _ = _ => replace x with (lift 0 (hrun_calls t (tape_rng s) xs tp)) by (symmetry; exact CL) end.
  match goal with |- context [obind (hrun_calls t (tape_rng s) xs ?z)] => change (hrun_calls t (tape_rng s) xs z) with (hrun_calls t (tape_rng s) xs tp) end.
  destruct (hrun_calls t (tape_rng s) xs tp) as [r|]; [|reflexivity]. cbn [lift obind].
  specialize (IH tapes (S j) TT ltac:(cbn in Hl; lia)). fold (hthreads t s calls tapes).
  match goal with |- obind ?x _ = _ => replace x with (match hthreads t s calls tapes with Some rs => Some (map (lifted 0) rs) | None => None end) end.
  - destruct (hthreads t s calls tapes); reflexivity.
  - symmetry. apply IH. intros i Hi. specialize (HT (S i) ltac:(cbn; lia)). replace (S j + i)%nat with (j + S i)%nat by lia. exact HT.
Qed.
Lemma edges_lifted rs : flat_map edges_of (map (lifted 0) rs) = flat_map edges_of rs.
Proof. induction rs as [|r rs IH]; [reflexivity|]. cbn [map flat_map]. now rewrite IH. Qed.

Section Runs.
  Context {radii angles : list R} {T Rd : R} {omp_max team : nat} (HI : hrg_input radii angles Rd omp_max team).
  Hypotheses (HT : 1 / IZR (2 ^ 52) < T).
  Variables (t : htree) (ord : list nat) (TS : htree_spec radii angles T Rd t ord).
  Variables (nd : bool) (part : list (N * N) -> list (N * N)) (HP : is_partition task_eq part).
  Notation DI := (use_di HI).
  Notation plan0 := (hplan Rd t (N.to_nat (h_levels t - 1)) 0%N 0%N 0%N).
  (** what generate does with the tapes: the same in every schedule *)
  Lemma gen_calls seed : returns Rd omp_max team ->
    exists calls, Permutation (concat calls) plan0 /\ (1 <= length calls <= 15 * omp_max)%nat /\
    forall s0 tapes, (length calls <= length tapes)%nat -> forall ors, generate_outcome nd part t (tape_hrng tapes) seed omp_max team ors ->
      exists rss rs, ors = Some rss /\ (length rss <= omp_max)%nat /\ hthreads t s0 calls tapes = Some rs /\ Permutation (concat rss) (map (lifted 0) rs).
  Proof.
    intros HRet. destruct (omp_nat _ (hi_omp _ _ _ _ _ HI)) as [O1 O2].
    pose proof (proj2 (use_finishing HI T t ord TS) HRet) as HF. destruct HF as [[E1 _]|(N2 & E2 & fpl & Ef & HL)].
    - exists [plan0]. cbn [concat length]. rewrite app_nil_r. split; [reflexivity|]. split; [lia|]. intros s0 tapes Lt ors (z & Hz & Ho).
      pose proof (levels_pos radii angles T Rd t ord TS) as LP0.
      rewrite E1 in Ho. cbn [Nat.eqb] in Ho. rewrite (hvisit_eq radii angles T Rd DI t ord TS nd (N.to_nat (h_levels t - 1))) in Ho; try exact root_lv; try lia;
        try (pose proof (levels_pos radii angles T Rd t ord TS); lia).
      rewrite (keep_id HT) in Ho. cbn [obind] in Ho. destruct tapes as [|tp tapes]; [cbn in Lt; lia|]. cbn [rseed hb tape_hrng nth] in Ho.
      pose proof (calls_lift t s0 (tp :: tapes) 0%N plan0 tp) as CL.
      match type of Ho with ors = obind ?x _ => replace x with (lift 0 (hrun_calls t (tape_rng s0) plan0 tp)) in Ho by (symmetry; exact CL) end.
      destruct (hcalls_decided radii angles T Rd DI t ord TS (tape_rng s0) (tape_good s0) plan0 ltac:(apply (hplan0_ok radii angles T Rd DI t ord TS)) tp) as (r & Er & _).
      rewrite Er in Ho. cbn [lift obind] in Ho. exists [[lifted 0 r]], [r]. split; [exact Ho|]. split; [cbn; lia|]. split; [|reflexivity].
      unfold hthreads. cbn [combine omap fst snd]. match goal with |- obind ?x _ = _ => replace x with (Some r) by (symmetry; exact Er) end. reflexivity.
    - destruct (fpl_defined omp_max ltac:(lia)) as (f & Ef' & Hf & F1 & F2). rewrite Ef in Ef'. injection Ef' as <-. destruct (num_tasks_defined fpl Hf) as (ntask & Ek).
      pose proof (created_eq radii angles T Rd DI t ord TS fpl ltac:(lia) HL) as Ec.
      set (sp := hseqplan Rd t fpl (N.to_nat (h_levels t - 1)) 0%N 0%N 0%N) in *. set (tasks := part (snd sp)) in *.
      assert (PT : Permutation tasks (snd sp)) by apply HP.
      assert (LT : length tasks = N.to_nat ntask).
      { rewrite (Permutation_length PT). destruct (task_count fpl ntask ltac:(lia) Ek) as (ts & E & L). rewrite Ec in E. injection E as E. rewrite E. lia. }
      set (samples := map (fun tid => fst (my_calls (omp_max - 1) tid (fst sp))) (seq 0 (omp_max - 1))).
      set (works := map (fun ab => hplan Rd t (N.to_nat (h_levels t - 1 - fpl)) (fst ab) (snd ab) fpl) tasks).
      assert (Ls : length samples = (omp_max - 1)%nat) by (unfold samples; now rewrite map_length, seq_length).
      assert (Lw : length works = N.to_nat ntask) by (unfold works; now rewrite map_length).
      assert (PC : Permutation (concat (samples ++ works)) plan0).
      { rewrite concat_app. pose proof (hphases Rd t fpl HL ltac:(lia)) as PH. fold sp in PH. rewrite PH. apply Permutation_app.
        - unfold samples. rewrite <- flat_map_concat_map. apply round_robin; [lia|reflexivity].
        - unfold works. rewrite <- flat_map_concat_map. now apply Permutation_flat_map. }
      exists (samples ++ works). split; [exact PC|]. rewrite app_length, Ls, Lw. split.
      { split; [lia|]. assert (NT : (ntask <= 14 * N.of_nat omp_max)%N); [|lia].
        assert (P2 : (2 ^ fpl <= 4 * N.of_nat omp_max)%N).
        { assert (Pf : (2 ^ fpl = 2 * 2 ^ (fpl - 1))%N) by (replace fpl with (1 + (fpl - 1))%N at 1 by lia; rewrite N.pow_add_r; reflexivity).
          assert (Q : (pow2R (fpl - 1) < INR (2 * omp_max))%R).
          { replace (fpl - 1)%N with (N.of_nat (N.to_nat (fpl - 1))) by lia. rewrite pow2R_nat. apply log2R_pow_iff; [apply lt_0_INR; lia|].
            rewrite INR_IZR_INZ. replace (Z.of_nat (N.to_nat (fpl - 1))) with (Z.of_N fpl - 1)%Z by lia. rewrite minus_IZR. lra. }
          unfold pow2R in Q. rewrite INR_IZR_INZ in Q. apply lt_IZR in Q. lia. }
        unfold num_tasks in Ek. destruct (N.eqb_spec fpl 2); [injection Ek as <-; lia|]. destruct (N.eqb_spec fpl 0); [discriminate|]. destruct (_ <? _)%N; [|discriminate]. assert (Ek' : ntask = (2 * 2 ^ fpl + 3 * 2 ^ (fpl - 1))%N) by congruence.
        assert (Pf : (2 ^ fpl = 2 * 2 ^ (fpl - 1))%N) by (replace fpl with (1 + (fpl - 1))%N at 1 by lia; rewrite N.pow_add_r; reflexivity).
        clear - Ek' Pf P2. revert Ek' Pf P2. generalize (2 ^ fpl)%N as a, (2 ^ (fpl - 1))%N as b. intros a b Ek' Pf P2. lia. }
      intros s0 tapes Lt ors (z & Hz & Ho). destruct (Nat.eqb_spec omp_max 1) as [|_]; [lia|]. rewrite Ef in Ho. cbn [obind] in Ho. rewrite Ek in Ho. cbn [obind] in Ho.
      rewrite Ec in Ho. rewrite (proj2 (N.ltb_lt _ _) HL) in Ho. rewrite E2 in Ho. destruct Ho as (k & m & fin & HS & HF & Ho). fold tasks in HS, Ho.
      set (gens := initialize_prngs (tape_hrng tapes) (omp_max - 1 + N.to_nat ntask) z) in *.
      assert (Lg : length gens = (omp_max - 1 + N.to_nat ntask)%nat) by apply prngs_len.
      destruct (par_run radii angles T Rd DI t ord TS (tape_hrng tapes) (tape_hgood tapes) nd part HP omp_max fpl ntask N2 ltac:(lia) HL Ek gens Lg k m fin HS HF) as (rss & Q1 & Q2 & _ & us & U1 & U2).
      fold sp tasks in Q1, U1, U2. rewrite Q1 in Ho. set (units := map USample (seq 0 (omp_max - 1)) ++ map UTask (seq 0 (length tasks))) in *.
      assert (EU : omap (unit_result nd t (tape_hrng tapes) fpl omp_max tasks gens) units =
        omap (fun ic => do g <- nth_error gens (fst ic); hrun_calls t (hb (tape_hrng tapes)) (snd ic) g) (combine (seq 0 (length (samples ++ works))) (samples ++ works))).
      { rewrite app_length, Ls, Lw, seq_app. unfold units. rewrite omap_app'.
        assert (CA : forall (A B : Type) (a1 a2 : list A) (b1 b2 : list B), length a1 = length b1 -> combine (a1 ++ a2) (b1 ++ b2) = combine a1 b1 ++ combine a2 b2).
        { intros A B a1. induction a1 as [|x a1 IH]; intros a2 b1 b2 E; destruct b1 as [|y b1]; try discriminate; [reflexivity|]. cbn [app combine]. f_equal. apply IH. now injection E. }
        rewrite CA by (now rewrite seq_length, Ls). rewrite omap_app'.
        assert (CM : forall (B : Type) (f : nat -> B) a l, combine (seq a l) (map f (seq 0 l)) = map (fun i => (a + i, f i)%nat) (seq 0 l)).
        { intros B f a l. assert (G : forall c, combine (seq (a + c) l) (map f (seq c l)) = map (fun i => (a + i, f i)%nat) (seq c l)); [|specialize (G 0%nat); now rewrite Nat.add_0_r in G].
          induction l as [|l IH]; intros c; [reflexivity|]. cbn [seq map combine]. f_equal. specialize (IH (S c)). rewrite Nat.add_succ_r in IH. exact IH. }
        assert (E3 : omap (unit_result nd t (tape_hrng tapes) fpl omp_max tasks gens) (map USample (seq 0 (omp_max - 1))) =
          omap (fun ic => do g <- nth_error gens (fst ic); hrun_calls t (hb (tape_hrng tapes)) (snd ic) g) (combine (seq 0 (omp_max - 1)) samples)).
        { unfold samples. rewrite CM, !omap_map. apply omap_ext_in. intros tid Hin. apply in_seq in Hin. cbn [unit_result fst snd].
          rewrite (hsample_eq radii angles T Rd DI t ord TS fpl (omp_max - 1) HL (N.to_nat (h_levels t - 1)) (N.to_nat fpl) 0%N 0%N 0%N tid); try exact root_lv; try lia.
          fold sp. destruct (my_calls (omp_max - 1) tid (fst sp)) as [cs s']. reflexivity. }
        assert (E4 : omap (unit_result nd t (tape_hrng tapes) fpl omp_max tasks gens) (map UTask (seq 0 (length tasks))) =
          omap (fun ic => do g <- nth_error gens (fst ic); hrun_calls t (hb (tape_hrng tapes)) (snd ic) g) (combine (seq (0 + (omp_max - 1)) (N.to_nat ntask)) works)).
        { assert (EW : works = map (fun i => match nth_error tasks i with Some ab => hplan Rd t (N.to_nat (h_levels t - 1 - fpl)) (fst ab) (snd ab) fpl | None => [] end) (seq 0 (N.to_nat ntask))).
          { unfold works. rewrite <- LT. clear. induction tasks as [|a l IH]; [reflexivity|]. cbn [length seq map nth_error]. f_equal. rewrite IH, <- seq_shift, map_map. reflexivity. }
          rewrite EW, CM, LT, !omap_map. apply omap_ext_in. intros i Hin. apply in_seq in Hin. cbn [unit_result fst snd].
          destruct (nth_error tasks i) as [ab|] eqn:Ea; [|apply nth_error_None in Ea; lia]. cbn [obind].
          pose proof (nth_error_In _ _ Ea) as Hab. apply (Permutation_in _ PT) in Hab as Hab'.
          destruct (tasks_lv radii angles T Rd DI t ord TS fpl HL (N.to_nat (h_levels t - 1)) 0%N 0%N 0%N ltac:(lia) root_lv root_lv ab Hab') as [HA HB].
          rewrite (hvisit_eq radii angles T Rd DI t ord TS nd (N.to_nat (h_levels t - 1 - fpl))); auto; try lia. rewrite (keep_id HT). reflexivity. }
        now rewrite E3, E4. }
      assert (LTH := lift_threads t s0 tapes (samples ++ works) tapes 0 gens).
      lapply LTH; [clear LTH; intros LTH|rewrite app_length, Ls, Lw; exact Lt].
      lapply LTH; [clear LTH; intros LTH|].
      2:{ intros i Hi. rewrite app_length, Ls, Lw in Hi. unfold gens. rewrite prngs_eq. rewrite Nat.add_0_l. 
          rewrite (map_nth_error _ i (seq 0 (omp_max - 1 + N.to_nat ntask)) (d := i)); [reflexivity|]. rewrite nth_error_nth' with (d := 0%nat) by (rewrite seq_length; exact Hi). now rewrite seq_nth by exact Hi. }
      assert (EU' := eq_trans EU LTH).
      assert (Hok : forall x, In x (concat (samples ++ works)) -> hcall_ok Rd t x).
      { intros x Hx. apply (Permutation_in _ PC) in Hx. revert Hx. apply (hplan0_ok radii angles T Rd DI t ord TS). }
      destruct (hthreads_ok HI t ord TS s0 (samples ++ works) Hok tapes) as (rs & ER & _); [rewrite app_length, Ls, Lw; exact Lt|].
      rewrite ER in EU'. exists rss, rs. split; [exact Ho|]. split; [lia|]. split; [exact ER|]. eapply omap_perm; [exact U1|exact U2|exact EU'].
  Qed.
End Runs.

Theorem hrg_law nd part radii angles T Rd seed omp_max team : hrg_input radii angles Rd omp_max team -> is_partition task_eq part ->
  1 / IZR (2 ^ 52) < T -> 2 * T * ln 99 <= Rd -> returns Rd omp_max team ->
  exists t ord q, htree_spec radii angles T Rd t ord /\ htree_outcome radii angles T Rd omp_max (Some t) /\ q = @hqpair radii angles T Rd t ord /\
    (forall u v, (u < length radii)%nat -> (v < length radii)%nat -> u <> v -> q u v = @hpe radii angles T Rd u v \/ (q u v = 0 /\ @hpe radii angles T Rd u v < 1 / 1000000)) /\
    forall k, (15 * omp_max <= k)%nat -> forall out : list tape -> option (list (nat * nat)),
    (forall tapes, length tapes = k -> hrg_outcome nd part (tape_hrng tapes) radii angles T Rd seed omp_max team (out tapes)) ->
    forall phi, expects_n k (fun tapes => match out tapes with
        | Some edges => prodR (all_pairs (length radii)) (fun uv => phi (fst uv) (snd uv) (joinedb edges (fst uv) (snd uv)))
        | None => 0 end)
      (prodR (all_pairs (length radii)) (fun uv => bern phi (q (fst uv) (snd uv)) (fst uv) (snd uv))).
Proof.
  intros HI HP HT HR99 HRet. destruct (omp_nat _ (hi_omp _ _ _ _ _ HI)) as [O1 O2]. pose proof (use_di HI) as DI.
  destruct (hbuild_ok radii angles T Rd (use_di HI) omp_max O1) as (t & ord & TS & HO & HU).
  exists t, ord, (@hqpair radii angles T Rd t ord). split; [exact TS|]. split; [exact HO|]. split; [reflexivity|]. split; [exact (hqpair_cases HI HT t ord TS)|].
  intros k Hk out Hout phi. destruct (gen_calls HI HT t ord TS nd part HP seed HRet) as (calls & PC & [L1 L2] & HG).
  assert (Hok : forall x, In x (concat calls) -> hcall_ok Rd t x).
  { intros x Hx. apply (Permutation_in _ PC) in Hx. revert Hx. apply (hplan0_ok radii angles T Rd (use_di HI) t ord TS). }
  set (s0 := seeded 0 []). rewrite <- (hmean_all HI t ord TS phi calls PC).
  eapply expects_n_ext; [|apply (hthreads_law HI HT HR99 t ord TS (sym phi) s0 calls Hok k); lia].
  intros tapes Lt. specialize (Hout tapes Lt). destruct Hout as (ot & Hot & Ho). rewrite (HU _ Hot) in Ho. destruct Ho as (ors & Hors & Ho).
  destruct (HG s0 tapes ltac:(lia) ors Hors) as (rss & rs & E1 & Lr & E2 & PR). rewrite E2. cbn [thr_wt]. rewrite E1 in Ho.
  destruct (collect_interleaving (2 ^ 20) omp_max (map (fun rs => flat_map edges_of rs) rss)) as [_ HC]; [rewrite map_length; exact Lr|].
  destruct (HC _ Ho) as (edges & -> & IL).
  destruct (hthreads_ok HI t ord TS s0 calls Hok tapes ltac:(lia)) as (rs' & E3 & Hevok & Hpairs). rewrite E2 in E3. injection E3 as <-.
  assert (Hpairs' : flat_map event_pairs (flat_map evs rs) = flat_map (hcall_pairs radii angles Rd ord) (concat calls)).
  { rewrite <- Hpairs. clear. unfold pairs_of. induction rs as [|r rs IH]; [reflexivity|]. cbn [flat_map]. now rewrite flat_map_app, IH. }
  pose proof (graph_weight phi (flat_map evs rs) (length radii) Hevok) as GW. etransitivity; [symmetry; apply GW|].
  3:{ apply prodR_ext. intros [u v] _. cbn [fst snd]. f_equal. apply eq_true_iff_eq. rewrite !joinedb_In.
    assert (Q : forall x, In x (flat_map event_edges (flat_map evs rs)) <-> In x edges); [|now rewrite !Q].
    intros x. rewrite (hedges_In rss edges x IL). transitivity (In x (flat_map edges_of (map (lifted 0) rs))).
    - rewrite edges_lifted. clear. unfold edges_of. induction rs as [|r rs IH]; cbn [flat_map]; [reflexivity|]. rewrite flat_map_app, !in_app_iff, IH. reflexivity.
    - pose proof (Permutation_flat_map edges_of PR) as PF. split; apply Permutation_in; [symmetry; exact PF|exact PF]. }
  - intros u v I. rewrite Hpairs' in I. apply (Permutation_in _ (Permutation_flat_map _ PC)) in I. now apply (plan_range HI t ord TS).
  - intros u v Hu Hv Hne. rewrite Hpairs', (cnt2_perm _ _ u v (Permutation_flat_map _ PC)). now apply (hplan0_pairs radii angles T Rd (use_di HI) t ord TS).
Qed.

(** runs exist: a single result for every choice of the draws *)
Lemma hrg_runs nd part radii angles T Rd seed omp_max team : hrg_input radii angles Rd omp_max team -> is_partition task_eq part -> returns Rd omp_max team ->
  exists out : list tape -> option (list (nat * nat)), forall tapes, hrg_outcome nd part (tape_hrng tapes) radii angles T Rd seed omp_max team (out tapes).
Proof.
  intros HI HP HRet. destruct (omp_nat _ (hi_omp _ _ _ _ _ HI)) as [O1 O2].
  destruct (hbuild_ok radii angles T Rd (use_di HI) omp_max O1) as (t & ord & TS & HO & HU).
  pose proof (proj2 (use_finishing HI T t ord TS) HRet) as HF.
  assert (Ex : exists orsf : forall tapes, option (list (list (result (G (hb (tape_hrng tapes)))))), forall tapes, generate_outcome nd part t (tape_hrng tapes) seed omp_max team (orsf tapes)).
  { destruct HF as [[E1 _]|(N2 & E2 & fpl & Ef & HL)].
    - eexists (fun tapes => _). intros tapes. exists seed. split; [reflexivity|]. rewrite E1. cbn [Nat.eqb]. reflexivity.
    - destruct (fpl_defined omp_max ltac:(lia)) as (f & Ef' & Hf & F1 & F2). rewrite Ef in Ef'. injection Ef' as <-. destruct (num_tasks_defined fpl Hf) as (ntask & Ek).
      pose proof (created_eq radii angles T Rd (use_di HI) t ord TS fpl ltac:(lia) HL) as Ec.
      destruct (can_finish omp_max (length (part (snd (hseqplan Rd t fpl (N.to_nat (h_levels t - 1)) 0%N 0%N 0%N)))) true 0 0 (pinit omp_max) eq_refl ltac:(lia) (psteps_refl _ _ _ _)) as (k' & fin & HS & HFin).
      eexists (fun tapes => _). intros tapes. exists seed. split; [reflexivity|]. destruct (Nat.eqb_spec omp_max 1) as [|_]; [lia|]. rewrite Ef. cbn [obind]. rewrite Ek. cbn [obind].
      rewrite Ec. rewrite (proj2 (N.ltb_lt _ _) HL). rewrite E2. exists (k' + 0)%nat, 0%nat, fin. split; [exact HS|]. split; [exact HFin|]. reflexivity. }
  destruct Ex as (orsf & Horsf).
  exists (fun tapes => match orsf tapes with None => None | Some rss =>
    (do s <- brun (2 ^ 20) (concat (map (fun tc => thread_acts (fst tc) (snd tc)) (combine (seq 0 (length (map (fun rs => flat_map edges_of rs) rss))) (map (fun rs => flat_map edges_of rs) rss)))) (repeat [] omp_max, []); Some (snd s ++ concat (fst s))) end).
  intros tapes. exists (Some t). split; [exact HO|]. exists (orsf tapes). split; [apply Horsf|]. destruct (orsf tapes) as [rss|]; [|reflexivity].
  unfold collect. eexists. split; [apply interleaving_concat|reflexivity].
Qed.
