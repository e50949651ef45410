(** The calls behind a run of the hyperbolic generator, and the pairs of points a threshold graph compares. *)
From Coq Require Import Arith NArith ZArith List Bool Reals Permutation Lia Lra.
From Flocq Require Import Core.
From Verif Require Import Base Sched Bits_Proofs Coord_Model Coord_Proofs Coord_Geo Tree_Model Cover Tree_Proofs Tree_Build Tree_Plan Tree_Run Girg_Model Girg_Proofs Girg_Num
  Hyp_Model Hyp_Math Hyp_Angle Hyp_Levels Hyp_Build Hyp_Run Hyp_Sched Hyp_Threads Hyp_Gen Cost_Touch.
Import ListNotations.
Local Open Scope nat_scope.

(** the pairs of nodes that were looked at one by one *)
Definition compared_of {T} (r : result T) : list (nat * nat) := flat_map (fun e => match e with EPair u v _ => [(u, v)] | EBlock _ _ _ => [] end) (evs r).
Section Calls.
  Variables (radii angles : list R) (T Rd : R).
  Hypotheses (DI : disc_input radii angles Rd).
  Variables (t : htree) (ord : list nat) (TS : htree_spec radii angles T Rd t ord).
  Variables (hg : hrng) (GG : good_rng (hb hg)) (nd : bool).
  Variables (part : list (N * N) -> list (N * N)) (HP : is_partition task_eq part).
  Notation n := (length radii).
  Notation levels := (h_levels t).
  Notation seqplan := (hseqplan Rd t).
  Notation plan := (hplan Rd t).
  Notation plan0 := (hplan Rd t (N.to_nat (levels - 1)) 0%N 0%N 0%N).
  Notation keep := (hkeep T nd).
  Notation cpairs := (hcall_pairs radii angles Rd ord).
  Notation lay := (hlay radii Rd).
  Notation cel := (Hyp_Build.cel angles).

  (** every result of a run is that of some calls with some generator; together the calls are those of the plan *)
  Definition from_calls (cs : list call) (r : result (G (hb hg))) : Prop :=
    (forall x, In x cs -> hcall_ok Rd t x) /\ exists g, hrun_calls t (hb hg) cs g = Some r.
  Lemma unit_from nt fpl ntask gens u r : 2 <= nt -> (2 <= fpl)%N -> (fpl < levels)%N -> num_tasks fpl = Some ntask -> length gens = nt - 1 + N.to_nat ntask ->
    unit_ok nt ntask u -> unit_result nd t hg fpl nt (part (snd (seqplan fpl (N.to_nat (levels - 1)) 0%N 0%N 0%N))) gens u = Some r ->
    from_calls (unit_calls T Rd t nd part nt fpl u) r.
  Proof.
    intros Hnt Hfpl Hlv Hnum Hgens. destruct u as [tid|i]; cbn [unit_ok unit_result unit_calls]; intros Hu.
    - rewrite (hsample_eq radii angles T Rd DI t ord TS fpl (nt - 1) Hlv (N.to_nat (levels - 1)) (N.to_nat fpl) 0%N 0%N 0%N tid); try exact root_lv; try lia.
      destruct (my_calls (nt - 1) tid (fst (seqplan fpl (N.to_nat (levels - 1)) 0%N 0%N 0%N))) as [cs s'] eqn:Ec. cbn [obind fst].
      destruct (nth_error gens tid) as [g|] eqn:Eg; [|apply nth_error_None in Eg; lia]. cbn [obind]. intros H. split; [|exists g; exact H].
      intros x Hx. eapply (sp_ok radii angles T Rd DI t ord TS hg nt fpl ntask); try eassumption. apply (my_calls_In (nt - 1) tid). rewrite Ec. exact Hx.
    - destruct (nth_error (part _) i) as [ab|] eqn:Ea; [|discriminate]. cbn [obind].
      pose proof (nth_error_In _ _ Ea) as Hab. pose proof (Permutation_in _ (tasks_perm Rd t part HP fpl) Hab) as Hab'.
      destruct (tasks_lv radii angles T Rd DI t ord TS fpl Hlv (N.to_nat (levels - 1)) 0%N 0%N 0%N ltac:(lia) root_lv root_lv ab Hab') as [HA HB].
      rewrite (hvisit_eq radii angles T Rd DI t ord TS nd (N.to_nat (levels - 1 - fpl))); auto; try lia. cbn [obind].
      destruct (nth_error gens (nt - 1 + i)) as [g|] eqn:Eg; [|discriminate]. cbn [obind]. intros H. split; [|exists g; exact H].
      intros x Hx. apply filter_In in Hx as [Hx _]. eapply (task_ok radii angles T Rd DI t ord TS hg part HP nt fpl ntask); eassumption.
  Qed.
  Lemma omap_Forall2 {A B} (f : A -> option B) L ys : omap f L = Some ys -> Forall2 (fun x y => f x = Some y) L ys.
  Proof.
    revert ys. induction L as [|x L IH]; intros ys H; cbn [omap] in H; [injection H as <-; constructor|]. destruct (f x) as [y|] eqn:E; [|discriminate]. cbn [obind] in H.
    destruct (omap f L) as [ys'|]; [|discriminate]. cbn [obind] in H. injection H as <-. constructor; [exact E|]. now apply IH.
  Qed.
  Lemma Forall2_map_l {A B C} (f : A -> B) (P : B -> C -> Prop) L ys : Forall2 (fun x y => P (f x) y) L ys -> Forall2 P (map f L) ys.
  Proof. induction 1; cbn; constructor; auto. Qed.
  Lemma Forall2_In {A B} (P Q : A -> B -> Prop) L ys : (forall x y, In x L -> P x y -> Q x y) -> Forall2 P L ys -> Forall2 Q L ys.
  Proof. intros H F. induction F as [|x y L ys HP' F IH]; constructor; [apply H; [now left|exact HP']|]. apply IH. intros a b Ha. apply H. now right. Qed.
  Theorem generate_calls seed nt team rss : 1 <= nt <= N.to_nat (2 ^ 17) -> 1 <= team <= nt -> generate_outcome nd part t hg seed nt team (Some rss) ->
    exists css, Forall2 from_calls css (concat rss) /\ almost_plan T Rd t nd (concat css).
  Proof.
    intros Hnt Hteam HG. destruct (generate_ok radii angles T Rd DI t ord TS hg GG nd part HP seed nt team Hnt Hteam) as (_ & NF & _).
    unfold generate_outcome in *. destruct (Nat.eqb_spec nt 1) as [->|HN].
    - destruct HG as (s & _ & E).
      rewrite (hvisit_eq radii angles T Rd DI t ord TS nd (N.to_nat (levels - 1))) in E; [|pose proof (levels_pos radii angles T Rd t ord TS); lia|f_equal; lia|lia|exact root_lv|exact root_lv].
      cbn [obind] in E. destruct (hrun_calls t (hb hg) (filter keep plan0) (rseed (hb hg) s)) as [r|] eqn:Er; [|discriminate]. cbn [obind] in E. injection E as ->.
      exists [filter keep plan0]. cbn [concat app]. split.
      + constructor; [|constructor]. split; [|eauto]. intros x Hx. apply filter_In in Hx as [Hx _]. now apply (hplan0_ok radii angles T Rd DI t ord TS).
      + rewrite app_nil_r. apply almost_seq.
    - destruct (fpl_defined nt ltac:(lia)) as (fpl & Ef & Hf & _). destruct (num_tasks_defined fpl Hf) as (k & Ek). rewrite Ef in *. cbn [obind] in *. rewrite Ek in *. cbn [obind] in *.
      destruct (task_count fpl k ltac:(lia) Ek) as (created & Ec & Lc). rewrite Ec in *.
      destruct (N.ltb_spec fpl levels) as [HL|HL].
      + destruct (Nat.eq_dec team nt) as [->|Hne].
        * pose proof (created_eq radii angles T Rd DI t ord TS fpl ltac:(lia) HL) as Ec'. rewrite Ec in Ec'. injection Ec' as ->.
          destruct HG as (s1 & E1 & k1 & m1 & f1 & HS1 & HF1 & G1).
          set (gens := initialize_prngs hg (nt - 1 + N.to_nat k) s1) in *. assert (HGn : length gens = nt - 1 + N.to_nat k) by apply prngs_len.
          destruct (par_run radii angles T Rd DI t ord TS hg GG nd part HP nt fpl k ltac:(lia) ltac:(lia) HL Ek gens HGn _ _ f1 HS1 HF1) as (r1 & Q1 & _ & _ & us & U & V).
          rewrite <- G1 in Q1. injection Q1 as <-. exists (map (unit_calls T Rd t nd part nt fpl) us). split.
          -- apply Forall2_map_l. apply omap_Forall2 in V. revert V. apply Forall2_In. intros u r Hu Hr.
             apply (unit_from nt fpl k gens); try assumption; try lia. apply (Permutation_in _ U), in_app_or in Hu.
             destruct Hu as [Hu|Hu]; apply in_map_iff in Hu as (i & <- & Hi); apply in_seq in Hi; cbn [unit_ok]; [lia|].
             assert (TL : length (part (snd (seqplan fpl (N.to_nat (levels - 1)) 0%N 0%N 0%N))) = N.to_nat k) by (eapply (tasks_len radii angles T Rd DI t ord TS hg part HP nt fpl k); try eassumption; lia). lia.
          -- rewrite <- flat_map_concat_map. eapply (almost_par T Rd t hg nd part HP nt fpl k); try eassumption; lia.
        * exfalso. apply (NF ltac:(intros [H|(_ & H & _)]; [lia|contradiction]) (Some rss)). exact HG.
      + exfalso. apply (NF) with (o := Some rss); [|exact HG]. intros [H|(_ & _ & fpl' & H1 & H2)]; [lia|]. rewrite Ef in H1. injection H1 as <-. lia.
  Qed.

  (** ** threshold graphs: what is compared *)
  Lemma decideI_compared : forall ps g es g', hdecideI t (hb hg) ps g = Some (es, g') -> flat_map (fun e => match e with EPair u v _ => [(u, v)] | EBlock _ _ _ => [] end) es = flat_map event_pairs es.
  Proof.
    induction ps as [|[a b] ps IH]; intros g es g' H; cbn [hdecideI] in H; [injection H as <- <-; reflexivity|].
    destruct (if threshold_mode (h_T t) then _ else _) as [[hit g1]|]; [|discriminate]. cbn [obind] in H. destruct (hdecideI t (hb hg) ps g1) as [[es' g2]|] eqn:E; [|discriminate]. cbn [obind] in H.
    injection H as <- <-. cbn [flat_map event_pairs app]. f_equal. exact (IH _ _ _ E).
  Qed.
  Lemma typeI_compared A B l i j g r : hsampleTypeI t (hb hg) A B l i j g = Some r -> compared_of r = pairs_of r.
  Proof.
    unfold hsampleTypeI. destruct (points_in t i A l) as [ra|]; [|discriminate]. cbn [obind]. destruct (points_in t j B l) as [rb|]; [|discriminate]. cbn [obind].
    destruct ra as [|a ra]; [intros H; injection H as <-; reflexivity|]. destruct rb as [|b rb]; [intros H; injection H as <-; reflexivity|]. cbv zeta.
    destruct (hdecideI t (hb hg) _ g) as [[es g']|] eqn:E; [|discriminate]. cbn [obind]. intros H. injection H as <-. exact (decideI_compared _ _ _ _ E).
  Qed.
  Hypothesis (T0 : T = 0%R).
  Lemma typeII_compared A B l i j g r : hsampleTypeII t (hb hg) A B l i j g = Some r -> compared_of r = [].
  Proof.
    unfold hsampleTypeII. destruct (points_in t i A l) as [ra|]; [|discriminate]. cbn [obind]. destruct (points_in t j B l) as [rb|]; [|discriminate]. cbn [obind].
    rewrite (hs_T _ _ _ _ _ _ TS), T0. unfold is_zero. destruct (Req_EM_T 0 0) as [_|N]; [|lra]. cbn [orb]. intros H. injection H as <-. reflexivity.
  Qed.
  Lemma calls_compared : forall cs g r, (forall x, In x cs -> hcall_ok Rd t x) -> hrun_calls t (hb hg) cs g = Some r -> compared_of r = flat_map cpairs (filter isI cs).
  Proof.
    induction cs as [|x cs IH]; intros g r OK H; cbn [hrun_calls] in H; [injection H as <-; reflexivity|].
    destruct (hrun_call t (hb hg) x g) as [r1|] eqn:E1; [|discriminate]. cbn [obind] in H. destruct (hrun_calls t (hb hg) cs (gen r1)) as [r2|] eqn:E2; [|discriminate]. cbn [obind] in H. injection H as <-.
    unfold compared_of. cbn [evs]. rewrite flat_map_app. change (compared_of r1 ++ compared_of r2 = flat_map cpairs (filter isI (x :: cs))).
    rewrite (IH _ _ (fun y Hy => OK y (or_intror Hy)) E2). pose proof (OK x (or_introl eq_refl)) as Ox. destruct x as [A B l i j|A B l i j]; cbn [filter isI hrun_call] in *.
    - rewrite (typeI_compared _ _ _ _ _ _ _ E1). cbn [flat_map]. f_equal. destruct Ox as (HA & HB & Hi & Hj & Hl).
      destruct (htypeI_ok radii angles T Rd DI t ord TS (hb hg) GG A B l i j g HA HB Hi Hj ltac:(lia)) as (r' & E' & D). rewrite E1 in E'. injection E' as <-. exact (hd_pairs _ _ _ _ _ _ _ D).
    - rewrite (typeII_compared _ _ _ _ _ _ _ E1). reflexivity.
  Qed.
  Lemma all_compared css rs : Forall2 from_calls css rs -> flat_map compared_of rs = flat_map cpairs (filter isI (concat css)).
  Proof.
    induction 1 as [|cs r css rs [OK (g & E)] F IH]; [reflexivity|]. rewrite concat_cons, filter_app, flat_map_app, <- IH, <- (calls_compared _ _ _ OK E). reflexivity.
  Qed.
  Theorem generate_compared seed nt team rss : 1 <= nt <= N.to_nat (2 ^ 17) -> 1 <= team <= nt -> generate_outcome nd part t hg seed nt team (Some rss) ->
    Permutation (flat_map compared_of (concat rss)) (flat_map cpairs (filter isI plan0)).
  Proof.
    intros Hnt Hteam HG. destruct (generate_calls seed nt team rss Hnt Hteam HG) as (css & F & (dr & P & HD & _)).
    transitivity (flat_map cpairs (filter isI (concat css))).
    - rewrite (all_compared _ _ F). reflexivity.
    - symmetry. apply Permutation_flat_map. rewrite (filter_Permutation isI _ _ P), filter_app. rewrite (filter_none isI dr HD), app_nil_r. reflexivity.
  Qed.

  (** ** ... which is decided by the cells of the points *)
  Notation pos u := (phi angles u / 2 / PI)%R.
  Lemma ring_near l a b : ang a -> ang b -> (ring l (hcel l a) (hcel l b) <=? 1)%N = near1 l (a / 2 / PI) (b / 2 / PI).
  Proof.
    intros Ha Hb. unfold near1, hcel, ring, cell_diff, axdist, axis_dist, hidx. set (x := coordR l (a / 2 / PI)). set (y := coordR l (b / 2 / PI)).
    pose proof (coordR_lt l _ (ang_unit a Ha)) as Lx. pose proof (coordR_lt l _ (ang_unit b Hb)) as Ly. fold x in Lx. fold y in Ly. set (S := (2 ^ l)%N) in *. set (f := hfc l). clearbody x y S f.
    apply Bool.eq_iff_eq_true. rewrite N.leb_le, Z.leb_le. lia.
  Qed.
  Lemma plan_I_touch : forall k A B l X Y m i j, In (CallI X Y m i j) (plan k A B l) -> htouchb X Y m = true.
  Proof.
    assert (F : forall A B l X Y m i j, ~ In (CallI X Y m i j) (gfar (h_layers t) levels (base Rd) A B l)).
    { intros A B l X Y m i j H. unfold gfar in H. apply in_flat_map in H as (l' & _ & H). apply in_map_iff in H as (ij & E & _). discriminate. }
    assert (Nr : forall A B l X Y m i j, In (CallI X Y m i j) (gnear (h_layers t) (base Rd) A B l) -> X = A /\ Y = B /\ m = l).
    { intros A B l X Y m i j H. unfold gnear in H. apply in_flat_map in H as (ij & _ & H). destruct (_ || _); [|destruct H]. destruct H as [H|[]]. injection H. auto. }
    induction k as [|k IH]; intros A B l X Y m i j; unfold hplan; cbn [gplan]; destruct (htouchb A B l) eqn:E; cbn [negb]; intros H; try (exfalso; revert H; apply F); apply in_app_or in H as [H|H]; try (destruct (Nr _ _ _ _ _ _ _ _ H) as (-> & -> & ->); exact E).
    - destruct H.
    - apply in_flat_map in H as (ab & _ & H). revert H. apply IH.
  Qed.
  Definition hlvl (u v : nat) : N := base Rd (lay u) (lay v).
  Lemma touch_near l u v : u < n -> v < n -> (l < levels)%N -> htouching (cel l u) (cel l v) l = Some (near1 l (pos u) (pos v)).
  Proof.
    intros Hu Hv Hl. pose proof (hlevel_bound radii angles T Rd DI t ord TS l Hl) as L30. pose proof (phi_ok radii angles Rd DI u Hu) as Au. pose proof (phi_ok radii angles Rd DI v Hv) as Av.
    unfold Hyp_Build.cel. rewrite (htouching_eq l) by (try lia; now apply hcel_in). f_equal. now apply ring_near.
  Qed.
  Lemma near1_coarser_k l k x y : (0 <= x < 1)%R -> (0 <= y < 1)%R -> near1 (l + N.of_nat k) x y = true -> near1 l x y = true.
  Proof.
    intros Hx Hy. induction k as [|k IH]; intros H; [now rewrite N.add_0_r in H|]. apply IH. apply near1_coarser; auto. replace (l + N.of_nat k + 1)%N with (l + N.of_nat (S k))%N by lia. exact H.
  Qed.
  Lemma compared_near x u v : In x plan0 -> In (u, v) (cpairs x) -> isI x = near1 (hlvl u v) (pos u) (pos v).
  Proof.
    intros Hx Huv. pose proof (hplan0_ok radii angles T Rd DI t ord TS x Hx) as OK.
    destruct (hcall_pairs_In radii angles T Rd t ord TS x u v Huv) as [Hu Hv].
    destruct x as [A B l i j|A B l i j]; cbn [isI].
    - assert (Q : lay u = i /\ cel l u = A /\ lay v = j /\ cel l v = B).
      { cbn [hcall_pairs] in Huv. destruct (N.eqb_spec A B) as [E|E]; cbn [andb] in Huv; [destruct (Nat.eqb_spec i j) as [E'|E']|].
        - apply uptri_In in Huv as [H1 H2]. apply (hV_In radii angles T Rd t ord TS) in H1, H2. subst. tauto.
        - apply in_prod_iff in Huv as [H1 H2]. apply (hV_In radii angles T Rd t ord TS) in H1, H2. tauto.
        - apply in_prod_iff in Huv as [H1 H2]. apply (hV_In radii angles T Rd t ord TS) in H1, H2. tauto. }
      destruct Q as (<- & <- & <- & <-). destruct OK as (_ & _ & Hi & Hj & El). fold (hlvl u v) in El. subst l.
      pose proof (plan_I_touch _ _ _ _ _ _ _ _ _ Hx) as TT. unfold htouchb in TT. destruct (hbase_ok radii angles T Rd DI t ord TS _ _ Hi Hj) as (_ & _ & B3 & _). rewrite touch_near in TT; auto.
    - cbn [hcall_pairs] in Huv. apply in_prod_iff in Huv as [H1 H2]. apply (hV_In radii angles T Rd t ord TS) in H1 as (_ & <- & <-), H2 as (_ & <- & <-).
      destruct OK as (_ & _ & Hi & Hj & El & TT). destruct (hbase_ok radii angles T Rd DI t ord TS _ _ Hi Hj) as (_ & _ & B3 & _). fold (hlvl u v) in El, B3. rewrite touch_near in TT by (auto; lia). injection TT as TT.
      symmetry. apply Bool.not_true_is_false. intros N. rewrite (near1_coarser_k l (N.to_nat (hlvl u v - l))) in TT; [discriminate| | |].
      + apply ang_unit, (phi_ok radii angles Rd DI u Hu).
      + apply ang_unit, (phi_ok radii angles Rd DI v Hv).
      + replace (l + N.of_nat (N.to_nat (hlvl u v - l)))%N with (hlvl u v) by lia. exact N.
  Qed.
  Lemma hlvl_sym u v : hlvl u v = hlvl v u.
  Proof. unfold hlvl. apply base_sym. Qed.
  Lemma compared_iff u v : u < n -> v < n -> u <> v ->
    (In (u, v) (flat_map cpairs (filter isI plan0)) \/ In (v, u) (flat_map cpairs (filter isI plan0)) <-> near1 (hlvl u v) (pos u) (pos v) = true).
  Proof.
    intros Hu Hv Huv. split.
    - intros [H|H]; apply in_flat_map in H as (x & Hx & H); apply filter_In in Hx as [Hx I].
      + now rewrite <- (compared_near x u v Hx H).
      + rewrite hlvl_sym, near1_sym. now rewrite <- (compared_near x v u Hx H).
    - intros N. pose proof (hplan0_pairs radii angles T Rd DI t ord TS u v Hu Hv Huv) as C. unfold cnt2 in C.
      destruct (in_dec pair_dec (u, v) (flat_map cpairs plan0)) as [H|H].
      + left. apply in_flat_map in H as (x & Hx & H). apply in_flat_map. exists x. split; [|exact H]. apply filter_In. split; [exact Hx|]. now rewrite (compared_near x u v Hx H).
      + apply (count_occ_not_In pair_dec) in H. assert (H2 : In (v, u) (flat_map cpairs plan0)) by (apply (count_occ_In pair_dec); lia). right. apply in_flat_map in H2 as (x & Hx & H2). apply in_flat_map. exists x. split; [|exact H2]. apply filter_In. split; [exact Hx|]. now rewrite (compared_near x v u Hx H2), hlvl_sym, near1_sym.
  Qed.
  Lemma compared_once u v : In (u, v) (flat_map cpairs (filter isI plan0)) -> u < n /\ v < n /\ u <> v /\ ~ In (v, u) (flat_map cpairs (filter isI plan0)).
  Proof.
    intros H. assert (HH : In (u, v) (flat_map cpairs plan0)). { apply in_flat_map in H as (x & Hx & H). apply filter_In in Hx as [Hx _]. apply in_flat_map. eauto. }
    pose proof HH as Q. apply in_flat_map in Q as (x & Hx & Q). destruct (hcall_pairs_In radii angles T Rd t ord TS x u v Q) as [Hu Hv].
    assert (N : u <> v). { intros <-. revert Q. apply (hcall_pairs_irrefl radii angles T Rd DI t ord TS). apply (hplan0_ok radii angles T Rd DI t ord TS). exact Hx. }
    split; [exact Hu|]. split; [exact Hv|]. split; [exact N|]. intros H2. assert (HH2 : In (v, u) (flat_map cpairs plan0)). { apply in_flat_map in H2 as (y & Hy & H2). apply filter_In in Hy as [Hy _]. apply in_flat_map. eauto. }
    pose proof (hplan0_pairs radii angles T Rd DI t ord TS u v Hu Hv N) as C. unfold cnt2 in C. apply (count_occ_In pair_dec) in HH, HH2. lia.
  Qed.
  Lemma compared_NoDup : NoDup (flat_map cpairs (filter isI plan0)).
  Proof.
    apply (NoDup_count_occ pair_dec). intros [u v]. destruct (in_dec pair_dec (u, v) (flat_map cpairs (filter isI plan0))) as [I|I]; [|apply (count_occ_not_In pair_dec) in I; lia].
    destruct (compared_once u v I) as (Hu & Hv & N & _). pose proof (hplan0_pairs radii angles T Rd DI t ord TS u v Hu Hv N) as C. unfold cnt2 in C.
    assert (LE : count_occ pair_dec (flat_map cpairs (filter isI plan0)) (u, v) <= count_occ pair_dec (flat_map cpairs plan0) (u, v)).
    { pose proof (perm_partition isI plan0) as PP. apply (Permutation_flat_map cpairs) in PP. rewrite (proj1 (Permutation_count_occ pair_dec _ _) PP (u, v)), flat_map_app, count_occ_app. lia. }
    lia.
  Qed.
End Calls.
