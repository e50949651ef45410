(** The work of the hyperbolic recursion: proofs. *)
From Coq Require Import Arith NArith ZArith List Bool Reals Permutation Lia Lra Psatz.
From Flocq Require Import Core.
From Verif Require Import Base Sched Bits_Model Bits_Proofs Coord_Model Coord_Proofs Tree_Model Cover Tree_Proofs Tree_Plan
  Hyp_Model Hyp_Math Hyp_Angle Hyp_Levels Hyp_Build Hyp_Run Hyp_Sched Hyp_Gen GirgCost_Model GirgCost_Proofs GirgCost_Count HypWork_Model.
Import ListNotations.
Local Open Scope N_scope.

(** ** the recorded invocations make the calls of Hyp_Model *)
Section Calls.
  Variables (t : htree).
  Lemma hvisits_calls nd : forall fuel A B l, hvisit nd t fuel A B l = do vs <- hvisits t fuel A B l; Some (flat_map (hvis_calls (nd && is_zero (h_T t)) t) vs).
  Proof.
    set (vc := hvis_calls (nd && is_zero (h_T t)) t).
    induction fuel as [|f IH]; intros A B l; cbn [hvisit hvisits]; destruct (htouching A B l) as [[]|] eqn:T; cbn [obind negb]; try reflexivity;
      try (cbn [flat_map]; unfold vc, hvis_calls; rewrite T, app_nil_r; reflexivity); destruct (l =? h_levels t - 1); cbn [obind flat_map]; try (unfold vc, hvis_calls; rewrite T, ?app_nil_r; reflexivity); try reflexivity.
    rewrite (omap_comp (fun ab => hvisits t f (fst ab) (snd ab) (l + 1)) _ (flat_map vc)) by (intros ab; apply IH).
    destruct (omap _ _) as [rs|]; [|reflexivity]. cbn [obind flat_map]. rewrite concat_map_flat. unfold vc at 2. unfold hvis_calls. now rewrite T.
  Qed.
  Lemma hsample_visits_calls fpl nt : forall fuel A B l s, hsample t fpl nt fuel A B l s = do vs <- hsample_visits t fpl fuel A B l; Some (my_calls nt s (flat_map (hvis_calls false t) vs)).
  Proof.
    set (vc := hvis_calls false t).
    assert (V1 : forall A B l, htouching A B l = Some true -> flat_map vc [(A, B, l)] = hnear_calls t A B l) by (intros A B l T; cbn [flat_map]; unfold vc, hvis_calls; rewrite T; apply app_nil_r).
    assert (V0 : forall A B l, htouching A B l = Some false -> flat_map vc [(A, B, l)] = hfar_calls t A B l) by (intros A B l T; cbn [flat_map]; unfold vc, hvis_calls; rewrite T; apply app_nil_r).
    induction fuel as [|f IH]; intros A B l s; cbn [hsample hsample_visits]; destruct (htouching A B l) as [[]|] eqn:T; cbn [obind negb]; try reflexivity; try (rewrite V0 by exact T; reflexivity);
      destruct (my_calls nt s (hnear_calls t A B l)) as [cs s1] eqn:EC; destruct (l =? h_levels t - 1); cbn [obind]; try (rewrite V1, EC by exact T; reflexivity);
      destruct (l + 1 =? fpl); cbn [obind]; try (rewrite V1, EC by exact T; reflexivity); try reflexivity.
    assert (G : forall L s, (fix children (abs : list (N * N)) (s : nat) : option (list call * nat) :=
           match abs with
           | [] => Some ([], s)
           | ab :: r => do (c1, s') <- hsample t fpl nt f (fst ab) (snd ab) (l + 1) s;
                        do (c2, s'') <- children r s';
                        Some (c1 ++ c2, s'')
           end) L s = do rs <- omap (fun ab => hsample_visits t fpl f (fst ab) (snd ab) (l + 1)) L; Some (my_calls nt s (flat_map vc (concat rs)))).
    { induction L as [|ab L IHL]; intros s'; [reflexivity|]. rewrite IH. cbn [omap]. destruct (hsample_visits t fpl f (fst ab) (snd ab) (l + 1)) as [v1|]; [|reflexivity]. cbn [obind].
      destruct (my_calls nt s' (flat_map vc v1)) as [c1 s2] eqn:E1. rewrite IHL. destruct (omap _ L) as [rs|]; [|reflexivity]. cbn [obind concat]. rewrite flat_map_app, my_calls_app, E1. cbn [fst snd]. destruct (my_calls nt s2 _); reflexivity. }
    rewrite G. destruct (omap _ _) as [rs|]; [|reflexivity]. cbn [obind]. change (flat_map vc ((A, B, l) :: concat rs)) with (vc (A, B, l) ++ flat_map vc (concat rs)).
    replace (vc (A, B, l)) with (hnear_calls t A B l) by (unfold vc, hvis_calls; now rewrite T). rewrite my_calls_app, EC. cbn [fst snd]. destruct (my_calls nt s1 _); reflexivity.
  Qed.
  Lemma hcreate_visits_tasks fpl : forall fuel A B l, hcreate fpl fuel A B l = do x <- hcreate_visits fpl fuel A B l; Some (snd x).
  Proof.
    induction fuel as [|f IH]; intros A B l; cbn [hcreate hcreate_visits]; destruct (htouching A B l) as [[]|] eqn:T; cbn [obind negb]; try reflexivity; destruct (l + 1 =? fpl); cbn [obind]; try reflexivity.
    rewrite (omap_comp (fun ab => hcreate_visits fpl f (fst ab) (snd ab) (l + 1)) _ snd) by (intros ab; apply IH). destruct (omap _ _) as [rs|]; reflexivity.
  Qed.
End Calls.

(** ** the invocations level by level *)
(** [lv]: number of levels *)
Section Plan.
  Variables (t : htree).
  Notation lv := (h_levels t).
  Hypothesis (H31 : lv <= 31).
  Lemma touchSome A B l : l < lv -> in_lv l A -> in_lv l B -> htouching A B l = Some (htouchb A B l).
  Proof. intros Hl HA HB. unfold htouchb. rewrite (htouching_eq l) by (auto; lia). reflexivity. Qed.
  Lemma child_lv A B l ab : l + 1 < lv -> in_lv l A -> in_lv l B -> In ab (hchild_pairs A B) -> in_lv (l + 1) (fst ab) /\ in_lv (l + 1) (snd ab).
  Proof. intros Hl HA HB H. destruct (hchild_pairs_in l A B ab ltac:(lia) HA HB H) as [H1 H2]. split; [apply (hkids_in_lv l A)|apply (hkids_in_lv l B)]; assumption. Qed.
  Fixpoint hvplan (k : nat) (A B l : N) : list vis :=
    (A, B, l) :: if htouchb A B l then match k with O => [] | S k' => flat_map (fun ab => hvplan k' (fst ab) (snd ab) (l + 1)) (hchild_pairs A B) end else [].
  Fixpoint hsqplan (fpl : N) (k : nat) (A B l : N) : list vis * list (N * N) :=
    if htouchb A B l then match k with
      | O => ([(A, B, l)], [])
      | S k' => let rs := map (fun ab => if l + 1 =? fpl then ([], [ab]) else hsqplan fpl k' (fst ab) (snd ab) (l + 1)) (hchild_pairs A B) in
                ((A, B, l) :: concat (map fst rs), concat (map snd rs))
      end else ([(A, B, l)], []).
  Lemma hvisits_eq : forall k fuel A B l, l < lv -> k = N.to_nat (lv - 1 - l) -> (k <= fuel)%nat -> in_lv l A -> in_lv l B -> hvisits t fuel A B l = Some (hvplan k A B l).
  Proof.
    induction k as [|k IH]; intros fuel A B l Hl Hk Hf HA HB; destruct fuel as [|f]; try lia; cbn [hvisits hvplan]; rewrite touchSome by assumption; cbn [obind]; destruct (htouchb A B l); cbn [negb]; try reflexivity.
    - destruct (N.eqb_spec l (lv - 1)); [reflexivity|lia].
    - destruct (N.eqb_spec l (lv - 1)); [reflexivity|lia].
    - destruct (N.eqb_spec l (lv - 1)); [lia|]. rewrite (omap_map _ (fun ab => hvplan k (fst ab) (snd ab) (l + 1))).
      + cbn [obind]. now rewrite flat_map_concat_map.
      + intros ab Hab. destruct (child_lv A B l ab ltac:(lia) HA HB Hab). apply IH; auto; lia.
  Qed.
  Lemma flat_nil {X} (L : list (N * N)) : concat (map (fun _ : N * N => @nil X) L) = [].
  Proof. induction L; auto. Qed.
  Lemma flat_one (L : list (N * N)) : concat (map (fun ab => [ab]) L) = L.
  Proof. induction L as [|a L IH]; [reflexivity|]. cbn. now rewrite IH. Qed.
  Lemma hsample_visits_eq fpl : fpl < lv -> forall k fuel A B l, l < fpl -> k = N.to_nat (lv - 1 - l) -> (N.to_nat (fpl - l) <= fuel)%nat -> in_lv l A -> in_lv l B ->
    hsample_visits t fpl fuel A B l = Some (fst (hsqplan fpl k A B l)) /\ hcreate_visits fpl fuel A B l = Some (hsqplan fpl k A B l).
  Proof.
    intros Hfp. induction k as [|k IH]; intros fuel A B l Hl Hk Hf HA HB; [lia|]. destruct fuel as [|f]; [lia|]. cbn [hsample_visits hcreate_visits hsqplan]. rewrite touchSome by (auto; lia). cbn [obind].
    destruct (htouchb A B l); cbn [negb]; [|split; reflexivity]. destruct (N.eqb_spec l (lv - 1)); [lia|]. destruct (N.eqb_spec (l + 1) fpl) as [E|E].
    - cbn [fst]. rewrite !map_map. cbn [fst snd]. rewrite flat_nil, flat_one. split; reflexivity.
    - assert (Q : forall ab, In ab (hchild_pairs A B) -> hsample_visits t fpl f (fst ab) (snd ab) (l + 1) = Some (fst (hsqplan fpl k (fst ab) (snd ab) (l + 1))) /\ hcreate_visits fpl f (fst ab) (snd ab) (l + 1) = Some (hsqplan fpl k (fst ab) (snd ab) (l + 1))).
      { intros ab Hab. destruct (child_lv A B l ab ltac:(lia) HA HB Hab). apply IH; auto; lia. }
      rewrite (omap_map _ (fun ab => fst (hsqplan fpl k (fst ab) (snd ab) (l + 1)))) by (intros ab Hab; apply Q, Hab).
      rewrite (omap_map _ (fun ab => hsqplan fpl k (fst ab) (snd ab) (l + 1))) by (intros ab Hab; apply Q, Hab). cbn [obind fst]. rewrite !map_map. split; reflexivity.
  Qed.
  Lemma hsq_pushes fpl : fpl < lv -> forall k A B l, l < fpl -> k = N.to_nat (lv - 1 - l) -> in_lv l A -> in_lv l B ->
    forall ab, In ab (snd (hsqplan fpl k A B l)) -> in_lv fpl (fst ab) /\ in_lv fpl (snd ab).
  Proof.
    intros Hfl. induction k as [|k IH]; intros A B l Hl Hk HA HB ab; cbn [hsqplan]; destruct (htouchb A B l); cbn [negb snd]; try (intros []; fail).
    rewrite map_map, <- flat_map_concat_map. intros H. apply in_flat_map in H as (xy & Hxy & H). destruct (child_lv A B l xy ltac:(lia) HA HB Hxy) as [Hx Hy].
    destruct (N.eqb_spec (l + 1) fpl) as [E|E].
    - cbn [snd] in H. destruct H as [<-|[]]. rewrite <- E. split; assumption.
    - revert H. apply IH; auto; lia.
  Qed.
  Lemma hsq_low fpl : forall k A B l v, l < fpl -> In v (fst (hsqplan fpl k A B l)) -> snd v < fpl.
  Proof.
    induction k as [|k IH]; intros A B l v Hl; cbn [hsqplan]; destruct (htouchb A B l); cbn [fst]; try (intros [<-|[]]; exact Hl).
    intros [<-|H]; [exact Hl|]. rewrite map_map, <- flat_map_concat_map in H. apply in_flat_map in H as (xy & _ & H). destruct (N.eqb_spec (l + 1) fpl) as [E|E]; [destruct H|]. revert H. apply IH. lia.
  Qed.
  Lemma hsq_partition fpl : forall k A B l, k = N.to_nat (lv - 1 - l) -> l < fpl -> l < lv ->
    Permutation (hvplan k A B l) (fst (hsqplan fpl k A B l) ++ flat_map (fun ab => hvplan (N.to_nat (lv - 1 - fpl)) (fst ab) (snd ab) fpl) (snd (hsqplan fpl k A B l))).
  Proof.
    induction k as [|k IH]; intros A B l Hk Hf Hl; cbn [hvplan hsqplan]; destruct (htouchb A B l); cbn [fst snd flat_map app]; try reflexivity.
    constructor. set (body := fun ab : N * N => hvplan (N.to_nat (lv - 1 - fpl)) (fst ab) (snd ab) fpl).
    assert (Q : forall L, Permutation (flat_map (fun ab => hvplan k (fst ab) (snd ab) (l + 1)) L)
      (concat (map fst (map (fun ab => if l + 1 =? fpl then ([], [ab]) else hsqplan fpl k (fst ab) (snd ab) (l + 1)) L)) ++
       flat_map body (concat (map snd (map (fun ab => if l + 1 =? fpl then ([], [ab]) else hsqplan fpl k (fst ab) (snd ab) (l + 1)) L))))).
    { induction L as [|ab L IHL]; [reflexivity|]. cbn [flat_map map concat]. rewrite flat_map_app, IHL.
      assert (PP : Permutation (hvplan k (fst ab) (snd ab) (l + 1)) (fst (if l + 1 =? fpl then ([], [ab]) else hsqplan fpl k (fst ab) (snd ab) (l + 1)) ++
        flat_map body (snd (if l + 1 =? fpl then ([], [ab]) else hsqplan fpl k (fst ab) (snd ab) (l + 1))))).
      { destruct (N.eqb_spec (l + 1) fpl) as [E|E]; [|apply IH; lia]. cbn [fst snd flat_map app]. rewrite app_nil_r. unfold body. rewrite <- E. replace (N.to_nat (lv - 1 - (l + 1))) with k by lia. reflexivity. }
      rewrite PP. rewrite <- !app_assoc. apply Permutation_app_head. apply Permutation_app_swap_app. }
    apply Q.
  Qed.

  (** *** counting *)
  Definition hnext (l : N) (X : list (N * N)) : list (N * N) := flat_map (fun ab => hchild_pairs (fst ab) (snd ab)) (filter (fun ab => htouchb (fst ab) (snd ab) l) X).
  Fixpoint hlevs (k : nat) (l : N) (X : list (N * N)) : list vis :=
    map (fun ab => (fst ab, snd ab, l)) X ++ match k with O => [] | S k' => hlevs k' (l + 1) (hnext l X) end.
  Lemma hvplan_levs : forall k l X, Permutation (flat_map (fun ab => hvplan k (fst ab) (snd ab) l) X) (hlevs k l X).
  Proof.
    induction k as [|k IH]; intros l X.
    - cbn [hlevs]. rewrite app_nil_r. induction X as [|ab X IHX]; [reflexivity|]. cbn [flat_map hvplan map]. destruct (htouchb _ _ _); cbn [app]; now constructor.
    - cbn [hlevs]. rewrite <- IH. unfold hnext. induction X as [|ab X IHX]; [reflexivity|]. cbn [flat_map hvplan map filter app]. constructor. destruct (htouchb (fst ab) (snd ab) l); cbn [app flat_map].
      + rewrite IHX, flat_map_app. apply Permutation_app_swap_app.
      + exact IHX.
  Qed.
  Definition hproper (l : N) (X : list (N * N)) : Prop := NoDup X /\ forall ab, In ab X -> in_lv l (fst ab) /\ in_lv l (snd ab).
  Lemma hcp_NoDup A B l : l < 31 -> in_lv l A -> in_lv l B -> NoDup (hchild_pairs A B).
  Proof.
    intros Hl HA HB. apply (Permutation_NoDup (Permutation_sym (hchild_pairs_eq l A B Hl HA HB))).
    assert (K : forall X, NoDup (hkids X)) by (intros X; unfold hkids; constructor; [intros [H|[]]; lia|constructor; [intros []|constructor]]).
    destruct (A =? B); [apply NoDup_filter|]; apply NoDup_list_prod; apply K.
  Qed.
  Lemma hcp_length A B : (length (hchild_pairs A B) <= 4)%nat.
  Proof. unfold hchild_pairs. destruct (A =? B); cbn; lia. Qed.
  Lemma kids_parent A A' a : In a (hkids A) -> In a (hkids A') -> A = A'.
  Proof. unfold hkids. intros [<-|[<-|[]]] [H|[H|[]]]; lia. Qed.
  Lemma hnext_proper l X : l + 1 < lv -> hproper l X -> hproper (l + 1) (hnext l X).
  Proof.
    intros Hl [ND LV]. split.
    - unfold hnext. apply NoDup_flat_map; [now apply NoDup_filter|intros ab I; apply filter_In in I as [I _]; destruct (LV _ I); apply (hcp_NoDup _ _ l); auto; lia|].
      intros [A B] [A' B'] z H1 H2 I1 I2. apply filter_In in H1 as [H1 _], H2 as [H2 _]. destruct (LV _ H1) as [LA LB], (LV _ H2) as [LA' LB']. cbn [fst snd] in *.
      destruct (hchild_pairs_in l A B z ltac:(lia) LA LB I1) as [C1 C2], (hchild_pairs_in l A' B' z ltac:(lia) LA' LB' I2) as [C3 C4]. rewrite (kids_parent A A' (fst z)), (kids_parent B B' (snd z)) by assumption. reflexivity.
    - intros ab I. unfold hnext in I. apply in_flat_map in I as ([A B] & I & J). apply filter_In in I as [I _]. destruct (LV _ I). now apply (child_lv A B l).
  Qed.
  (** a cell touches at most three cells *)
  Definition hnbs (l A : N) : list N := [A; if A =? hfc l then hfc (l + 1) - 1 else A - 1; if A + 1 =? hfc (l + 1) then hfc l else A + 1].
  Lemma hnbs_In l A B : l < 31 -> in_lv l A -> in_lv l B -> htouchb A B l = true -> In B (hnbs l A).
  Proof.
    intros Hl HA HB HT. unfold htouchb in HT. rewrite (htouching_eq l) in HT by (auto; lia). apply N.leb_le in HT. unfold ring, cell_diff in HT. unfold in_lv in HA, HB. rewrite hfc_succ in HA, HB. unfold hnbs. rewrite hfc_succ. cbn [In].
    set (p := 2 ^ l) in *. set (f := hfc l) in *. clearbody p f. destruct (N.eqb_spec A f), (N.eqb_spec (A + 1) (f + p)); lia.
  Qed.
  Definition hcells (l : N) : list N := Nrange (hfc l) (hfc (l + 1) - 1).
  Lemma hcells_In l A : In A (hcells l) <-> in_lv l A.
  Proof. unfold hcells. rewrite Nrange_In. unfold in_lv. pose proof (hfc_succ l). pose proof (pow2_pos l). lia. Qed.
  Lemma hcells_length l : length (hcells l) = N.to_nat (2 ^ l).
  Proof. unfold hcells, Nrange. rewrite map_length, seq_length. pose proof (hfc_succ l). pose proof (pow2_pos l). lia. Qed.
  Lemma htouching_pairs l L : l < 31 -> NoDup L -> (forall ab, In ab L -> in_lv l (fst ab) /\ in_lv l (snd ab) /\ htouchb (fst ab) (snd ab) l = true) -> (length L <= N.to_nat (2 ^ l) * 3)%nat.
  Proof.
    intros Hl ND H. rewrite <- hcells_length. etransitivity; [|apply (flat_map_le_length (fun A => map (fun B => (A, B)) (hnbs l A)) 3 (hcells l)); intros A _; rewrite map_length; cbn; lia].
    apply NoDup_incl_length; [exact ND|]. intros [A B] I. destruct (H _ I) as (HA & HB & T). cbn [fst snd] in *. apply in_flat_map. exists A. split; [now apply hcells_In|]. apply in_map. now apply hnbs_In.
  Qed.
  Lemma hnext_length l X : l + 1 < lv -> hproper l X -> (length (hnext l X) <= 6 * N.to_nat (2 ^ (l + 1)))%nat.
  Proof.
    intros Hl [ND LV]. unfold hnext. etransitivity; [apply (flat_map_le_length _ 4); intros ab _; apply hcp_length|].
    assert (T' : (length (filter (fun ab => htouchb (fst ab) (snd ab) l) X) <= N.to_nat (2 ^ l) * 3)%nat).
    { apply htouching_pairs; [lia|now apply NoDup_filter|]. intros ab I. apply filter_In in I as [I E]. destruct (LV _ I). split; [assumption|split; assumption]. }
    rewrite N.pow_add_r, N.pow_1_r. lia.
  Qed.
  Definition pw2 (m : nat) : nat := (2 ^ m)%nat.
  Lemma pw2_N l : pw2 (N.to_nat l) = N.to_nat (2 ^ l).
  Proof. unfold pw2. rewrite N2Nat.inj_pow. reflexivity. Qed.
  Lemma hlevs_sum (f : vis -> nat) (g : N -> nat) : (forall A B l, f (A, B, l) <= g l)%nat ->
    forall k l X, l + N.of_nat k < lv -> hproper l X -> (length X <= 6 * pw2 (N.to_nat l))%nat ->
    (list_sum (map f (hlevs k l X)) <= 6 * list_sum (map (fun m => pw2 m * g (N.of_nat m)%N) (seq (N.to_nat l) (S k))))%nat.
  Proof.
    intros Hf k. assert (S1 : forall X l, (list_sum (map f (map (fun ab : N * N => (fst ab, snd ab, l)) X)) <= length X * g l)%nat).
    { induction X as [|ab X IHX]; intros l; [cbn; lia|]. cbn [map length]. rewrite list_sum_cons. specialize (IHX l). specialize (Hf (fst ab) (snd ab) l). cbn [Nat.mul]. lia. }
    induction k as [|k IH]; intros l X Hl PX LX; cbn [hlevs]; rewrite map_app, list_sum_app, <- cons_seq, map_cons, list_sum_cons, N2Nat.id; specialize (S1 X l); pose proof (Nat.mul_le_mono_r _ _ (g l) LX) as S2; rewrite <- Nat.mul_assoc in S2.
    - change (list_sum (map f [])) with 0%nat. change (list_sum (map (fun m => pw2 m * g (N.of_nat m))%nat (seq (S (N.to_nat l)) 0))) with 0%nat. rewrite !Nat.add_0_r. etransitivity; [exact S1|exact S2].
    - specialize (IH (l + 1) (hnext l X) ltac:(lia) (hnext_proper l X ltac:(lia) PX)). rewrite pw2_N in IH. specialize (IH (hnext_length l X ltac:(lia) PX)). replace (N.to_nat (l + 1)) with (S (N.to_nat l)) in IH by lia. rewrite Nat.mul_add_distr_l. apply Nat.add_le_mono; [etransitivity; [exact S1|exact S2]|exact IH].
  Qed.
  Lemma hlevs_NoDup : forall k l X, l + N.of_nat k < lv -> hproper l X -> NoDup (hlevs k l X).
  Proof.
    assert (GE : forall k l X v, In v (hlevs k l X) -> (l <= snd v)%N).
    { induction k as [|k IH]; intros l X v H; cbn [hlevs] in H; apply in_app_or in H as [H|H]; try (apply in_map_iff in H as (ab & <- & _); cbn [snd]; lia); [destruct H|]. apply IH in H. lia. }
    induction k as [|k IH]; intros l X Hl PX; cbn [hlevs]; apply NoDup_app_intro.
    1,4: apply FinFun.Injective_map_NoDup; [intros [a b] [a' b'] E; injection E as -> ->; reflexivity|apply PX].
    - constructor.
    - intros v _ [].
    - apply IH; [lia|]. apply hnext_proper; [lia|exact PX].
    - intros v H1 H2. apply GE in H2. apply in_map_iff in H1 as (ab & <- & _). cbn [snd] in H2. lia.
  Qed.
  Hypothesis (Hpos : 0 < lv).
  Notation L := (N.to_nat (lv - 1)).
  Lemma hroot_proper : hproper 0 [(0, 0)].
  Proof. split; [repeat constructor; intros []|]. intros ab [<-|[]]. split; exact root_lv. Qed.
  Lemma hvplan_perm : Permutation (hvplan L 0 0 0) (hlevs L 0 [(0, 0)]).
  Proof. rewrite <- hvplan_levs. cbn [flat_map fst snd]. now rewrite app_nil_r. Qed.
  Lemma hvplan_NoDup : NoDup (hvplan L 0 0 0).
  Proof. apply (Permutation_NoDup (Permutation_sym hvplan_perm)), hlevs_NoDup; [lia|apply hroot_proper]. Qed.
  Lemma hvplan_sum (f : vis -> nat) (g : N -> nat) : (forall A B l, f (A, B, l) <= g l)%nat ->
    (list_sum (map f (hvplan L 0 0 0)) <= 6 * list_sum (map (fun m => pw2 m * g (N.of_nat m)) (seq 0 (S L))))%nat.
  Proof.
    intros Hf. assert (PS : forall (l l' : list nat), Permutation l l' -> list_sum l = list_sum l') by (induction 1; rewrite ?list_sum_cons; lia).
    rewrite (PS _ _ (Permutation_map f hvplan_perm)). apply (hlevs_sum f g Hf L 0 [(0, 0)]); [lia|apply hroot_proper|cbn; lia].
  Qed.
  Lemma pw2_sum l : (list_sum (map pw2 (seq 0 (S l))) <= 2 * pw2 l)%nat.
  Proof. apply geo_sum; [cbn; lia|]. intros m. unfold pw2. rewrite Nat.pow_succ_r'. lia. Qed.
  Lemma hvisits_bound : (length (hvplan L 0 0 0) <= 12 * pw2 L)%nat.
  Proof.
    pose proof (hvplan_sum (fun _ => 1%nat) (fun _ => 1%nat) ltac:(reflexivity)) as H.
    assert (E1 : forall (X : list vis), list_sum (map (fun _ => 1%nat) X) = length X) by (induction X as [|x X IH]; [reflexivity|]; cbn [map length]; rewrite list_sum_cons, IH; reflexivity).
    rewrite E1 in H. rewrite (map_ext _ pw2) in H by (intros; lia). pose proof (pw2_sum L). lia.
  Qed.
  (** the first levels *)
  Lemma hlow_bound fpl : 0 < fpl -> fpl < lv -> (length (fst (hsqplan fpl L 0 0 0)) <= 6 * pw2 (N.to_nat fpl))%nat.
  Proof.
    intros F0 Hf. set (f := fun v : vis => if snd v <? fpl then 1%nat else 0%nat).
    pose proof (hvplan_sum f (fun l => if l <? fpl then 1%nat else 0%nat) ltac:(reflexivity)) as H.
    pose proof (hsq_partition fpl L 0 0 0 ltac:(lia) F0 Hpos) as SP. assert (PS : forall (l l' : list nat), Permutation l l' -> list_sum l = list_sum l') by (induction 1; rewrite ?list_sum_cons; lia).
    rewrite (PS _ _ (Permutation_map f SP)), map_app, list_sum_app in H.
    assert (LE : list_sum (map f (fst (hsqplan fpl L 0 0 0))) = length (fst (hsqplan fpl L 0 0 0))).
    { assert (Q : forall v, In v (fst (hsqplan fpl L 0 0 0)) -> snd v < fpl) by (intros v; now apply hsq_low). revert Q. generalize (fst (hsqplan fpl L 0 0 0)) as X. induction X as [|v X IH]; intros Q; [reflexivity|]. cbn [map length]. rewrite list_sum_cons, IH by (intros; apply Q; now right). unfold f. specialize (Q v (or_introl eq_refl)). apply N.ltb_lt in Q. rewrite Q. reflexivity. }
    rewrite LE in H. enough (G : (list_sum (map (fun m => pw2 m * (if (N.of_nat m <? fpl)%N then 1 else 0)) (seq 0 (S L))) <= pw2 (N.to_nat fpl))%nat) by lia.
    generalize (S L) as k. intros k. assert (G : forall k, (list_sum (map (fun m => pw2 m * (if (N.of_nat m <? fpl)%N then 1 else 0)) (seq 0 k)) + 1 <= pw2 (Nat.min k (N.to_nat fpl)))%nat); [|specialize (G k); assert (M : (pw2 (Nat.min k (N.to_nat fpl)) <= pw2 (N.to_nat fpl))%nat) by (apply Nat.pow_le_mono_r; [lia|apply Nat.le_min_r]); etransitivity; [|exact M]; etransitivity; [|exact G]; apply Nat.le_add_r].
    clear. induction k as [|k IH]; [cbn; lia|]. rewrite seq_S, map_app, list_sum_app. cbn [map Nat.add]. rewrite list_sum_cons. change (list_sum []) with 0%nat. destruct (N.ltb_spec (N.of_nat k) fpl).
    - replace (Nat.min (S k) (N.to_nat fpl)) with (S k) by lia. replace (Nat.min k (N.to_nat fpl)) with k in IH by lia. unfold pw2 in *. rewrite Nat.pow_succ_r'. lia.
    - replace (Nat.min (S k) (N.to_nat fpl)) with (Nat.min k (N.to_nat fpl)) by lia. lia.
  Qed.
  (** the loops *)
  Variables (skip : bool) (lyr : nat) (bs : nat -> nat -> N).
  Hypotheses (HPa : forall l, h_layer_pairs t l = gpairs lyr bs l) (HB : forall i j, (i < lyr)%nat -> (j < lyr)%nat -> bs i j < lv).
  Notation lp := (fun l : nat => length (h_layer_pairs t (N.of_nat l))).
  Definition hgstep (l : N) : nat := (1 + list_sum (map (fun l' => 1 + lp l') (seq (N.to_nat l) (S L - N.to_nat l))))%nat.
  Lemma hsteps_le A B l : (hvis_steps skip t (A, B, l) <= hgstep l)%nat.
  Proof.
    unfold hvis_steps, hgstep. apply Nat.add_le_mono_l.
    assert (E : list_sum (map (fun l' => 1 + length (h_layer_pairs t l'))%nat (Nrange l (lv - 1))) = list_sum (map (fun l' => 1 + lp l')%nat (seq (N.to_nat l) (S L - N.to_nat l)))).
    { f_equal. unfold Nrange. replace (N.to_nat (lv - 1 + 1 - l)) with (S L - N.to_nat l)%nat by lia. rewrite map_map. generalize (S L - N.to_nat l)%nat as k. intros k.
      assert (G : forall b, map (fun x => 1 + length (h_layer_pairs t (l + N.of_nat x)))%nat (seq b k) = map (fun l' => 1 + lp l')%nat (seq (N.to_nat l + b) k)).
      { induction k as [|k IH]; intros b; [reflexivity|]. cbn [seq map]. f_equal; [|rewrite IH; do 2 f_equal; lia]. do 3 f_equal. lia. }
      rewrite G. now rewrite Nat.add_0_r. }
    rewrite E. destruct (N.le_gt_cases l (lv - 1)) as [HL|HL].
    - assert (Q : (length (h_layer_pairs t l) <= list_sum (map (fun l' => 1 + lp l') (seq (N.to_nat l) (S L - N.to_nat l))))%nat).
      { replace (S L - N.to_nat l)%nat with (S (L - N.to_nat l)) by lia. cbn [seq map]. rewrite list_sum_cons, N2Nat.id. lia. }
      destruct (htouching A B l) as [[]|]; try destruct skip; lia.
    - assert (Q : h_layer_pairs t l = []). { rewrite HPa. unfold gpairs. apply filter_none. intros [i j] I. apply in_prod_iff in I as [I J]. apply in_seq in I, J. cbn [fst snd]. pose proof (HB i j ltac:(lia) ltac:(lia)). apply N.eqb_neq. lia. }
      destruct (htouching A B l) as [[]|]; try destruct skip; rewrite ?Q; cbn [length]; lia.
  Qed.
  Notation prs := (list_prod (seq 0 lyr) (seq 0 lyr)).
  Lemma hbucket (w : nat -> nat) : list_sum (map (fun l => w l * lp l)%nat (seq 0 (S L))) = list_sum (map (fun ij => w (N.to_nat (bs (fst ij) (snd ij)))) prs).
  Proof.
    rewrite <- (bucket_sum (fun ij : nat * nat => N.to_nat (bs (fst ij) (snd ij))) w (S L)).
    - f_equal. apply map_ext. intros l. f_equal. rewrite HPa. unfold gpairs. f_equal. apply filter_ext. intros ij.
      destruct (N.eqb_spec (bs (fst ij) (snd ij)) (N.of_nat l)), (Nat.eqb_spec (N.to_nat (bs (fst ij) (snd ij))) l); lia.
    - intros [i j] I. apply in_prod_iff in I as [I J]. apply in_seq in I, J. cbn [fst snd]. pose proof (HB i j ltac:(lia) ltac:(lia)). lia.
  Qed.
  Lemma hsteps_bound : (list_sum (map (hvis_steps skip t) (hvplan L 0 0 0)) <= 36 * pw2 L + 12 * list_sum (map (fun ij => pw2 (N.to_nat (bs (fst ij) (snd ij)))) prs))%nat.
  Proof.
    etransitivity; [apply (hvplan_sum _ hgstep), hsteps_le|]. unfold hgstep. rewrite (map_ext _ (fun m => pw2 m * (1 + list_sum (map (fun l' => 1 + lp l') (seq m (S L - m)))))%nat) by (intros m; now rewrite Nat2N.id).
    rewrite (list_sum_exch pw2 (fun l' => 1 + lp l')%nat).
    assert (B : (list_sum (map (fun l => (1 + lp l) * list_sum (map pw2 (seq 0 (S l)))) (seq 0 (S L))) <= 2 * list_sum (map pw2 (seq 0 (S L))) + 2 * list_sum (map (fun ij => pw2 (N.to_nat (bs (fst ij) (snd ij)))) prs))%nat).
    { etransitivity; [apply list_sum_le; intros l _; apply Nat.mul_le_mono_l, (pw2_sum l)|].
      rewrite (map_ext _ (fun l => 2 * (pw2 l) + 2 * (pw2 l * lp l))%nat) by (intros; lia). rewrite list_sum_plus, !list_sum_scal. rewrite hbucket. apply Nat.le_refl. }
    pose proof (pw2_sum L). lia.
  Qed.
  Lemma hpairs_count : list_sum (map lp (seq 0 (S L))) = (lyr * lyr)%nat.
  Proof.
    rewrite (map_ext _ (fun l => 1 * lp l)%nat) by (intros; lia). rewrite (hbucket (fun _ => 1%nat)). transitivity (length prs); [|rewrite prod_length, seq_length; reflexivity].
    generalize prs as X. induction X as [|x X IH]; [reflexivity|]. cbn [map length]. rewrite list_sum_cons, IH. reflexivity.
  Qed.
End Plan.
