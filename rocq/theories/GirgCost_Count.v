(** The work of the recursion: counting the invocations. *)
From Coq Require Import Arith NArith ZArith List Bool Reals Permutation Lia Lra Psatz.
From Flocq Require Import Core.
From Verif Require Import Base Sched Bits_Model Bits_Proofs Coord_Model Coord_Proofs Coord_Geo Tree_Model Cover Tree_Proofs Tree_Plan GirgCost_Model GirgCost_Proofs Cost_Touch.
Import ListNotations.
Local Open Scope N_scope.

(** ** neighbouring cells *)
Fixpoint nbs (l : N) (ca : list N) : list (list N) :=
  match ca with
  | [] => [[]]
  | a :: r => flat_map (fun b => map (cons b) (nbs l r)) (map N.of_nat (filter (fun k => (axdist l a (N.of_nat k) <=? 1)%Z) (seq 0 (N.to_nat (2 ^ l)))))
  end.
Lemma flat_map_const_length {A B} (f : A -> list B) k L : (forall x, In x L -> length (f x) = k) -> length (flat_map f L) = (length L * k)%nat.
Proof. induction L as [|a L IH]; intros H; [reflexivity|]. cbn [flat_map length]. rewrite app_length, H by now left. rewrite IH; [reflexivity|]. intros; apply H; now right. Qed.
Lemma flat_map_le_length {A B} (f : A -> list B) k L : (forall x, In x L -> (length (f x) <= k)%nat) -> (length (flat_map f L) <= length L * k)%nat.
Proof. induction L as [|a L IH]; intros H; [cbn; lia|]. cbn [flat_map length]. rewrite app_length. pose proof (H a (or_introl eq_refl)). specialize (IH (fun y Hy => H y (or_intror Hy))). lia. Qed.
Lemma nbs_length l : forall ca, (forall a, In a ca -> a < 2 ^ l) -> (length (nbs l ca) <= 3 ^ length ca)%nat.
Proof.
  induction ca as [|a r IH]; intros H; [cbn; lia|]. cbn [nbs]. rewrite (flat_map_const_length _ (length (nbs l r))) by (intros b _; apply map_length).
  rewrite map_length, near_count by (apply H; now left). cbn [length Nat.pow]. assert (near_cells l <= 3)%nat by (unfold near_cells; lia). specialize (IH (fun x Hx => H x (or_intror Hx))).
  apply Nat.mul_le_mono; assumption.
Qed.
Lemma nbs_In l : forall ca cb, length ca = length cb -> (forall b, In b cb -> b < 2 ^ l) -> coords_touch l ca cb = true -> In cb (nbs l ca).
Proof.
  unfold coords_touch. induction ca as [|a ca IH]; intros [|b cb] L H T; try discriminate; [now left|]. cbn [combine forallb fst snd] in T. apply andb_true_iff in T as [T1 T2]. cbn [nbs].
  apply in_flat_map. exists b. split.
  - apply in_map_iff. exists (N.to_nat b). split; [lia|]. apply filter_In. specialize (H b (or_introl eq_refl)). rewrite in_seq, N2Nat.id. split; [lia|exact T1].
  - apply in_map, IH; [now injection L|intros x Hx; apply H; now right|exact T2].
Qed.
Lemma filter_le {A} (p : A -> bool) L : (length (filter p L) <= length L)%nat.
Proof. induction L as [|a L IH]; cbn; [lia|]. destruct (p a); cbn; lia. Qed.
Section Level.
  Variables (cfg : config) (D l : N).
  Hypotheses (HD : dim_ok D) (Hl : (l < 31)%N) (HDl : (D * l <= 31)%N).
  Definition cells : list N := Nrange (fc D l) (fc D (l + 1) - 1).
  Lemma cells_In A : In A cells <-> in_level D l A.
  Proof. unfold cells. rewrite Nrange_In. unfold in_level. pose proof (fc_succ D l HD). pose proof (pow2_pos (D * l)). lia. Qed.
  Lemma cells_length : length cells = N.to_nat (2 ^ (D * l)).
  Proof. unfold cells, Nrange. rewrite map_length, seq_length. pose proof (fc_succ D l HD). pose proof (pow2_pos (D * l)). lia. Qed.
  Lemma ccoords_inj A B : in_level D l A -> in_level D l B -> ccoords cfg D l A = ccoords cfg D l B -> A = B.
  Proof.
    intros HA HB E. unfold ccoords in E. assert (Q : forall X, in_level D l X -> deposit (use_bmi2 cfg) D (extract (use_bmi2 cfg) D (X - fc D l)) = X - fc D l).
    { intros X HX. apply deposit_extract; [exact HD|]. eapply N.lt_le_trans; [apply local_bound; assumption|]. apply N.pow_le_mono_r; [lia|]. apply N.mul_le_mono_l. apply N.div_le_lower_bound; [unfold dim_ok in HD; lia|].
      assert (D * l <= 32) by lia. assumption. }
    assert (E2 : A - fc D l = B - fc D l) by (rewrite <- (Q A HA), <- (Q B HB); now rewrite E). destruct HA, HB. lia.
  Qed.
  Lemma in_nthN (c : list N) x : In x c -> exists i, nthN c i = x.
  Proof. intros H. apply In_nth with (d := 0) in H as (i & _ & E). exists i. exact E. Qed.
  Lemma neighbours A : in_level D l A -> (length (filter (fun B => touchb cfg D A B l) cells) <= 3 ^ N.to_nat D)%nat.
  Proof.
    intros HA. rewrite <- (map_length (ccoords cfg D l)). assert (CB : forall X, in_level D l X -> forall a, In a (ccoords cfg D l X) -> a < 2 ^ l).
    { intros X HX a Ha. destruct (in_nthN _ _ Ha) as [i <-]. now apply ccoords_bound. }
    etransitivity; [|replace (N.to_nat D) with (length (ccoords cfg D l A)) by (now apply ccoords_length); apply nbs_length; now apply CB].
    apply NoDup_incl_length.
    - assert (ND : NoDup (filter (fun B => touchb cfg D A B l) cells)) by (apply NoDup_filter, Nrange_NoDup).
      assert (AL : forall X, In X (filter (fun B => touchb cfg D A B l) cells) -> in_level D l X) by (intros X HX; apply filter_In in HX as [HX _]; now apply cells_In).
      revert ND AL. generalize (filter (fun B => touchb cfg D A B l) cells) as L. induction L as [|X L IH]; intros ND AL; cbn [map]; [constructor|]. inversion_clear ND. constructor.
      + intros I. apply in_map_iff in I as (Y & E & I). apply ccoords_inj in E; [subst; contradiction| |]; apply AL; [now right|now left].
      + apply IH; [assumption|]. intros Y HY. apply AL. now right.
    - intros cb I. apply in_map_iff in I as (B & <- & I). apply filter_In in I as [I T]. apply cells_In in I. apply nbs_In; [rewrite !ccoords_length by assumption; reflexivity|now apply CB|].
      unfold touchb in T. rewrite touching_eq in T by assumption. exact T.
  Qed.
  (** the touching pairs of a level *)
  Lemma touching_pairs L : NoDup L -> (forall ab, In ab L -> in_level D l (fst ab) /\ in_level D l (snd ab) /\ touchb cfg D (fst ab) (snd ab) l = true) ->
    (length L <= N.to_nat (2 ^ (D * l)) * 3 ^ N.to_nat D)%nat.
  Proof.
    intros ND H. rewrite <- cells_length. etransitivity; [|apply (flat_map_le_length (fun A => map (fun B => (A, B)) (filter (fun B => touchb cfg D A B l) cells)) (3 ^ N.to_nat D) cells)].
    - apply NoDup_incl_length; [exact ND|]. intros [A B] I. destruct (H _ I) as (HA & HB & T). cbn [fst snd] in *. apply in_flat_map. exists A. split; [now apply cells_In|]. apply in_map. apply filter_In. split; [now apply cells_In|exact T].
    - intros A HA. rewrite map_length. apply neighbours. now apply cells_In.
  Qed.
End Level.

(** ** the invocations level by level *)
Section Levels.
  Variables (cfg : config) (D : N) (P : tparams).
  Notation c := (p_c P).
  Hypotheses (HD : dim_ok D) (Hc : (c <= 30)%Z) (Hlev : p_levels P = base_level D c 0 0 + 1).
  Notation tb := (touchb cfg D).
  Notation q := (N.to_nat (2 ^ D)).
  Definition next (l : N) (X : list (N * N)) : list (N * N) := flat_map (fun ab => child_pairs D (fst ab) (snd ab)) (filter (fun ab => tb (fst ab) (snd ab) l) X).
  Fixpoint lev (k : nat) (l : N) (X : list (N * N)) : list vis :=
    map (fun ab => (fst ab, snd ab, l)) X ++ match k with O => [] | S k' => lev k' (l + 1) (next l X) end.
  Lemma vplan_lev : forall k l X, Permutation (flat_map (fun ab => vplan cfg D k (fst ab) (snd ab) l) X) (lev k l X).
  Proof.
    induction k as [|k IH]; intros l X.
    - cbn [lev]. rewrite app_nil_r. induction X as [|ab X IHX]; [reflexivity|]. cbn [flat_map vplan map]. destruct (tb _ _ _); cbn [app]; now constructor.
    - cbn [lev]. rewrite <- IH. unfold next. induction X as [|ab X IHX]; [reflexivity|]. cbn [flat_map vplan map filter app]. constructor. destruct (tb (fst ab) (snd ab) l); cbn [app flat_map].
      + rewrite IHX, flat_map_app. apply Permutation_app_swap_app.
      + exact IHX.
  Qed.
  Notation cpin := (child_pairs_In D P HD Hc Hlev).
  Lemma kids_length A l : l + 1 < p_levels P -> in_level D l A -> (length (kidsb D A) = q)%nat.
  Proof.
    intros Hl HA. unfold kidsb. destruct (level_bound D P HD Hc Hlev _ Hl) as [H1 _]. rewrite (firstChild_eq D l), (lastChild_eq D l) by (auto; lia). unfold Nrange. rewrite map_length, seq_length. pose proof (pow2_pos D). lia.
  Qed.
  Lemma cp_length A B l : l + 1 < p_levels P -> in_level D l A -> in_level D l B -> (length (child_pairs D A B) <= q * q)%nat.
  Proof.
    intros Hl HA HB. rewrite (child_pairs_eq D P Hlev). destruct (N.eqb_spec A B) as [<-|_].
    - etransitivity; [apply filter_le|]. rewrite prod_length. erewrite (kids_length A l); eauto.
    - rewrite prod_length. erewrite !(fun X => kids_length X l); eauto.
  Qed.
  Lemma cp_NoDup A B : NoDup (child_pairs D A B).
  Proof. rewrite (child_pairs_eq D P Hlev). destruct (A =? B); [apply NoDup_filter|]; apply NoDup_list_prod; apply Nrange_NoDup. Qed.
  Lemma cp_parent A B l ab : l + 1 < p_levels P -> in_level D l A -> in_level D l B -> In ab (child_pairs D A B) -> is_child D A (fst ab) /\ is_child D B (snd ab).
  Proof.
    intros Hl HA HB H. rewrite (child_pairs_eq D P Hlev) in H. destruct ab as [a b]. cbn [fst snd]. destruct (N.eqb_spec A B) as [<-|HN]; [apply filter_In in H as [H _]|]; apply in_prod_iff in H as [H1 H2]; split; eapply (kids_In D P HD Hc Hlev _ l); eauto.
  Qed.
  (** distinct pairs of cells of level l *)
  Definition proper (l : N) (X : list (N * N)) : Prop := NoDup X /\ forall ab, In ab X -> in_level D l (fst ab) /\ in_level D l (snd ab).
  Lemma NoDup_app_intro {T} (a b : list T) : NoDup a -> NoDup b -> (forall x, In x a -> ~ In x b) -> NoDup (a ++ b).
  Proof. induction 1 as [|x a HN H IH]; intros Hb Hd; cbn [app]; [exact Hb|]. constructor; [|apply IH; [exact Hb|intros y Hy; apply Hd; now right]]. rewrite in_app_iff. intros [I|I]; [now apply HN|]. exact (Hd x (or_introl eq_refl) I). Qed.
  Lemma NoDup_flat_map {S T} (f : S -> list T) L : NoDup L -> (forall x, In x L -> NoDup (f x)) -> (forall x y z, In x L -> In y L -> In z (f x) -> In z (f y) -> x = y) -> NoDup (flat_map f L).
  Proof.
    induction 1 as [|x L HN H IH]; intros H1 H2; cbn [flat_map]; [constructor|]. apply NoDup_app_intro; [apply H1; now left| |].
    - apply IH; [intros y Hy; apply H1; now right|]. intros y z w Hy Hz. apply H2; now right.
    - intros z Hz I. apply in_flat_map in I as (y & Hy & I). apply HN. rewrite (H2 x y z); auto; [now left|now right].
  Qed.
  Lemma next_proper l X : l + 1 < p_levels P -> proper l X -> proper (l + 1) (next l X).
  Proof.
    intros Hl [ND LV]. split.
    - unfold next. apply NoDup_flat_map; [now apply NoDup_filter|intros ab _; apply cp_NoDup|].
      intros [A B] [A' B'] z H1 H2 I1 I2. apply filter_In in H1 as [H1 _], H2 as [H2 _]. destruct (LV _ H1) as [LA LB], (LV _ H2) as [LA' LB']. cbn [fst snd] in *.
      destruct (cp_parent A B l z Hl LA LB I1) as [C1 C2], (cp_parent A' B' l z Hl LA' LB' I2) as [C3 C4]. apply is_child_iff in C1 as [_ C1], C2 as [_ C2], C3 as [_ C3], C4 as [_ C4]; try exact HD. congruence.
    - intros ab I. unfold next in I. apply in_flat_map in I as ([A B] & I & J). apply filter_In in I as [I _]. destruct (LV _ I). now apply (cpin A B l).
  Qed.
  Lemma next_length l X : l + 1 < p_levels P -> proper l X -> (length (next l X) <= 6 ^ N.to_nat D * N.to_nat (2 ^ (D * (l + 1))))%nat.
  Proof.
    intros Hl [ND LV]. destruct (level_bound D P HD Hc Hlev _ Hl) as [B1 B2]. assert (B3 : D * l <= 31) by (unfold dim_ok in HD; nia).
    unfold next. etransitivity; [apply (flat_map_le_length _ (q * q))|].
    - intros [A B] I. apply filter_In in I as [I _]. destruct (LV _ I). cbn [fst snd] in *. now apply (cp_length A B l).
    - pose proof (touching_pairs cfg D l HD ltac:(lia) B3 (filter (fun ab => tb (fst ab) (snd ab) l) X)) as T.
      assert (T' : (length (filter (fun ab => tb (fst ab) (snd ab) l) X) <= N.to_nat (2 ^ (D * l)) * 3 ^ N.to_nat D)%nat).
      { apply T; [now apply NoDup_filter|]. intros ab I. apply filter_In in I as [I E]. destruct (LV _ I). split; [assumption|split; assumption]. }
      clear T. replace (D * (l + 1)) with (D * l + D) by lia. rewrite N.pow_add_r, N2Nat.inj_mul. replace (6 ^ N.to_nat D)%nat with (3 ^ N.to_nat D * q)%nat.
      2:{ replace 6%nat with (3 * 2)%nat by reflexivity. rewrite Nat.pow_mul_l. f_equal. rewrite N2Nat.inj_pow. reflexivity. }
      set (x := length _) in *. set (y := N.to_nat (2 ^ (D * l))) in *. clearbody x y. generalize dependent (3 ^ N.to_nat D)%nat. intros t T'. transitivity (y * t * (q * q))%nat; [|lia]. apply Nat.mul_le_mono_r. exact T'.
  Qed.
  (** a sum over all invocations is a sum over the levels *)
  Lemma lev_sum (f : vis -> nat) (g : N -> nat) K : (forall A B l, f (A, B, l) <= g l)%nat ->
    forall k l X, l + N.of_nat k < p_levels P -> proper l X -> (length X <= K * N.to_nat (2 ^ (D * l)))%nat -> (6 ^ N.to_nat D <= K)%nat ->
    (list_sum (map f (lev k l X)) <= K * list_sum (map (fun m => N.to_nat (2 ^ (D * (l + N.of_nat m))) * g (l + N.of_nat m)%N) (seq 0 (S k))))%nat.
  Proof.
    intros Hf k. assert (S1 : forall X l, (list_sum (map f (map (fun ab : N * N => (fst ab, snd ab, l)) X)) <= length X * g l)%nat).
    { induction X as [|ab X IHX]; intros l; [cbn; lia|]. cbn [map length]. change (list_sum (?a :: ?L)) with (a + list_sum L)%nat. specialize (IHX l). specialize (Hf (fst ab) (snd ab) l). cbn [Nat.mul]. lia. }
    induction k as [|k IH]; intros l X Hl PX LX HK; cbn [lev]; rewrite map_app, list_sum_app.
    - cbn [map seq list_sum fold_right]. rewrite N.add_0_r. specialize (S1 X l). pose proof (Nat.mul_le_mono_r _ _ (g l) LX) as S2. rewrite <- Nat.mul_assoc in S2. change (list_sum []) with 0%nat. rewrite ?Nat.add_0_r. etransitivity; [exact S1|exact S2].
    - assert (H1 : l + 1 < p_levels P) by lia. specialize (IH (l + 1) (next l X) ltac:(lia) (next_proper l X H1 PX)).
      assert (LN : (length (next l X) <= K * N.to_nat (2 ^ (D * (l + 1))))%nat). { etransitivity; [apply (next_length l X H1 PX)|]. now apply Nat.mul_le_mono_r. }
      specialize (IH LN HK). set (h := fun m => (N.to_nat (2 ^ (D * (l + N.of_nat m))) * g (l + N.of_nat m)%N)%nat).
      assert (EH : map h (seq 0 (S (S k))) = h 0%nat :: map (fun m => (N.to_nat (2 ^ (D * (l + 1 + N.of_nat m))) * g (l + 1 + N.of_nat m)%N)%nat) (seq 0 (S k))).
      { rewrite <- cons_seq, <- seq_shift, map_cons, map_map. f_equal. apply map_ext. intros m. unfold h. replace (l + N.of_nat (S m)) with (l + 1 + N.of_nat m) by lia. reflexivity. }
      rewrite EH. clear EH. change (list_sum (?a :: ?L)) with (a + list_sum L)%nat. unfold h at 1. change (N.of_nat 0) with 0. rewrite N.add_0_r.
      specialize (S1 X l). pose proof (Nat.mul_le_mono_r _ _ (g l) LX) as S2. rewrite <- Nat.mul_assoc in S2. change (list_sum []) with 0%nat. rewrite ?Nat.add_0_r. rewrite Nat.mul_add_distr_l. apply Nat.add_le_mono; [etransitivity; [exact S1|exact S2]|exact IH].
  Qed.
End Levels.

(** ** summing up *)
Lemma list_sum_cons a L : list_sum (a :: L) = (a + list_sum L)%nat. Proof. reflexivity. Qed.
Lemma list_sum_le {A} (f g : A -> nat) L : (forall x, In x L -> (f x <= g x)%nat) -> (list_sum (map f L) <= list_sum (map g L))%nat.
Proof. induction L as [|a L IH]; intros H; [cbn; lia|]. cbn [map]. rewrite !list_sum_cons. pose proof (H a (or_introl eq_refl)). specialize (IH (fun y Hy => H y (or_intror Hy))). lia. Qed.
Lemma list_sum_scal {A} (k : nat) (f : A -> nat) L : list_sum (map (fun x => k * f x)%nat L) = (k * list_sum (map f L))%nat.
Proof. induction L as [|a L IH]; [cbn; lia|]. cbn [map]. rewrite !list_sum_cons, IH. lia. Qed.
Lemma list_sum_plus {A} (f g : A -> nat) L : list_sum (map (fun x => f x + g x)%nat L) = (list_sum (map f L) + list_sum (map g L))%nat.
Proof. induction L as [|a L IH]; [reflexivity|]. cbn [map]. rewrite !list_sum_cons, IH. lia. Qed.
Lemma list_sum_exch (a p : nat -> nat) : forall L, list_sum (map (fun m => a m * (1 + list_sum (map p (seq m (S L - m)))))%nat (seq 0 (S L))) =
  (list_sum (map a (seq 0 (S L))) + list_sum (map (fun l => p l * list_sum (map a (seq 0 (S l))))%nat (seq 0 (S L))))%nat.
Proof.
  induction L as [|L IH].
  - cbn. lia.
  - set (A := fun l => list_sum (map a (seq 0 (S l)))). set (F := fun m => (a m * (1 + list_sum (map p (seq m (S (S L) - m)))))%nat).
    assert (SN : forall f k, list_sum (map f (seq 0 (S k))) = (list_sum (map f (seq 0 k)) + f k)%nat).
    { intros f k. rewrite seq_S, map_app, list_sum_app. cbn [map Nat.add]. rewrite list_sum_cons. change (list_sum []) with 0%nat. lia. }
    change (list_sum (map F (seq 0 (S (S L)))) = (A (S L) + list_sum (map (fun l => p l * A l)%nat (seq 0 (S (S L)))))%nat).
    rewrite (SN F), (SN (fun l => p l * A l)%nat). unfold A at 1. rewrite (SN a (S L)). fold (A L).
    assert (E : list_sum (map F (seq 0 (S L))) = (list_sum (map (fun m => a m * (1 + list_sum (map p (seq m (S L - m)))))%nat (seq 0 (S L))) + p (S L) * A L)%nat).
    { unfold A. rewrite <- list_sum_scal, <- list_sum_plus. f_equal. apply map_ext_in. intros m Hm. apply in_seq in Hm. unfold F. replace (S (S L) - m)%nat with (S (S L - m)) by lia. rewrite seq_S, map_app, list_sum_app. cbn [map]. rewrite list_sum_cons. change (list_sum []) with 0%nat. replace (m + (S L - m))%nat with (S L) by lia. lia. }
    rewrite E, IH. fold (A L). change (list_sum (map (fun l => p l * list_sum (map a (seq 0 (S l))))%nat (seq 0 (S L)))) with (list_sum (map (fun l => p l * A l)%nat (seq 0 (S L)))).
    assert (FS : F (S L) = (a (S L) * (1 + p (S L)))%nat). { unfold F. replace (S (S L) - S L)%nat with 1%nat by lia. cbn [seq map]. rewrite list_sum_cons. change (list_sum []) with 0%nat. lia. }
    assert (AS : A (S L) = (A L + a (S L))%nat) by (unfold A; apply SN). rewrite FS, AS. lia.
Qed.
Lemma geo_sum (a : nat -> nat) : (1 <= a 0)%nat -> (forall m, (2 * a m <= a (S m))%nat) -> forall l, (list_sum (map a (seq 0 (S l))) <= 2 * a l)%nat.
Proof.
  intros H0 H l. induction l as [|l IH]; [cbn; lia|]. rewrite seq_S, map_app, list_sum_app. cbn [map Nat.add]. rewrite list_sum_cons. change (list_sum []) with 0%nat. specialize (H l). lia.
Qed.
Lemma bucket_sum {A} (key : A -> nat) (w : nat -> nat) L X : (forall x, In x X -> (key x < L)%nat) ->
  list_sum (map (fun l => w l * length (filter (fun x => (key x =? l)%nat) X))%nat (seq 0 L)) = list_sum (map (fun x => w (key x)) X).
Proof.
  induction X as [|x X IH]; intros H.
  - cbn [filter length map]. rewrite (map_ext _ (fun _ => 0 * 0)%nat) by (intros; lia). rewrite list_sum_scal. reflexivity.
  - cbn [map]. rewrite list_sum_cons, <- IH by (intros; apply H; now right).
    rewrite (map_ext_in _ (fun l => (if (key x =? l)%nat then w l else 0) + w l * length (filter (fun y => (key y =? l)%nat) X))%nat).
    2:{ intros l _. cbn [filter]. destruct (key x =? l)%nat; cbn [length]; lia. }
    rewrite list_sum_plus. f_equal. assert (K : (key x < L)%nat) by (apply H; now left). clear -K. replace L with (key x + (1 + (L - key x - 1)))%nat at 1 by lia.
    rewrite !seq_app, !map_app, !list_sum_app. cbn [seq map Nat.add]. rewrite list_sum_cons. change (list_sum []) with 0%nat. rewrite Nat.eqb_refl.
    assert (Z : forall b m, (key x < b \/ b + m <= key x)%nat -> list_sum (map (fun l => if (key x =? l)%nat then w l else 0%nat) (seq b m)) = 0%nat).
    { intros b m Hb. rewrite (map_ext_in _ (fun _ => 0 * 0)%nat); [rewrite list_sum_scal; reflexivity|]. intros l Hl. apply in_seq in Hl. destruct (Nat.eqb_spec (key x) l); lia. }
    rewrite !Z by lia. lia.
Qed.
Definition tri (e k : nat) : nat := if (k <=? e)%nat then (2 ^ (e - k))%nat else 0%nat.
Lemma tri_sum : forall n e, (list_sum (map (tri e) (seq 0 n)) <= 2 * 2 ^ e)%nat.
Proof.
  induction n as [|n IH]; intros e; [cbn; lia|]. rewrite <- cons_seq, <- seq_shift, map_cons, map_map, list_sum_cons. unfold tri at 1. cbn [Nat.leb]. rewrite Nat.sub_0_r.
  destruct e as [|e].
  - rewrite (map_ext _ (fun _ => 0 * 0)%nat) by reflexivity. rewrite list_sum_scal. cbn. lia.
  - rewrite (map_ext _ (tri e)) by reflexivity. specialize (IH e). rewrite (Nat.pow_succ_r' 2 e). lia.
Qed.
Lemma tri_shift e i j : tri e (i + j) = if (i <=? e)%nat then tri (e - i) j else 0%nat.
Proof. unfold tri. destruct (Nat.leb_spec (i + j) e), (Nat.leb_spec i e), (Nat.leb_spec j (e - i)); try lia. f_equal. lia. Qed.
Lemma tri_sum2 n e : (list_sum (map (fun ij => tri e (fst ij + snd ij)) (list_prod (seq 0 n) (seq 0 n))) <= 4 * 2 ^ e)%nat.
Proof.
  assert (G : forall I, (list_sum (map (fun ij => tri e (fst ij + snd ij)) (list_prod I (seq 0 n))) <= 2 * list_sum (map (tri e) I))%nat).
  { induction I as [|i I IH]; [cbn; lia|]. cbn [list_prod map]. rewrite map_app, list_sum_app, list_sum_cons, map_map. cbn [fst snd].
    assert (list_sum (map (fun j => tri e (i + j)) (seq 0 n)) <= 2 * tri e i)%nat; [|lia].
    rewrite (map_ext _ _ (tri_shift e i)). unfold tri at 2. destruct (i <=? e)%nat; [apply tri_sum|]. rewrite (map_ext _ (fun _ => 0 * 0)%nat) by reflexivity. rewrite list_sum_scal. cbn. lia. }
  pose proof (G (seq 0 n)). pose proof (tri_sum n e). lia.
Qed.
(** the part of the bounds that grows with the weights *)
Definition pw (c : Z) : nat := if (c <? 2)%Z then 0%nat else (4 * 2 ^ Z.to_nat (c - 2))%nat.
Section Total.
  Variables (cfg : config) (D : N) (P : tparams) (alpha : alphaT).
  Notation c := (p_c P).
  Hypotheses (HD : dim_ok D) (Hc : (c <= 30)%Z) (Hlev : p_levels P = base_level D c 0 0 + 1).
  Notation L := (N.to_nat (p_levels P - 1)).
  Notation lp := (fun l : nat => length (layer_pairs D P (N.of_nat l))).
  Definition av (m : nat) : nat := N.to_nat (2 ^ (D * N.of_nat m)).
  Lemma av_0 : av 0 = 1%nat. Proof. unfold av. rewrite N.mul_0_r. reflexivity. Qed.
  Lemma av_double m : (2 * av m <= av (S m))%nat.
  Proof.
    unfold av. replace (D * N.of_nat (S m)) with (D * N.of_nat m + D) by lia. rewrite N.pow_add_r. assert (H : 2 ^ 1 <= 2 ^ D) by (apply N.pow_le_mono_r; unfold dim_ok in HD; lia). rewrite N.pow_1_r in H.
    rewrite N2Nat.inj_mul. rewrite Nat.mul_comm. apply Nat.mul_le_mono_l. lia.
  Qed.
  Lemma base_le i j : base_level D c i j <= p_levels P - 1.
  Proof. rewrite Hlev. unfold base_level. unfold dim_ok in HD. assert (Z.quot (c - Z.of_nat i - Z.of_nat j - 2) (Z.of_N D) <= Z.quot (c - Z.of_nat 0 - Z.of_nat 0 - 2) (Z.of_N D))%Z by (apply Z.quot_le_mono; lia). lia. Qed.
  Lemma av_base i j : (av (N.to_nat (base_level D c i j)) <= 1 + (if (c <? 2)%Z then 0 else tri (Z.to_nat (c - 2)) (i + j)))%nat.
  Proof.
    unfold av. rewrite N2Nat.id. assert (HB : (Z.of_N (D * base_level D c i j) <= Z.max 0 (c - Z.of_nat i - Z.of_nat j - 2))%Z).
    { unfold base_level. unfold dim_ok in HD. rewrite N2Z.inj_mul, Z2N.id by lia. set (e := (c - Z.of_nat i - Z.of_nat j - 2)%Z). destruct (Z_lt_le_dec e 0) as [H|H].
      - assert (Z.quot e (Z.of_N D) <= 0)%Z. { pose proof (Z.quot_le_mono e 0 (Z.of_N D) ltac:(lia) ltac:(lia)) as Q. rewrite Z.quot_0_l in Q by lia. exact Q. } rewrite Z.max_r by lia. lia.
      - pose proof (Z.quot_pos e (Z.of_N D) H ltac:(lia)). rewrite Z.max_l by lia. pose proof (Z.mul_quot_le e (Z.of_N D) H ltac:(lia)). lia. }
    rewrite N2Nat.inj_pow. change (N.to_nat 2) with 2%nat. set (x := N.to_nat (D * base_level D c i j)). assert (HX : (Z.of_nat x <= Z.max 0 (c - Z.of_nat i - Z.of_nat j - 2))%Z) by lia. clearbody x. clear HB.
    destruct (Z.ltb_spec c 2).
    - replace x with 0%nat by lia. cbn. lia.
    - unfold tri. destruct (Nat.leb_spec (i + j) (Z.to_nat (c - 2))).
      + assert (2 ^ x <= 2 ^ (Z.to_nat (c - 2) - (i + j)))%nat by (apply Nat.pow_le_mono_r; lia). lia.
      + replace x with 0%nat by lia. cbn. lia.
  Qed.
  Lemma av_L : (4 * av L <= 4 + pw c)%nat.
  Proof.
    replace L with (N.to_nat (base_level D c 0 0)) by (rewrite Hlev; lia). pose proof (av_base 0 0) as H. unfold pw. destruct (c <? 2)%Z; [lia|]. unfold tri in H. cbn [Nat.add Nat.leb] in H. rewrite Nat.sub_0_r in H. lia.
  Qed.
  Lemma pairs_sum : (list_sum (map (fun ij => av (N.to_nat (base_level D c (fst ij) (snd ij)))) (list_prod (seq 0 (p_layers P)) (seq 0 (p_layers P)))) <= p_layers P * p_layers P + pw c)%nat.
  Proof.
    etransitivity; [apply list_sum_le; intros ij _; apply av_base|]. rewrite list_sum_plus.
    assert (E1 : forall (X : list (nat * nat)), list_sum (map (fun _ => 1%nat) X) = length X) by (induction X as [|x X IH]; [reflexivity|]; cbn [map length]; rewrite list_sum_cons, IH; reflexivity).
    rewrite E1, prod_length, seq_length. apply Nat.add_le_mono_l. unfold pw. destruct (c <? 2)%Z; [|apply tri_sum2].
    rewrite (map_ext _ (fun _ => 0 * 0)%nat) by reflexivity. rewrite list_sum_scal. cbn. lia.
  Qed.
  Definition gstep (l : N) : nat := (1 + list_sum (map (fun l' => 1 + lp l') (seq (N.to_nat l) (S L - N.to_nat l))))%nat.
  Lemma steps_le A B l : (vis_steps cfg D P alpha (A, B, l) <= gstep l)%nat.
  Proof.
    unfold vis_steps, gstep. apply Nat.add_le_mono_l.
    assert (E : list_sum (map (fun l' => 1 + length (layer_pairs D P l'))%nat (Nrange l (p_levels P - 1))) = list_sum (map (fun l' => 1 + lp l')%nat (seq (N.to_nat l) (S L - N.to_nat l)))).
    { f_equal. unfold Nrange. replace (N.to_nat (p_levels P - 1 + 1 - l)) with (S L - N.to_nat l)%nat by lia. rewrite map_map. generalize (S L - N.to_nat l)%nat as k. intros k.
      assert (G : forall b, map (fun x => 1 + length (layer_pairs D P (l + N.of_nat x)))%nat (seq b k) = map (fun l' => 1 + lp l')%nat (seq (N.to_nat l + b) k)).
      { induction k as [|k IH]; intros b; [reflexivity|]. cbn [seq map]. f_equal; [|rewrite IH; do 2 f_equal; lia]. do 3 f_equal. lia. }
      rewrite G. now rewrite Nat.add_0_r. }
    rewrite E. destruct (N.le_gt_cases l (p_levels P - 1)) as [HL|HL].
    - assert (Q : (length (layer_pairs D P l) <= list_sum (map (fun l' => 1 + lp l') (seq (N.to_nat l) (S L - N.to_nat l))))%nat).
      { replace (S L - N.to_nat l)%nat with (S (L - N.to_nat l)) by lia. cbn [seq map]. rewrite list_sum_cons, N2Nat.id. lia. }
      destruct (touching cfg D A B l) as [[]|]; try destruct (ndebug cfg && is_inf alpha); lia.
    - assert (Q : layer_pairs D P l = []). { unfold layer_pairs. apply filter_none. intros ij _. pose proof (base_le (fst ij) (snd ij)). apply N.eqb_neq. lia. }
      destruct (touching cfg D A B l) as [[]|]; try destruct (ndebug cfg && is_inf alpha); rewrite ?Q; cbn [length]; lia.
  Qed.
  Lemma root_proper : proper D 0 [(0, 0)].
  Proof. split; [repeat constructor; intros []|]. intros ab [<-|[]]. pose proof (root_level D P HD Hlev). split; assumption. Qed.
  Lemma vplan_sum (f : vis -> nat) (g : N -> nat) : (forall A B l, f (A, B, l) <= g l)%nat ->
    (list_sum (map f (vplan cfg D L 0 0 0)) <= 6 ^ N.to_nat D * list_sum (map (fun m => av m * g (N.of_nat m)) (seq 0 (S L))))%nat.
  Proof.
    intros Hf. assert (PM : Permutation (vplan cfg D L 0 0 0) (lev cfg D L 0 [(0, 0)])). { rewrite <- vplan_lev. cbn [flat_map fst snd]. now rewrite app_nil_r. }
    assert (PS : forall (l l' : list nat), Permutation l l' -> list_sum l = list_sum l').
    { induction 1; rewrite ?list_sum_cons; lia. }
    rewrite (PS _ _ (Permutation_map f PM)). assert (S6 : (1 <= 6 ^ N.to_nat D)%nat). { pose proof (Nat.pow_nonzero 6 (N.to_nat D) ltac:(lia)). lia. }
    apply (lev_sum cfg D P HD Hc Hlev f g (6 ^ N.to_nat D) Hf L 0 [(0, 0)]); [lia|apply root_proper| |lia].
    rewrite N.mul_0_r. cbn [length]. change (N.to_nat (2 ^ 0)) with 1%nat. lia.
  Qed.
  Theorem visits_bound : (4 * length (vplan cfg D L 0 0 0) <= 2 * 6 ^ N.to_nat D * (4 + pw c))%nat.
  Proof.
    pose proof (vplan_sum (fun _ => 1%nat) (fun _ => 1%nat) ltac:(reflexivity)) as H.
    assert (E1 : forall (X : list vis), list_sum (map (fun _ => 1%nat) X) = length X) by (induction X as [|x X IH]; [reflexivity|]; cbn [map length]; rewrite list_sum_cons, IH; reflexivity).
    rewrite E1 in H. rewrite (map_ext _ av) in H by (intros; lia). pose proof (geo_sum av ltac:(rewrite av_0; lia) av_double L) as G. pose proof av_L as A.
    set (K := (6 ^ N.to_nat D)%nat) in *. set (V := length _) in *. clearbody K V. set (S := list_sum _) in *. clearbody S. transitivity (4 * (K * S))%nat; [lia|]. transitivity (4 * (K * (2 * av L)))%nat; [|nia]. apply Nat.mul_le_mono_l, Nat.mul_le_mono_l. exact G.
  Qed.
  Theorem steps_bound : (list_sum (map (vis_steps cfg D P alpha) (vplan cfg D L 0 0 0)) <= 6 ^ N.to_nat D * (6 + 2 * (p_layers P * p_layers P) + 4 * pw c))%nat.
  Proof.
    etransitivity; [apply (vplan_sum _ gstep), steps_le|]. apply Nat.mul_le_mono_l.
    unfold gstep. rewrite (map_ext _ (fun m => av m * (1 + list_sum (map (fun l' => 1 + lp l') (seq m (S L - m)))))%nat) by (intros m; now rewrite Nat2N.id).
    rewrite (list_sum_exch av (fun l' => 1 + lp l')%nat). pose proof (geo_sum av ltac:(rewrite av_0; lia) av_double) as G.
    assert (B : (list_sum (map (fun l => (1 + lp l) * list_sum (map av (seq 0 (S l)))) (seq 0 (S L))) <= 2 * list_sum (map av (seq 0 (S L))) + 2 * (p_layers P * p_layers P + pw c))%nat).
    { etransitivity; [apply list_sum_le; intros l _; apply Nat.mul_le_mono_l, (G l)|].
      rewrite (map_ext _ (fun l => 2 * (av l) + 2 * (av l * lp l))%nat) by (intros; lia). rewrite list_sum_plus, !list_sum_scal. apply Nat.add_le_mono_l, Nat.mul_le_mono_l.
      etransitivity; [|apply pairs_sum]. rewrite <- (bucket_sum (fun ij : nat * nat => N.to_nat (base_level D c (fst ij) (snd ij))) av (S L)).
      - apply list_sum_le. intros l _. apply Nat.mul_le_mono_l. unfold layer_pairs. apply Nat.eq_le_incl. f_equal. apply filter_ext. intros ij.
        destruct (N.eqb_spec (base_level D c (fst ij) (snd ij)) (N.of_nat l)), (Nat.eqb_spec (N.to_nat (base_level D c (fst ij) (snd ij))) l); lia.
      - intros ij _. pose proof (base_le (fst ij) (snd ij)). lia. }
    pose proof av_L as A. specialize (G L). lia.
  Qed.
End Total.
