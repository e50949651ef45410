(** Which pairs of points of a threshold graph are compared, and how many are in the mean. *)
From Coq Require Import Arith NArith ZArith List Bool Reals Permutation Lia Lra Psatz.
From Flocq Require Import Core.
From Coquelicot Require Import Coquelicot.
From Verif Require Import Base Sched Bits_Model Bits_Proofs Coord_Model Coord_Proofs Coord_Geo IntSort_Model Prefix_Model Tree_Model Cover Tree_Proofs Tree_Build Tree_Plan Tree_Run Girg_Num Mean.
Import ListNotations.
Local Open Scope R_scope.

(** ** functions of the cell of a random coordinate *)
Fixpoint nsum (g : nat -> R) (m : nat) : R := match m with O => 0 | S k => nsum g k + g k end.
Lemma nsum_ext g h m : (forall k, (k < m)%nat -> g k = h k) -> nsum g m = nsum h m.
Proof. induction m as [|m IH]; intros H; cbn; [reflexivity|]. rewrite IH by (intros k Hk; apply H; lia). now rewrite H by lia. Qed.
Lemma cell_sum (l : N) (g : N -> R) m : (m <= N.to_nat (2 ^ l))%nat ->
  is_RInt (fun y => g (coordR l y)) 0 (INR m / pow2R l) (nsum (fun k => g (N.of_nat k)) m / pow2R l).
Proof.
  pose proof (pow2R_pos l) as P. induction m as [|m IH]; intros Hm.
  - cbn [nsum INR]. replace (0 / pow2R l) with 0 by (field; lra). exact (is_RInt_point (V := R_NormedModule) _ 0).
  - cbn [nsum]. set (s := nsum (fun k => g (N.of_nat k)) m) in *. set (a := INR m / pow2R l) in *. set (b := INR (S m) / pow2R l).
    assert (E : b = a + / pow2R l) by (unfold a, b; rewrite S_INR; field; lra). assert (Q : 0 < / pow2R l) by (now apply Rinv_0_lt_compat).
    replace ((s + g (N.of_nat m)) / pow2R l) with (@plus R_NormedModule (s / pow2R l) (g (N.of_nat m) * / pow2R l)) by (unfold plus; cbn; field; lra).
    apply (is_RInt_Chasles (V := R_NormedModule) _ 0 a b); [apply IH; lia|].
    apply (is_RInt_eq (fun _ => g (N.of_nat m)) _ a b (@scal R_Ring R_NormedModule (b - a) (g (N.of_nat m)))); [lra| | |apply (is_RInt_const (V := R_NormedModule))].
    + intros y [Y1 Y2]. f_equal. symmetry. assert (A0 : 0 <= a) by (unfold a; apply Rmult_le_pos; [apply pos_INR|lra]).
      assert (EM : IZR (Z.of_N (N.of_nat m)) = INR m) by (rewrite INR_IZR_INZ; f_equal; lia).
      assert (LM : INR (S m) <= pow2R l). { unfold pow2R. rewrite INR_IZR_INZ. apply IZR_le. lia. }
      assert (HB : b <= 1). { unfold b. apply Rmult_le_reg_r with (pow2R l); [exact P|]. replace (INR (S m) / pow2R l * pow2R l) with (INR (S m)) by (field; lra). lra. }
      apply coordR_unique; [lra|]. rewrite EM. split.
      * apply Rmult_le_reg_r with (/ pow2R l); [exact Q|]. replace (y * pow2R l * / pow2R l) with y by (field; lra). fold (INR m / pow2R l). fold a. lra.
      * apply Rmult_lt_reg_r with (/ pow2R l); [exact Q|]. replace (y * pow2R l * / pow2R l) with y by (field; lra). replace ((INR m + 1) * / pow2R l) with b by (unfold b; rewrite S_INR; field; lra). lra.
    + unfold scal; cbn; unfold mult; cbn. rewrite E. ring.
Qed.
Lemma cell_mean l (g : N -> R) : is_RInt (fun y => g (coordR l y)) 0 1 (nsum (fun k => g (N.of_nat k)) (N.to_nat (2 ^ l)) / pow2R l).
Proof.
  pose proof (cell_sum l g (N.to_nat (2 ^ l)) (le_n _)) as H. assert (E : INR (N.to_nat (2 ^ l)) = pow2R l). { unfold pow2R. rewrite INR_IZR_INZ. f_equal. lia. } rewrite E in H.
  replace (pow2R l / pow2R l) with 1 in H by (field; pose proof (pow2R_pos l); lra). exact H.
Qed.
(** ** three neighbours on the circle *)
Lemma nsum_count (f : nat -> bool) m : nsum (fun k => if f k then 1 else 0) m = INR (length (filter f (seq 0 m))).
Proof.
  induction m as [|m IH]; [reflexivity|]. cbn [nsum]. rewrite IH. rewrite seq_S, filter_app, app_length. cbn [filter Nat.add].
  rewrite plus_INR. destruct (f m); cbn [length INR]; lra.
Qed.
Lemma same_length {A} (l m : list A) : NoDup l -> NoDup m -> (forall x, In x l <-> In x m) -> length l = length m.
Proof. intros H1 H2 H. apply Nat.le_antisymm; apply NoDup_incl_length; auto; intros x Hx; now apply H. Qed.
Definition near_cells (l : N) : nat := Nat.min 3 (N.to_nat (2 ^ l)).
Lemma near_count l a : (a < 2 ^ l)%N -> length (filter (fun k => (axdist l a (N.of_nat k) <=? 1)%Z) (seq 0 (N.to_nat (2 ^ l)))) = near_cells l.
Proof.
  intros Ha. unfold near_cells. set (S := (2 ^ l)%N) in *. assert (Q : forall k, (N.of_nat k < S)%N -> (axdist l a (N.of_nat k) <=? 1)%Z = true <-> (Z.abs (Z.of_N a - Z.of_nat k) <= 1 \/ Z.of_N S - 1 <= Z.abs (Z.of_N a - Z.of_nat k))%Z).
  { intros k Hk. rewrite Z.leb_le. unfold axdist, axis_dist. fold S. lia. }
  destruct (N.le_gt_cases 3 S) as [L|L].
  - rewrite Nat.min_l by lia. set (b := N.to_nat (if (a =? 0)%N then S - 1 else a - 1)). set (e := N.to_nat (if (a =? S - 1)%N then 0 else a + 1)).
    transitivity (length [b; N.to_nat a; e]); [|reflexivity]. apply same_length; [apply NoDup_filter, seq_NoDup| |].
    + unfold b, e. destruct (N.eqb_spec a 0), (N.eqb_spec a (S - 1)); repeat constructor; cbn [In]; lia.
    + intros k. rewrite filter_In, in_seq. cbn [In]. split.
      * intros [K1 K2]. apply Q in K2; [|lia]. unfold b, e. destruct (N.eqb_spec a 0), (N.eqb_spec a (S - 1)); lia.
      * intros K. assert (KS : (N.of_nat k < S)%N) by (unfold b, e in K; destruct (N.eqb_spec a 0), (N.eqb_spec a (S - 1)); lia). split; [lia|]. apply Q; [exact KS|]. unfold b, e in K. destruct (N.eqb_spec a 0), (N.eqb_spec a (S - 1)); lia.
  - rewrite Nat.min_r by lia. rewrite filter_true; [apply seq_length|]. intros k Hk. apply in_seq in Hk. apply Q; lia.
Qed.
Definition near_prob (l : N) : R := INR (near_cells l) / pow2R l.
Definition near1 (l : N) (x y : R) : bool := (axdist l (coordR l x) (coordR l y) <=? 1)%Z.
Lemma near1_mean l x : 0 <= x < 1 -> is_RInt (fun y => if near1 l x y then 1 else 0) 0 1 (near_prob l).
Proof.
  intros Hx. pose proof (cell_mean l (fun b => if (axdist l (coordR l x) b <=? 1)%Z then 1 else 0)) as H. rewrite (nsum_count (fun k => (axdist l (coordR l x) (N.of_nat k) <=? 1)%Z)) in H.
  rewrite near_count in H by (now apply coordR_lt). exact H.
Qed.
(** the points lie in the same or in adjacent cells of the grid with 2^l cells per axis *)
Definition near (l : N) (x y : list R) : bool := forallb (fun st => near1 l (fst st) (snd st)) (combine x y).
Lemma near_mean l d : forall x, in_cube d x -> is_cube_mean d (fun y => if near l x y then 1 else 0) (near_prob l ^ d).
Proof.
  induction d as [|d IH]; intros x Hx.
  - destruct Hx as [L _]. destruct x; [|discriminate]. reflexivity.
  - destruct x as [|s x]; [destruct Hx; discriminate|]. apply cube_cons in Hx as [Hs Hx]. cbn [is_cube_mean]. exists (fun t => (if near1 l s t then 1 else 0) * near_prob l ^ d). split.
    + intros t Ht. apply (cube_mean_ext d (fun y => (if near1 l s t then 1 else 0) * (if near l x y then 1 else 0))).
      * intros y _. unfold near. cbn [combine forallb fst snd]. destruct (near1 l s t), (forallb _ _); cbn [andb]; ring.
      * now apply cube_mean_scal, IH.
    + apply (is_RInt_eq (fun t => near_prob l ^ d * (if near1 l s t then 1 else 0)) _ 0 1 (near_prob l ^ d * near_prob l)); [lra|intros; ring|cbn [pow]; ring|].
      exact (is_RInt_scal (V := R_NormedModule) _ 0 1 (near_prob l ^ d) _ (near1_mean l s Hs)).
Qed.
Lemma near1_sym l x y : near1 l x y = near1 l y x.
Proof. unfold near1. now rewrite axdist_sym. Qed.
Lemma near_sym l : forall x y, near l x y = near l y x.
Proof. unfold near. induction x as [|s x IH]; intros [|t y]; cbn; try reflexivity. now rewrite IH, near1_sym. Qed.
Lemma near1_coarser l x y : 0 <= x < 1 -> 0 <= y < 1 -> near1 (l + 1) x y = true -> near1 l x y = true.
Proof.
  intros Hx Hy. unfold near1. rewrite (coordR_half l x Hx), (coordR_half l y Hy). pose proof (coordR_lt (l + 1) x Hx) as LX. pose proof (coordR_lt (l + 1) y Hy) as LY. set (a := coordR (l + 1) x) in *. set (b := coordR (l + 1) y) in *. clearbody a b.
  rewrite !Z.leb_le. unfold axdist, axis_dist. rewrite !N.pow_add_r, N.pow_1_r in *. set (S := (2 ^ l)%N) in *. clearbody S.
  assert (Ea : Z.of_N (a / 2) = (Z.of_N a / 2)%Z) by apply N2Z.inj_div. assert (Eb : Z.of_N (b / 2) = (Z.of_N b / 2)%Z) by apply N2Z.inj_div. rewrite Ea, Eb. clear Ea Eb. pose proof (Z.div_mod (Z.of_N a) 2 ltac:(lia)) as Da. pose proof (Z.mod_pos_bound (Z.of_N a) 2 ltac:(lia)) as Ma. pose proof (Z.div_mod (Z.of_N b) 2 ltac:(lia)) as Db. pose proof (Z.mod_pos_bound (Z.of_N b) 2 ltac:(lia)) as Mb.
  set (qa := (Z.of_N a / 2)%Z) in *. set (qb := (Z.of_N b / 2)%Z) in *. intros H. lia.
Qed.
Lemma near_coarser d l : forall x y, in_cube d x -> in_cube d y -> near (l + 1) x y = true -> near l x y = true.
Proof.
  unfold near. induction d as [|d IH]; intros x y Hx Hy.
  - destruct Hx as [Lx _]. destruct x; [reflexivity|discriminate].
  - destruct x as [|s x], y as [|t y]; [reflexivity..|]. apply cube_cons in Hx as [Hs Hx], Hy as [Ht Hy]. cbn [combine forallb fst snd]. rewrite !andb_true_iff. intros [H1 H2]. split; [now apply near1_coarser|now apply IH].
Qed.
Lemma near_coarser_k d l : forall k x y, in_cube d x -> in_cube d y -> near (l + N.of_nat k) x y = true -> near l x y = true.
Proof.
  induction k as [|k IH]; intros x y Hx Hy H; [now rewrite N.add_0_r in H|]. apply IH; auto. apply (near_coarser d); auto. replace (l + N.of_nat k + 1)%N with (l + N.of_nat (S k))%N by lia. exact H.
Qed.

(** ** the pairs the recursion compares *)
Lemma in_cube_valid D p : valid_pos ideal_env D p -> in_cube (N.to_nat D) p.
Proof. intros [L F]. split; [exact L|]. eapply List.Forall_impl; [|exact F]. cbn. tauto. Qed.
Section Compared.
  Variables (cfg : config) (D : N) (ws : list R) (ps : list (list R)) (P : tparams).
  Hypotheses (HD : dim_ok D) (NO : num_ok ideal_env D ws P) (HL : length ws = length ps)
             (VP : List.Forall (valid_pos ideal_env D) ps) (Hn : (N.of_nat (length ws) < 2 ^ 31)%N).
  Variables (t : tree) (ord : list nat) (TS : tree_spec ideal_env cfg D ws ps P t ord).
  Notation n := (length ws).
  Notation c := (p_c P).
  Notation lay := (lay ideal_env ws P).
  Notation cel := (cel cfg D ps).
  Notation cpairs := (call_pairs ideal_env cfg D ws ps P ord).
  Notation plan0 := (plan cfg D P (N.to_nat (p_levels P - 1)) 0%N 0%N 0%N).
  Definition lvl (u v : nat) : N := base_level D c (lay u) (lay v).

  Lemma touching_near l u v : (u < n)%nat -> (v < n)%nat -> (l < p_levels P)%N -> touching cfg D (cel l u) (cel l v) l = Some (near l (pos ps u) (pos ps v)).
  Proof.
    intros Hu Hv Hl. pose proof (levels_eq _ cfg _ _ ps _ NO t ord TS) as HLE. destruct (level_bound D P HD (no_c _ _ _ _ NO) HLE l Hl) as [B1 B2].
    pose proof (pos_valid _ _ _ _ HL VP Hn u Hu) as Vu. pose proof (pos_valid _ _ _ _ HL VP Hn v Hv) as Vv. unfold Tree_Build.cel.
    assert (Iu : in_level D l (cell_of cfg D l (pos ps u))) by (eapply cell_of_in_level; eauto; lia). assert (Iv : in_level D l (cell_of cfg D l (pos ps v))) by (eapply cell_of_in_level; eauto; lia).
    rewrite touching_eq by (auto; lia). f_equal. unfold ccoords. rewrite <- !(cellOfLevel_eq cfg D l) by (auto; lia). rewrite !(extract_cell_of cfg ideal_env) by (auto; lia).
    unfold coords_touch, coordsR, near, near1. rewrite combine_map_both, forallb_map_c. reflexivity.
  Qed.
  Lemma plan_I_touch : forall k A B l X Y m i j, In (CallI X Y m i j) (plan cfg D P k A B l) -> touchb cfg D X Y m = true.
  Proof.
    assert (F : forall A B l X Y m i j, ~ In (CallI X Y m i j) (gfar (p_layers P) (p_levels P) (base_level D c) A B l)).
    { intros A B l X Y m i j H. unfold gfar in H. apply in_flat_map in H as (l' & _ & H). apply in_map_iff in H as (ij & E & _). discriminate. }
    assert (Nr : forall A B l X Y m i j, In (CallI X Y m i j) (gnear (p_layers P) (base_level D c) A B l) -> X = A /\ Y = B /\ m = l).
    { intros A B l X Y m i j H. unfold gnear in H. apply in_flat_map in H as (ij & _ & H). destruct (_ || _); [|destruct H]. destruct H as [H|[]]. injection H. auto. }
    induction k as [|k IH]; intros A B l X Y m i j; unfold plan; cbn [gplan]; destruct (touchb cfg D A B l) eqn:T; cbn [negb]; intros H; try (exfalso; revert H; apply F); apply in_app_or in H as [H|H]; try (destruct (Nr _ _ _ _ _ _ _ _ H) as (-> & -> & ->); exact T).
    - destruct H.
    - apply in_flat_map in H as (ab & _ & H). revert H. apply IH.
  Qed.
  Lemma compared_near x u v : In x plan0 -> In (u, v) (cpairs x) -> isI x = near (lvl u v) (pos ps u) (pos ps v).
  Proof.
    intros Hx Huv. pose proof (plan0_ok _ _ _ _ _ _ HD NO HL Hn t ord TS x Hx) as OK. pose proof (levels_eq _ cfg _ _ ps _ NO t ord TS) as HLE.
    destruct (call_pairs_In _ _ _ _ _ _ HL Hn _ _ TS x u v Huv) as [Hu Hv].
    destruct x as [A B l i j|A B l i j]; cbn [isI].
    - assert (Q : lay u = i /\ cel l u = A /\ lay v = j /\ cel l v = B).
      { cbn [call_pairs] in Huv. destruct (N.eqb_spec A B) as [E|E]; cbn [andb] in Huv; [destruct (Nat.eqb_spec i j) as [E'|E']|].
        - apply uptri_In in Huv as [H1 H2]. apply (V_In _ _ _ _ _ _ HL Hn _ _ TS) in H1, H2. subst. tauto.
        - apply in_prod_iff in Huv as [H1 H2]. apply (V_In _ _ _ _ _ _ HL Hn _ _ TS) in H1, H2. tauto.
        - apply in_prod_iff in Huv as [H1 H2]. apply (V_In _ _ _ _ _ _ HL Hn _ _ TS) in H1, H2. tauto. }
      destruct Q as (<- & <- & <- & <-). destruct OK as (_ & _ & _ & _ & El). fold (lvl u v) in El. subst l.
      pose proof (plan_I_touch _ _ _ _ _ _ _ _ _ Hx) as T. unfold touchb in T. rewrite touching_near in T; auto. apply (base_levels ideal_env cfg D ws ps P HD NO HL Hn t ord TS).
    - cbn [call_pairs] in Huv. apply in_prod_iff in Huv as [H1 H2]. apply (V_In _ _ _ _ _ _ HL Hn _ _ TS) in H1 as (_ & <- & <-), H2 as (_ & <- & <-). destruct OK as (_ & _ & _ & _ & El & T). fold (lvl u v) in El.
      assert (LB : (lvl u v < p_levels P)%N) by apply (base_levels ideal_env cfg D ws ps P HD NO HL Hn t ord TS). rewrite touching_near in T by (auto; lia). injection T as T. symmetry. apply Bool.not_true_is_false. intros N. rewrite (near_coarser_k (N.to_nat D) l (N.to_nat (lvl u v - l)) (pos ps u) (pos ps v)) in T; [discriminate| | |].
      + apply in_cube_valid. exact (pos_valid _ _ _ _ HL VP Hn u Hu).
      + apply in_cube_valid. exact (pos_valid _ _ _ _ HL VP Hn v Hv).
      + replace (l + N.of_nat (N.to_nat (lvl u v - l)))%N with (lvl u v) by lia. exact N.
  Qed.
  Lemma lvl_sym u v : lvl u v = lvl v u.
  Proof. unfold lvl. apply base_sym. Qed.
  Lemma compared_iff u v : (u < n)%nat -> (v < n)%nat -> u <> v ->
    (In (u, v) (flat_map cpairs (filter isI plan0)) \/ In (v, u) (flat_map cpairs (filter isI plan0)) <-> near (lvl u v) (pos ps u) (pos ps v) = true).
  Proof.
    intros Hu Hv Huv. split.
    - intros [H|H]; apply in_flat_map in H as (x & Hx & H); apply filter_In in Hx as [Hx I].
      + now rewrite <- (compared_near x u v Hx H).
      + rewrite lvl_sym, near_sym. now rewrite <- (compared_near x v u Hx H).
    - intros N. pose proof (plan0_pairs _ _ _ _ _ _ HD NO HL VP Hn t ord TS u v Hu Hv Huv) as C. unfold cnt2 in C.
      destruct (in_dec pair_dec (u, v) (flat_map cpairs plan0)) as [H|H].
      + left. apply in_flat_map in H as (x & Hx & H). apply in_flat_map. exists x. split; [|exact H]. apply filter_In. split; [exact Hx|]. now rewrite (compared_near x u v Hx H).
      + apply (count_occ_not_In pair_dec) in H. assert (H2 : In (v, u) (flat_map cpairs plan0)) by (apply (count_occ_In pair_dec); lia). right. apply in_flat_map in H2 as (x & Hx & H2). apply in_flat_map. exists x. split; [|exact H2]. apply filter_In. split; [exact Hx|]. now rewrite (compared_near x v u Hx H2), lvl_sym, near_sym.
  Qed.
End Compared.

(** ** calls of the first type only compare *)
Definition is_comparison (e : event) : bool := match e with EPair _ _ _ => true | EBlock _ _ _ => false end.
Lemma decideI_pairs E D W alpha rg : forall ps g, forallb is_comparison (fst (decideI E D W alpha rg ps g)) = true.
Proof.
  induction ps as [|[a b] ps IH]; intros g; [reflexivity|]. cbn [decideI]. destruct (match alpha with AInf => _ | AFin _ => _ end) as [hit g1]. specialize (IH g1). destruct (decideI E D W alpha rg ps g1) as [es g2]. exact IH.
Qed.
Lemma typeI_pairs E D t alpha rg A B l i j g r : sampleTypeI E D t alpha rg A B l i j g = Some r -> forallb is_comparison (evs r) = true.
Proof.
  unfold sampleTypeI. destruct (nodes_in D t i A l) as [ra|]; [|discriminate]. cbn [obind]. destruct (nodes_in D t j B l) as [rb|]; [|discriminate]. cbn [obind].
  destruct ra as [|a ra]; [intros H; injection H as <-; reflexivity|]. destruct rb as [|b rb]; [intros H; injection H as <-; reflexivity|]. cbv zeta.
  pose proof (decideI_pairs E D (p_W (tP t)) alpha rg (pairsI ((A =? B)%N && (i =? j)%nat) 0 (a :: ra) (b :: rb)) g) as Q. destruct (decideI _ _ _ _ _ _ _) as [es g']. intros H. injection H as <-. exact Q.
Qed.
Lemma calls_pairs E cfg D t alpha rg : forall xs g r, (forall x, In x xs -> isI x = true) -> run_calls E cfg D t alpha rg xs g = Some r -> forallb is_comparison (evs r) = true.
Proof.
  induction xs as [|x xs IH]; intros g r HI H; cbn [run_calls] in H; [injection H as <-; reflexivity|].
  destruct x as [A B l i j|A B l i j]; [|discriminate (HI _ (or_introl eq_refl))]. cbn [run_call] in H. destruct (sampleTypeI E D t alpha rg A B l i j g) as [r1|] eqn:E1; [|discriminate]. cbn [obind] in H.
  destruct (run_calls E cfg D t alpha rg xs (gen r1)) as [r2|] eqn:E2; [|discriminate]. cbn [obind] in H. injection H as <-. cbn [evs]. rewrite forallb_app, (typeI_pairs _ _ _ _ _ _ _ _ _ _ _ _ E1). apply (IH _ _ (fun y Hy => HI y (or_intror Hy)) E2).
Qed.
Lemma threads_pairs E cfg D t alpha rg : forall calls gens rs, (forall x, In x (concat calls) -> isI x = true) -> run_threads E cfg D t alpha rg calls gens = Some rs -> forallb is_comparison (flat_map evs rs) = true.
Proof.
  intros calls gens rs HI H. unfold run_threads in H. destruct (_ <? _)%nat; [discriminate|]. revert gens rs H. induction calls as [|xs calls IH]; intros gens rs H; [injection H as <-; reflexivity|].
  destruct gens as [|g gens]; [injection H as <-; reflexivity|]. cbn [combine omap fst snd] in H. destruct (run_calls E cfg D t alpha rg xs g) as [r|] eqn:E1; [|discriminate]. cbn [obind] in H.
  destruct (omap _ (combine calls gens)) as [rs'|] eqn:E2; [|discriminate]. cbn [obind] in H. injection H as <-. cbn [flat_map]. rewrite forallb_app. rewrite (calls_pairs _ _ _ _ _ _ xs g r) by first [exact E1|intros x Hx; apply HI; cbn [concat]; apply in_or_app; now left].
  apply (IH (fun x Hx => HI x (in_or_app _ _ _ (or_intror Hx))) gens rs' E2).
Qed.
Lemma comparisons_pairs {T} (rs : list (result T)) : forallb is_comparison (flat_map evs rs) = true -> length (flat_map evs rs) = length (flat_map pairs_of rs).
Proof.
  induction rs as [|r rs IH]; [reflexivity|]. cbn [flat_map]. rewrite forallb_app, andb_true_iff, !app_length. intros [H1 H2]. rewrite (IH H2). f_equal. unfold pairs_of. clear -H1. revert H1. induction (evs r) as [|e es IH]; [reflexivity|]. cbn [forallb flat_map]. rewrite andb_true_iff. intros [H1 H2]. destruct e; [|discriminate]. cbn [event_pairs app length]. now rewrite IH.
Qed.
