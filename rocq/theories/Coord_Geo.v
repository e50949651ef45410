(** Geometry of cells: the real-number part of SpatialTreeCoordinateHelper and Node::distance.
    Everything is proved for any rounding that satisfies [good_rnd]. *)
From Coq Require Import Arith NArith ZArith List Bool Reals Lia Lra Psatz.
From Flocq Require Import Core.
From Verif Require Import Base Bits_Model Bits_Proofs Coord_Model Coord_Proofs.
Import ListNotations.
Open Scope R_scope.

Definition pow2R (l : N) : R := IZR (Z.of_N (2^l)).

(** What the proofs need from the rounding of double operations. *)
Record good_rnd (E : fenv) : Prop := {
  gr_mono : forall x y, x <= y -> rnd E x <= rnd E y;
  gr_idem : forall x, rnd E (rnd E x) = rnd E x;
  gr_odd : forall x, rnd E (- x) = - rnd E x;
  gr_dyadic : forall (m : Z) (l : N), (Z.abs m <= 2^53)%Z -> (l <= 1000)%N -> rnd E (IZR m / pow2R l) = IZR m / pow2R l;
  gr_scale : forall x (l : N), rnd E x = x -> rnd E (x * pow2R l) = x * pow2R l }.

Lemma ideal_good : good_rnd ideal_env.
Proof. constructor; cbn; auto. Qed.

Lemma pow2R_pos l : 0 < pow2R l.
Proof. unfold pow2R. apply IZR_lt. pose proof (pow2_pos l). lia. Qed.
Lemma pow2R_ge1 l : 1 <= pow2R l.
Proof. unfold pow2R. apply IZR_le. pose proof (pow2_pos l). lia. Qed.
Lemma pow2R_add a b : pow2R (a + b) = pow2R a * pow2R b.
Proof. unfold pow2R. now rewrite N.pow_add_r, N2Z.inj_mul, mult_IZR. Qed.
Lemma pow2R_0 : pow2R 0 = 1. Proof. reflexivity. Qed.
Lemma pow2R_1 : pow2R 1 = 2. Proof. reflexivity. Qed.

Lemma rnd_int E m : good_rnd E -> (Z.abs m <= 2^53)%Z -> rnd E (IZR m) = IZR m.
Proof.
  intros G H. pose proof (gr_dyadic E G m 0%N H ltac:(lia)) as P. rewrite pow2R_0 in P.
  replace (IZR m / 1) with (IZR m) in P by field. exact P.
Qed.
Lemma rnd_0 E : good_rnd E -> rnd E 0 = 0. Proof. intro G. apply (rnd_int E 0 G). lia. Qed.
Lemma rnd_1 E : good_rnd E -> rnd E 1 = 1. Proof. intro G. apply (rnd_int E 1 G). lia. Qed.

(** ** Points and their cells *)
Definition valid_pos (E : fenv) (D : N) (p : list R) : Prop :=
  length p = N.to_nat D /\ Forall (fun x => 0 <= x < 1 /\ rnd E x = x) p.

(** integer coordinate of a point on a level *)
Definition coordR (l : N) (x : R) : N := Z.to_N (Zfloor (x * pow2R l)).
Definition coordsR (l : N) (p : list R) : list N := map (coordR l) p.

Lemma coordR_bounds l x : 0 <= x < 1 ->
  IZR (Z.of_N (coordR l x)) <= x * pow2R l < IZR (Z.of_N (coordR l x)) + 1.
Proof.
  intros [H0 H1]. unfold coordR. pose proof (pow2R_pos l) as P.
  assert (F0: (0 <= Zfloor (x * pow2R l))%Z).
  { apply Zfloor_lub. apply Rmult_le_pos; lra. }
  rewrite Z2N.id by auto. split; [apply Zfloor_lb|apply Zfloor_ub].
Qed.
Lemma coordR_lt l x : 0 <= x < 1 -> (coordR l x < 2^l)%N.
Proof.
  intros H. pose proof (coordR_bounds l x H) as [B _]. pose proof (pow2R_pos l) as P.
  assert (L: IZR (Z.of_N (coordR l x)) < pow2R l) by nra.
  unfold pow2R in L. apply lt_IZR in L. lia.
Qed.
Lemma coordR_unique l x c : 0 <= x < 1 -> IZR (Z.of_N c) <= x * pow2R l < IZR (Z.of_N c) + 1 -> coordR l x = c.
Proof.
  intros H [A B]. unfold coordR. replace (Zfloor (x * pow2R l)) with (Z.of_N c); [apply N2Z.id|].
  symmetry. apply Zfloor_imp. now rewrite plus_IZR.
Qed.
Lemma coordR_half l x : 0 <= x < 1 -> coordR l x = (coordR (l+1) x / 2)%N.
Proof.
  intros H. pose proof (coordR_bounds (l+1) x H) as [A B]. rewrite pow2R_add, pow2R_1 in A, B.
  apply coordR_unique; auto. set (c := coordR (l+1) x) in *. clearbody c.
  pose proof (N.div_mod c 2 ltac:(lia)) as E. pose proof (N.mod_lt c 2 ltac:(lia)) as M.
  set (q := (c/2)%N) in *. set (r := (c mod 2)%N) in *. clearbody q r.
  assert (E1: IZR (Z.of_N c) = 2 * IZR (Z.of_N q) + IZR (Z.of_N r)).
  { rewrite <- mult_IZR, <- plus_IZR. f_equal. lia. }
  assert (0 <= IZR (Z.of_N r) <= 1) by (split; apply IZR_le; lia).
  lra.
Qed.

Lemma nthN_coordsR l p i : (forall x, In x p -> 0 <= x < 1) -> (nthN (coordsR l p) i < 2^l)%N.
Proof.
  intro H. unfold nthN, coordsR. destruct (Nat.lt_ge_cases i (length p)) as [L|L].
  - assert (In (nth i (map (coordR l) p) 0%N) (map (coordR l) p)) as I by (apply nth_In; now rewrite map_length).
    apply in_map_iff in I as (x & <- & Hx). now apply coordR_lt, H.
  - rewrite nth_overflow by (now rewrite map_length). apply pow2_pos.
Qed.

Lemma valid_in E D p x : valid_pos E D p -> In x p -> 0 <= x < 1.
Proof. intros [_ H] Hx. rewrite Forall_forall in H. now apply H. Qed.

Lemma coordsR_length l p : length (coordsR l p) = length p.
Proof. apply map_length. Qed.

Definition cellR (cfg : config) (D l : N) (p : list R) : N := deposit (use_bmi2 cfg) D (coordsR l p).

Lemma cellForPoint_eq E cfg D p l : good_rnd E -> valid_pos E D p -> (l < 31)%N ->
  cellForPoint E cfg D p l = Some (cellR cfg D l p).
Proof.
  intros G V Hl. unfold cellForPoint. rewrite shl1_i32_Some by auto. cbn [obind].
  fold (pow2R l).
  assert (O: omap (fun x => double_to_u32 (rnd E (x * pow2R l))) p = Some (coordsR l p)).
  { destruct V as [_ V]. induction V as [|x p [Hx Rx] _ IH]; [reflexivity|].
    cbn [omap coordsR map]. 
    assert (E1: double_to_u32 (rnd E (x * pow2R l)) = Some (coordR l x)).
    { rewrite gr_scale by auto. unfold double_to_u32, coordR.
      rewrite Ztrunc_floor by (pose proof (pow2R_pos l); nra).
      pose proof (coordR_lt l x Hx) as L. unfold coordR in L.
      assert (F0: (0 <= Zfloor (x * pow2R l))%Z).
      { apply Zfloor_lub. apply Rmult_le_pos; [lra|]. pose proof (pow2R_pos l); lra. }
      assert (P: (2^l < 2^32)%N) by (apply N.pow_lt_mono_r; lia).
      destruct (Z.leb_spec 0 (Zfloor (x * pow2R l))); [|lia].
      destruct (Z.ltb_spec (Zfloor (x * pow2R l)) (2^32)); [reflexivity|].
      exfalso. apply N.lt_trans with (p := (2^32)%N) in L; auto. change (2^32)%Z with (Z.of_N (2^32)) in *. lia. }
    rewrite E1. cbn [obind]. rewrite IH. reflexivity. }
  rewrite O. reflexivity.
Qed.

Lemma cellR_bound cfg E D l p : dim_ok D -> valid_pos E D p -> (D * l <= 32)%N -> (cellR cfg D l p < 2^(D*l))%N.
Proof.
  intros HD V H. apply deposit_bound; auto; [lia| |].
  - rewrite coordsR_length. apply V.
  - intro i. apply nthN_coordsR. intros x. eapply valid_in; eauto.
Qed.
Lemma fits_coordsR E D l p : dim_ok D -> valid_pos E D p -> (D * l <= 32)%N -> fits D (coordsR l p).
Proof.
  intros HD V H. split; [rewrite coordsR_length; apply V|]. intro i.
  eapply N.lt_le_trans; [apply nthN_coordsR; intros x; eapply valid_in; eauto|].
  apply N.pow_le_mono_r; [lia|]. unfold dim_ok in HD. apply N.div_le_lower_bound; lia.
Qed.

(** the global number of the cell of a point on level l *)
Definition cell_of (cfg : config) (D l : N) (p : list R) : N := (fc D l + cellR cfg D l p)%N.

Lemma cell_of_in_level cfg E D l p : dim_ok D -> valid_pos E D p -> (D * l <= 32)%N -> in_level D l (cell_of cfg D l p).
Proof.
  intros HD V H. pose proof (cellR_bound cfg E D l p HD V H). unfold in_level, cell_of. rewrite fc_succ by auto. lia.
Qed.

Lemma cellR_parent cfg E D l p : dim_ok D -> valid_pos E D p -> (D * (l+1) <= 32)%N ->
  cellR cfg D l p = (cellR cfg D (l+1) p / 2^D)%N.
Proof.
  intros HD V H. unfold cellR. rewrite <- (deposit_half _ D _ l); auto.
  - f_equal. unfold coordsR. rewrite map_map. apply map_ext_in. intros x Hx. apply coordR_half. eapply valid_in; eauto.
  - lia.
  - rewrite coordsR_length; apply V.
  - intro i. apply nthN_coordsR. intros x; eapply valid_in; eauto.
Qed.

Lemma cell_of_child cfg E D l p : dim_ok D -> valid_pos E D p -> (D * (l+1) <= 32)%N ->
  is_child D (cell_of cfg D l p) (cell_of cfg D (l+1) p).
Proof.
  intros HD V H. unfold is_child, cell_of. rewrite (cellR_parent cfg E D l p) by auto.
  rewrite fc_succ' by auto. pose proof (pow2_dim D HD) as P.
  pose proof (N.div_mod (cellR cfg D (l+1) p) (2^D) ltac:(lia)) as E1.
  pose proof (N.mod_lt (cellR cfg D (l+1) p) (2^D) ltac:(lia)) as M.
  set (q := (cellR cfg D (l+1) p / 2^D)%N) in *. set (r := (cellR cfg D (l+1) p mod 2^D)%N) in *.
  rewrite E1. clearbody q r. clear -P M. set (s := (2^D)%N) in *. clearbody s. nia.
Qed.

Lemma extract_cell_of cfg E D l p : dim_ok D -> valid_pos E D p -> (D * l <= 31)%N ->
  extract (use_bmi2 cfg) D (cellOfLevel cfg D (cell_of cfg D l p)) = coordsR l p.
Proof.
  intros HD V H. rewrite (cellOfLevel_eq cfg D l) by (auto; apply (cell_of_in_level cfg E); auto; lia).
  unfold cell_of. rewrite N.add_comm, N.add_sub. unfold cellR. apply extract_deposit; auto.
  eapply fits_coordsR; eauto. lia.
Qed.

(** ** touching / dist on integer coordinates *)
Definition axdist (l : N) (a b : N) : Z := axis_dist (2^l) (Z.of_N a) (Z.of_N b).

Lemma axis_dists_eq l ca cb : (forall i, nthN ca i < 2^l)%N -> (forall i, nthN cb i < 2^l)%N -> (l <= 31)%N ->
  axis_dists (2^l) ca cb = Some (map (fun ab => axdist l (fst ab) (snd ab)) (combine ca cb)).
Proof.
  intros HA HB Hl. assert (P: (2^l <= 2^31)%N) by (apply N.pow_le_mono_r; lia).
  revert cb HB. induction ca as [|a ca IH]; intros cb HB; [reflexivity|].
  destruct cb as [|b cb]; [reflexivity|]. cbn [axis_dists combine map].
  pose proof (HA 0%nat) as A0. pose proof (HB 0%nat) as B0. unfold nthN in A0, B0; cbn [nth] in A0, B0.
  unfold u32_to_int. destruct (N.ltb_spec a (2^31)); [|lia]. destruct (N.ltb_spec b (2^31)); [|lia]. cbn [obind].
  rewrite IH; [reflexivity| |].
  - intro i. exact (HA (S i)).
  - intro i. exact (HB (S i)).
Qed.

Lemma axdist_nonneg l a b : (a < 2^l)%N -> (b < 2^l)%N -> (0 <= axdist l a b)%Z.
Proof. unfold axdist, axis_dist. lia. Qed.
Lemma axdist_sym l a b : axdist l a b = axdist l b a.
Proof. unfold axdist, axis_dist. cbv zeta. replace (Z.of_N b - Z.of_N a)%Z with (- (Z.of_N a - Z.of_N b))%Z by lia. now rewrite Z.abs_opp. Qed.

Definition coords_touch (l : N) (ca cb : list N) : bool :=
  forallb (fun ab => (axdist l (fst ab) (snd ab) <=? 1)%Z) (combine ca cb).

Lemma forallb_map_c {A B} (f : B -> bool) (g : A -> B) l : forallb f (map g l) = forallb (fun x => f (g x)) l.
Proof. induction l; cbn; congruence. Qed.

Definition coords_dist (l : N) (ca cb : list N) : Z :=
  fold_left Z.max (map (fun ab => axdist l (fst ab) (snd ab)) (combine ca cb)) 0%Z.

Section CellPairs.
  Variables (E : fenv) (cfg : config) (D l : N) (A B : N).
  Hypotheses (HD : dim_ok D) (Hl : (l < 31)%N) (HDl : (D * l <= 31)%N)
             (HA : in_level D l A) (HB : in_level D l B).

  Definition ccoords (X : N) : list N := extract (use_bmi2 cfg) D (X - fc D l).

  Lemma local_bound X : in_level D l X -> (X - fc D l < 2^(D*l))%N.
  Proof. intros [H1 H2]. rewrite fc_succ in H2 by auto. lia. Qed.
  Lemma local_bound32 X : in_level D l X -> (X - fc D l < 2^32)%N.
  Proof.
    intros H. eapply N.lt_le_trans; [now apply local_bound|]. apply N.pow_le_mono_r; lia.
  Qed.
  Lemma ccoords_bound X : in_level D l X -> forall i, (nthN (ccoords X) i < 2^l)%N.
  Proof. intros H i. unfold ccoords. apply (extract_bound (use_bmi2 cfg) D (X - fc D l) i l); [exact HD|exact (local_bound32 X H)|exact (local_bound X H)]. Qed.
  Lemma ccoords_length X : in_level D l X -> length (ccoords X) = N.to_nat D.
  Proof. intros H. unfold ccoords. apply extract_length; [exact HD|exact (local_bound32 X H)]. Qed.

  Lemma touching_eq : touching cfg D A B l = Some (coords_touch l (ccoords A) (ccoords B)).
  Proof.
    unfold touching. rewrite !(cellOfLevel_eq cfg D l) by auto. fold (ccoords A) (ccoords B).
    rewrite shl1_i32_Some by auto. cbn [obind].
    rewrite axis_dists_eq; [|now apply ccoords_bound|now apply ccoords_bound|lia].
    cbn [obind]. unfold coords_touch. now rewrite forallb_map_c.
  Qed.

  Lemma cell_dist_eq : good_rnd E ->
    cell_dist E cfg D A B l = Some (Rmax 0 (IZR (coords_dist l (ccoords A) (ccoords B) - 1) / pow2R l)).
  Proof.
    intros G. unfold cell_dist. rewrite !(cellOfLevel_eq cfg D l) by auto. fold (ccoords A) (ccoords B).
    rewrite shl1_i32_Some by auto. cbn [obind].
    rewrite axis_dists_eq; [|now apply ccoords_bound|now apply ccoords_bound|lia].
    cbn [obind]. fold (pow2R l). fold (coords_dist l (ccoords A) (ccoords B)).
    assert (E1: rnd E (1 / pow2R l) = 1 / pow2R l) by (apply (gr_dyadic E G 1); lia).
    rewrite E1. set (m := coords_dist _ _ _).
    replace (IZR (m - 1) * (1 / pow2R l)) with (IZR (m-1) / pow2R l) by (field; pose proof (pow2R_pos l); lra).
    rewrite gr_dyadic; auto; [|lia].
    assert (H: forall cs ds z, (forall i, nthN cs i < 2^l)%N -> (forall i, nthN ds i < 2^l)%N -> (0 <= z <= 2^31)%Z ->
       (0 <= fold_left Z.max (map (fun ab => axdist l (fst ab) (snd ab)) (combine cs ds)) z <= 2^31)%Z).
    { assert (P: (2^l <= 2^31)%N) by (apply N.pow_le_mono_r; lia).
      induction cs as [|c cs IH]; intros ds z Hc Hd Hz; [exact Hz|].
      destruct ds as [|d ds]; [exact Hz|]. cbn [combine map fold_left].
      pose proof (Hc 0%nat) as C0. pose proof (Hd 0%nat) as D0. unfold nthN in C0, D0; cbn [nth] in C0, D0.
      apply IH.
      - intro i. exact (Hc (S i)).
      - intro i. exact (Hd (S i)).
      - cbn [fst snd]. unfold axdist, axis_dist. assert (Z.of_N (2^l) <= 2^31)%Z by lia. lia. }
    specialize (H _ _ 0%Z (ccoords_bound A HA) (ccoords_bound B HB) ltac:(lia)).
    fold (coords_dist l (ccoords A) (ccoords B)) in H. fold m in H. lia.
  Qed.
End CellPairs.

(** Points: real distance of one axis versus index distance of the cells *)
Lemma axis_distance_lb E l x y : good_rnd E -> (l < 31)%N -> 0 <= x < 1 -> 0 <= y < 1 ->
  IZR (axdist l (coordR l x) (coordR l y) - 1) / pow2R l <= axis_distance E x y.
Proof.
  intros G Hl Hx Hy. pose proof (coordR_bounds l x Hx) as [X1 X2]. pose proof (coordR_bounds l y Hy) as [Y1 Y2].
  pose proof (coordR_lt l x Hx) as LX. pose proof (coordR_lt l y Hy) as LY.
  unfold axdist, axis_dist, axis_distance; cbv zeta.
  set (a := coordR l x) in *. set (b := coordR l y) in *. clearbody a b.
  pose proof (pow2R_pos l) as P.
  assert (Pz: (Z.of_N (2^l) <= 2^31)%Z).
  { assert ((2^l <= 2^31)%N) by (apply N.pow_le_mono_r; lia). lia. }
  set (S := Z.of_N (2^l)) in *. assert (ES: pow2R l = IZR S) by reflexivity. rewrite ES in *. clear ES.
  set (k := Z.abs (Z.of_N a - Z.of_N b)).
  assert (Ix: IZR (Z.of_N a - Z.of_N b) = IZR (Z.of_N a) - IZR (Z.of_N b)) by apply minus_IZR.
  (* real bounds on x - y *)
  assert (U: IZR (Z.of_N a - Z.of_N b - 1) / IZR S <= x - y <= IZR (Z.of_N a - Z.of_N b + 1) / IZR S).
  { rewrite minus_IZR, plus_IZR, Ix. split; apply Rmult_le_reg_r with (IZR S); auto; unfold Rdiv; rewrite Rmult_assoc, Rinv_l, Rmult_1_r by lra; nra. }
  assert (dy: forall m, (Z.abs m <= 2^32)%Z -> rnd E (IZR m / IZR S) = IZR m / IZR S).
  { intros m Hm. apply (gr_dyadic E G m l); lia. }
  assert (V: IZR (Z.of_N a - Z.of_N b - 1) / IZR S <= rnd E (x - y) <= IZR (Z.of_N a - Z.of_N b + 1) / IZR S).
  { rewrite <- (dy (Z.of_N a - Z.of_N b - 1)%Z), <- (dy (Z.of_N a - Z.of_N b + 1)%Z) by lia.
    split; apply gr_mono; auto; apply U. }
  set (t := rnd E (x-y)) in *.
  assert (dv: forall m n, (m <= n)%Z -> IZR m / IZR S <= IZR n / IZR S).
  { intros m n Hmn. apply Rmult_le_compat_r; [apply Rlt_le, Rinv_0_lt_compat, P|]. now apply IZR_le. }
  assert (opp: forall m, - (IZR m / IZR S) = IZR (-m) / IZR S).
  { intro m. rewrite opp_IZR. field. lra. }
  assert (T1: IZR (k - 1) / IZR S <= Rabs t).
  { unfold k. destruct (Z.abs_spec (Z.of_N a - Z.of_N b)) as [[H ->]|[H ->]].
    - apply Rle_trans with t; [apply V|apply Rle_abs].
    - apply Rle_trans with (-t); [|rewrite <- Rabs_Ropp; apply Rle_abs].
      apply Ropp_le_cancel. rewrite Ropp_involutive, opp.
      replace (- (- (Z.of_N a - Z.of_N b) - 1))%Z with (Z.of_N a - Z.of_N b + 1)%Z by lia. apply V. }
  assert (T2: Rabs t <= IZR (k + 1) / IZR S).
  { apply Rabs_le. rewrite opp. unfold k. split.
    - eapply Rle_trans; [|apply V]. apply dv. lia.
    - eapply Rle_trans; [apply V|]. apply dv. lia. }
  apply Rmin_glb.
  - eapply Rle_trans; [|exact T1]. apply dv. lia.
  - assert (T3: IZR (S - k - 1) / IZR S <= 1 - Rabs t).
    { replace (S - k - 1)%Z with (S + - (k + 1))%Z by lia. rewrite plus_IZR, opp_IZR.
      replace ((IZR S + - IZR (k+1)) / IZR S) with (1 - IZR (k+1)/IZR S) by (field; lra). lra. }
    eapply Rle_trans; [|apply (gr_mono E G _ _ T3)]. rewrite dy by lia. apply dv. lia.
Qed.

Lemma coord_distance_ge E r xs ys : r <= coord_distance E r xs ys.
Proof.
  revert r ys; induction xs as [|x xs IH]; intros r ys; cbn; [lra|]. destruct ys; [lra|].
  eapply Rle_trans; [|apply IH]. apply Rmax_l.
Qed.
Lemma coord_distance_axis E : forall xs ys r x y, In (x, y) (combine xs ys) -> axis_distance E x y <= coord_distance E r xs ys.
Proof.
  induction xs as [|a xs IH]; intros ys r x y H; [destruct H|]. destruct ys as [|b ys]; [destruct H|].
  destruct H as [H|H]; cbn [coord_distance].
  - injection H as <- <-. eapply Rle_trans; [|apply coord_distance_ge]. apply Rmax_r.
  - now apply IH.
Qed.

Lemma combine_map_both {A B} (f : A -> B) xs ys :
  combine (map f xs) (map f ys) = map (fun p => (f (fst p), f (snd p))) (combine xs ys).
Proof. revert ys; induction xs; intros [|y ys]; cbn; congruence. Qed.

(** dist is a lower bound for the distance of points in the cells *)
Lemma coords_dist_lb E l xs ys : good_rnd E -> (l < 31)%N ->
  (forall x, In x xs -> 0 <= x < 1) -> (forall x, In x ys -> 0 <= x < 1) -> forall r,
  IZR (coords_dist l (coordsR l xs) (coordsR l ys) - 1) / pow2R l <= Rmax r (coord_distance E r xs ys) \/
  coords_dist l (coordsR l xs) (coordsR l ys) = 0%Z.
Proof.
  intros G Hl Hx Hy r. unfold coords_dist, coordsR. rewrite combine_map_both, map_map. cbn [fst snd].
  assert (H: forall L z, fold_left Z.max L z = z \/ In (fold_left Z.max L z) L).
  { induction L as [|a L IH]; intro z; [now left|]. cbn [fold_left].
    destruct (IH (Z.max z a)) as [->|H]; [|right; now right].
    destruct (Z.max_spec z a) as [[_ ->]|[_ ->]]; [right; now left|now left]. }
  edestruct H as [E1|E1]; [right; exact E1|left].
  apply in_map_iff in E1 as ((x & y) & E2 & I). rewrite <- E2. cbn [fst snd].
  eapply Rle_trans; [|apply Rmax_r].
  eapply Rle_trans; [|apply (coord_distance_axis E xs ys r x y I)].
  apply axis_distance_lb; auto; [apply Hx|apply Hy]; [eapply in_combine_l|eapply in_combine_r]; eauto.
Qed.

Lemma cell_dist_le_distance E cfg D l p q : dim_ok D -> good_rnd E -> (l < 31)%N -> (D * l <= 31)%N ->
  valid_pos E D p -> valid_pos E D q ->
  exists d, cell_dist E cfg D (cell_of cfg D l p) (cell_of cfg D l q) l = Some d /\ d <= coord_distance E 0 p q.
Proof.
  intros HD G Hl HDl Vp Vq.
  rewrite cell_dist_eq; auto; try (eapply cell_of_in_level; eauto; lia).
  eexists; split; [reflexivity|].
  unfold ccoords. rewrite <- !(cellOfLevel_eq cfg D l) by (auto; eapply cell_of_in_level; eauto; lia).
  rewrite !(extract_cell_of cfg E) by auto.
  apply Rmax_lub; [apply coord_distance_ge|].
  destruct (coords_dist_lb E l p q G Hl (fun x => valid_in E D p x Vp) (fun x => valid_in E D q x Vq) 0) as [H|H].
  - eapply Rle_trans; [exact H|]. rewrite Rmax_right; [lra|apply coord_distance_ge].
  - rewrite H. apply Rle_trans with 0; [|apply coord_distance_ge].
    pose proof (pow2R_pos l). apply Rmult_le_reg_r with (pow2R l); auto.
    unfold Rdiv. rewrite Rmult_assoc, Rinv_l by lra. change (IZR (0-1)) with (-1). lra.
Qed.

(** non-touching cells are at least one cell width apart *)
Lemma coords_dist_ge2 l ca cb : coords_touch l ca cb = false -> (2 <= coords_dist l ca cb)%Z.
Proof.
  unfold coords_touch, coords_dist. 
  assert (H: forall L z, forallb (fun d => (d <=? 1)%Z) L = false \/ (2 <= z)%Z -> (2 <= fold_left Z.max L z)%Z).
  { induction L as [|a L IH]; intros z [H|H]; cbn in *; try discriminate; auto.
    - apply IH. apply andb_false_iff in H as [H|H]; [right|now left]. apply Z.leb_gt in H. lia.
    - apply IH. right. lia. }
  intro F. apply H. left. now rewrite forallb_map_c.
Qed.

Lemma cell_dist_nontouching E cfg D l A B : dim_ok D -> good_rnd E -> (l < 31)%N -> (D * l <= 31)%N ->
  in_level D l A -> in_level D l B -> touching cfg D A B l = Some false ->
  exists d, cell_dist E cfg D A B l = Some d /\ 1 / pow2R l <= d.
Proof.
  intros HD G Hl HDl HA HB T. rewrite cell_dist_eq by auto. eexists; split; [reflexivity|].
  rewrite touching_eq in T by auto. injection T as T. apply coords_dist_ge2 in T.
  eapply Rle_trans; [|apply Rmax_r]. apply Rmult_le_compat_r; [apply Rlt_le, Rinv_0_lt_compat, pow2R_pos|].
  apply IZR_le. lia.
Qed.

(** non-touching is impossible on levels 0 and 1 *)
Lemma touching_low cfg D l A B : dim_ok D -> (l <= 1)%N -> (D * l <= 31)%N -> in_level D l A -> in_level D l B ->
  touching cfg D A B l = Some true.
Proof.
  intros HD Hl HDl HA HB. rewrite touching_eq by (auto; lia). f_equal. unfold coords_touch.
  apply forallb_forall. intros [a b] I. cbn [fst snd].
  assert (P: (2^l <= 2)%N). { change 2%N with (2^1)%N at 2. apply N.pow_le_mono_r; lia. }
  pose proof (in_combine_l _ _ _ _ I) as Ia. pose proof (in_combine_r _ _ _ _ I) as Ib.
  assert (BA: (a < 2^l)%N).
  { apply In_nth with (d := 0%N) in Ia as (i & _ & <-). apply ccoords_bound; auto; lia. }
  assert (BB: (b < 2^l)%N).
  { apply In_nth with (d := 0%N) in Ib as (i & _ & <-). apply ccoords_bound; auto; lia. }
  apply Z.leb_le. unfold axdist, axis_dist. lia.
Qed.

Lemma touching_self cfg D l A : dim_ok D -> (l < 31)%N -> (D * l <= 31)%N -> in_level D l A ->
  touching cfg D A A l = Some true.
Proof.
  intros HD Hl HDl HA. rewrite touching_eq by auto. f_equal. unfold coords_touch.
  apply forallb_forall. intros [a b] I. cbn [fst snd].
  assert (a = b).
  { revert I. generalize (ccoords cfg D l A). induction l0 as [|c cs IH]; intros []; [congruence|auto]. }
  subst. apply Z.leb_le. unfold axdist, axis_dist. rewrite Z.sub_diag. cbn. lia.
Qed.

(** ** powers *)
Lemma pow_helper_ge E n : good_rnd E -> forall fuel D x, (n <= 31)%N -> (D <= 5)%nat -> 1 / pow2R n <= x ->
  1 / pow2R (N.of_nat D * n) <= pow_helper (S (D + fuel)) E D x.
Proof.
  intros G fuel D x Hn HD Hx.
  assert (inv: forall a b, 1 / pow2R (a + b) = (1 / pow2R a) * (1 / pow2R b)).
  { intros a b. rewrite pow2R_add. field. pose proof (pow2R_pos a). pose proof (pow2R_pos b). lra. }
  assert (pos: forall a, 0 < 1 / pow2R a).
  { intro a. unfold Rdiv. rewrite Rmult_1_l. apply Rinv_0_lt_compat, pow2R_pos. }
  assert (MM: forall a b u v, (a + b <= 1000)%N -> 1 / pow2R a <= u -> 1 / pow2R b <= v -> 1 / pow2R (a+b) <= rnd E (u * v)).
  { intros a b u v Hab Hu Hv. rewrite <- (gr_dyadic E G 1 (a+b)) by lia. apply gr_mono; auto.
    rewrite inv. pose proof (pos a). pose proof (pos b). apply Rmult_le_compat; lra. }
  destruct D as [|[|[|[|[|[|D]]]]]]; [| | | | | |lia].
  - cbn [N.of_nat pow_helper Nat.add]. rewrite N.mul_0_l, pow2R_0. lra.
  - cbn [pow_helper Nat.add]. change (N.of_nat 1) with 1%N. now rewrite N.mul_1_l.
  - cbn [pow_helper Nat.add]. replace (N.of_nat 2 * n)%N with (n + n)%N by lia. apply MM; auto. lia.
  - cbn [pow_helper Nat.add Nat.div Nat.divmod fst]. replace (N.of_nat 3 * n)%N with (n + (n + n))%N by lia.
    apply MM; [lia|exact Hx|]. apply MM; auto. lia.
  - cbn [pow_helper Nat.add Nat.div Nat.divmod fst]. replace (N.of_nat 4 * n)%N with ((n + n) + (n + n))%N by lia.
    apply MM; [lia| |]; apply MM; auto; lia.
  - cbn [pow_helper Nat.add Nat.div Nat.divmod fst]. replace (N.of_nat 5 * n)%N with ((n + n) + (n + (n + n)))%N by lia.
    apply MM; [lia| |]; [apply MM; auto; lia|]. apply MM; [lia|auto|]. apply MM; auto; lia.
Qed.

Lemma pow_helper_mono E : good_rnd E -> forall fuel D x y, 0 <= x -> x <= y -> 0 <= pow_helper fuel E D x <= pow_helper fuel E D y.
Proof.
  intros G. induction fuel as [|f IH]; intros D x y Hx Hy; [cbn; lra|].
  destruct D as [|[|[|D]]]; try (cbn; lra).
  - cbn. split; [rewrite <- (rnd_0 E G)|]; apply gr_mono; auto; nra.
  - change (0 <= rnd E (pow_helper f E (S (S (S D)) / 2) x * pow_helper f E ((S (S (S D)) + 1) / 2) x)
              <= rnd E (pow_helper f E (S (S (S D)) / 2) y * pow_helper f E ((S (S (S D)) + 1) / 2) y)).
    pose proof (IH (S (S (S D)) / 2)%nat x y Hx Hy). pose proof (IH ((S (S (S D)) + 1) / 2)%nat x y Hx Hy).
    split; [rewrite <- (rnd_0 E G)|]; apply gr_mono; auto; [apply Rmult_le_pos; lra|apply Rmult_le_compat; lra].
Qed.

Lemma pow_helper_ideal fuel D x : (D < fuel)%nat -> pow_helper fuel ideal_env D x = x ^ D.
Proof.
  revert D. induction fuel as [|f IH]; intros D H; [lia|].
  destruct D as [|[|[|D]]]; cbn -[Nat.div Nat.add pow]; try (cbn; ring).
  assert (D1: (S (S (S D)) / 2 < f)%nat) by (apply Nat.div_lt_upper_bound; lia).
  assert (D2: ((S (S (S D)) + 1) / 2 < f)%nat) by (apply Nat.div_lt_upper_bound; lia).
  rewrite !IH by auto. rewrite <- pow_add. f_equal.
  pose proof (Nat.div_mod (S (S (S D))) 2 ltac:(lia)) as A1. pose proof (Nat.mod_upper_bound (S (S (S D))) 2 ltac:(lia)) as A2.
  pose proof (Nat.div_mod (S (S (S D)) + 1) 2 ltac:(lia)) as B1. pose proof (Nat.mod_upper_bound (S (S (S D)) + 1) 2 ltac:(lia)) as B2. lia.
Qed.
Lemma pow_to_the_ideal D x : pow_to_the ideal_env D x = x ^ (N.to_nat D).
Proof. apply pow_helper_ideal. lia. Qed.

Lemma pow_to_the_mono E D x y : good_rnd E -> 0 <= x -> x <= y -> 0 <= pow_to_the E D x <= pow_to_the E D y.
Proof. intros. now apply pow_helper_mono. Qed.
Lemma pow_to_the_ge E D n x : good_rnd E -> dim_ok D -> (n <= 31)%N -> 1 / pow2R n <= x -> 1 / pow2R (D * n) <= pow_to_the E D x.
Proof.
  intros G HD Hn Hx. unfold pow_to_the. pose proof (pow_helper_ge E n G 0 (N.to_nat D) x Hn) as H.
  rewrite Nat.add_0_r, N2Nat.id in H. apply H; auto. unfold dim_ok in HD. lia.
Qed.
