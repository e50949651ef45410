(** The torus: exact-real facts about cells, their distance and the point metric. *)
From Coq Require Import Arith NArith ZArith List Bool Reals Lia Lra Psatz.
From Flocq Require Import Core.
From Verif Require Import Base Bits_Model Bits_Proofs Coord_Model Coord_Proofs Coord_Geo.
Import ListNotations.
Open Scope R_scope.

(** ** Specification *)
(** distance on the circle R/Z: the infimum of |x - y + k| over the integers k *)
Definition is_circle_dist (x y d : R) : Prop :=
  (forall k : Z, d <= Rabs (x - y + IZR k)) /\ (exists k : Z, d = Rabs (x - y + IZR k)).
(** maximum of a function over corresponding entries, 0 for empty vectors *)
Definition is_max_over (P : R -> R -> R -> Prop) (xs ys : list R) (d : R) : Prop :=
  length xs = length ys /\ 0 <= d /\
  (forall i, (i < length xs)%nat -> exists di, P (nth i xs 0) (nth i ys 0) di /\ di <= d) /\
  (d = 0 \/ exists i, (i < length xs)%nat /\ P (nth i xs 0) (nth i ys 0) d).
(** max-norm torus distance *)
Definition is_torus_dist (xs ys : list R) (d : R) : Prop := is_max_over is_circle_dist xs ys d.

Definition in_box_closed (b : list (R * R)) (x : list R) : Prop := Forall2 (fun iv t => fst iv <= t <= snd iv) b x.
Definition in_box (b : list (R * R)) (x : list R) : Prop := Forall2 (fun iv t => fst iv <= t < snd iv) b x.
Definition same_torus_point (x y : list R) : Prop := Forall2 (fun s t => exists k : Z, s - t = IZR k) x y.

(** ** circle distance *)
Definition circ (x y : R) : R := Rmin (Rabs (x - y)) (1 - Rabs (x - y)).

Lemma axis_distance_ideal x y : axis_distance ideal_env x y = circ x y.
Proof. reflexivity. Qed.

Lemma circ_is x y : Rabs (x - y) <= 1 -> is_circle_dist x y (circ x y).
Proof.
  intro H. unfold circ. split.
  - intro k. assert (C: (k <= -1 \/ k = 0 \/ 1 <= k)%Z) by lia.
    destruct C as [C|[->|C]].
    + apply IZR_le in C. eapply Rle_trans; [apply Rmin_r|].
      unfold Rabs in *; repeat destruct (Rcase_abs _); lra.
    + rewrite Rplus_0_r. apply Rmin_l.
    + apply IZR_le in C. eapply Rle_trans; [apply Rmin_r|].
      unfold Rabs in *; repeat destruct (Rcase_abs _); lra.
  - unfold Rmin. destruct (Rle_dec (Rabs (x-y)) (1 - Rabs (x-y))) as [L|L].
    + exists 0%Z. now rewrite Rplus_0_r.
    + unfold Rabs at 1. destruct (Rcase_abs (x-y)).
      * exists 1%Z. unfold Rabs in *; repeat destruct (Rcase_abs _); lra.
      * exists (-1)%Z. unfold Rabs in *; repeat destruct (Rcase_abs _); lra.
Qed.
Lemma is_circle_dist_unique x y d e : is_circle_dist x y d -> is_circle_dist x y e -> d = e.
Proof.
  intros [A [k ->]] [B [j ->]]. apply Rle_antisym; auto.
Qed.
Lemma is_circle_dist_sym x y d : is_circle_dist x y d -> is_circle_dist y x d.
Proof.
  intros [A [k B]]. split.
  - intro j. specialize (A (-j)%Z). rewrite opp_IZR in A.
    replace (y - x + IZR j) with (- (x - y + - IZR j)) by ring. now rewrite Rabs_Ropp.
  - exists (-k)%Z. rewrite opp_IZR. rewrite B, <- Rabs_Ropp. f_equal. ring.
Qed.
Lemma circle_dist_triangle x y z a b c :
  is_circle_dist x y a -> is_circle_dist y z b -> is_circle_dist x z c -> c <= a + b.
Proof.
  intros [_ [k ->]] [_ [j ->]] [C _]. specialize (C (k + j)%Z). rewrite plus_IZR in C.
  eapply Rle_trans; [exact C|]. eapply Rle_trans; [|apply Rabs_triang]. right. f_equal. ring.
Qed.
Lemma circle_dist_shift x y x' y' d (k j : Z) : x' = x + IZR k -> y' = y + IZR j ->
  is_circle_dist x y d -> is_circle_dist x' y' d.
Proof.
  intros -> -> [A [m B]]. split.
  - intro i. specialize (A (i + k - j)%Z). rewrite minus_IZR, plus_IZR in A.
    replace (x + IZR k - (y + IZR j) + IZR i) with (x - y + (IZR i + IZR k - IZR j)) by ring. exact A.
  - exists (m - k + j)%Z. rewrite plus_IZR, minus_IZR. rewrite B. f_equal. ring.
Qed.

Lemma abs_lt_1 x y : 0 <= x < 1 -> 0 <= y < 1 -> Rabs (x - y) < 1.
Proof. intros. apply Rabs_def1; lra. Qed.

Lemma circ_sym x y : circ x y = circ y x.
Proof. unfold circ. now rewrite Rabs_minus_sym. Qed.
Lemma circ_half x y : circ x y <= / 2.
Proof. unfold circ, Rmin. destruct (Rle_dec _ _); lra. Qed.
Lemma circ_nonneg x y : Rabs (x - y) <= 1 -> 0 <= circ x y.
Proof. intro. unfold circ. apply Rmin_glb; [apply Rabs_pos|lra]. Qed.
Lemma circ_zero x y : Rabs (x - y) < 1 -> circ x y = 0 -> x = y.
Proof.
  intros H. unfold circ, Rmin. destruct (Rle_dec _ _); intro E; [|lra].
  destruct (Req_dec x y); auto. pose proof (Rabs_pos_lt (x-y)). lra.
Qed.
Lemma circ_refl x : circ x x = 0.
Proof. unfold circ. rewrite Rminus_diag_eq, Rabs_R0 by reflexivity. apply Rmin_left. lra. Qed.

(** ** the fold over the axes is a maximum *)
Lemma coord_distance_max : forall xs ys r, 0 <= r -> length xs = length ys ->
  forall d, d = coord_distance ideal_env r xs ys ->
  r <= d /\ (forall i, (i < length xs)%nat -> circ (nth i xs 0) (nth i ys 0) <= d) /\
  (d = r \/ exists i, (i < length xs)%nat /\ circ (nth i xs 0) (nth i ys 0) = d).
Proof.
  induction xs as [|x xs IH]; intros ys r Hr HL d Ed.
  - destruct ys; [|discriminate]. cbn in Ed. subst d. split; [lra|]. split; [cbn; intros; lia|now left].
  - destruct ys as [|y ys]; [discriminate|]. injection HL as HL.
    cbn [coord_distance] in Ed. rewrite axis_distance_ideal in Ed.
    assert (Hm: 0 <= Rmax r (circ x y)) by (eapply Rle_trans; [exact Hr|apply Rmax_l]).
    destruct (IH ys (Rmax r (circ x y)) Hm HL d Ed) as (I1 & I2 & I3).
    split; [eapply Rle_trans; [apply Rmax_l|exact I1]|]. split.
    + intros [|i] Hi; cbn [nth]; [eapply Rle_trans; [apply Rmax_r|exact I1]|]. apply I2. cbn in Hi. lia.
    + destruct I3 as [I3|(i & Hi & I3)].
      * unfold Rmax in I3. destruct (Rle_dec r (circ x y)).
        -- right. exists 0%nat. cbn. split; [lia|]. now rewrite I3.
        -- now left.
      * right. exists (S i). cbn. split; [lia|exact I3].
Qed.

Definition unit_pos (p : list R) : Prop := Forall (fun x => 0 <= x < 1) p.
Definition unit_pos_closed (p : list R) : Prop := Forall (fun x => 0 <= x <= 1) p.

Lemma unit_nth p i : unit_pos_closed p -> 0 <= nth i p 0 <= 1.
Proof.
  intro H. destruct (Nat.lt_ge_cases i (length p)) as [L|L].
  - unfold unit_pos_closed in H. rewrite Forall_forall in H. apply H. now apply nth_In.
  - rewrite nth_overflow by auto. lra.
Qed.
Lemma unit_closed p : unit_pos p -> unit_pos_closed p.
Proof. unfold unit_pos, unit_pos_closed. apply Forall_impl. intros; lra. Qed.

Lemma distance_is_torus_dist xs ys : unit_pos_closed xs -> unit_pos_closed ys -> length xs = length ys ->
  is_torus_dist xs ys (coord_distance ideal_env 0 xs ys).
Proof.
  intros Hx Hy HL. destruct (coord_distance_max xs ys 0 ltac:(lra) HL _ eq_refl) as (I1 & I2 & I3).
  assert (C: forall i, is_circle_dist (nth i xs 0) (nth i ys 0) (circ (nth i xs 0) (nth i ys 0))).
  { intro i. apply circ_is. pose proof (unit_nth xs i Hx). pose proof (unit_nth ys i Hy). apply Rabs_le. lra. }
  split; [auto|]. split; [auto|]. split.
  - intros i Hi. eexists; split; [apply C|]. now apply I2.
  - destruct I3 as [I3|(i & Hi & I3)]; [now left|right]. exists i. split; auto. rewrite <- I3. apply C.
Qed.

Lemma is_max_over_unique (P : R -> R -> R -> Prop) :
  (forall x y d e, P x y d -> P x y e -> d = e) ->
  forall xs ys d e, is_max_over P xs ys d -> is_max_over P xs ys e -> d = e.
Proof.
  intros U.
  assert (H: forall xs ys d e, is_max_over P xs ys d -> is_max_over P xs ys e -> d <= e).
  { intros xs ys d e (_ & D0 & _ & DA) (_ & E0 & EB & _). destruct DA as [->|(i & Hi & Pi)]; auto.
    destruct (EB i Hi) as (di & Pd & L). now rewrite (U _ _ _ _ Pi Pd). }
  intros. apply Rle_antisym; eapply H; eauto.
Qed.
Lemma torus_dist_unique xs ys d e : is_torus_dist xs ys d -> is_torus_dist xs ys e -> d = e.
Proof. apply is_max_over_unique. exact is_circle_dist_unique. Qed.

Lemma torus_dist_sym xs ys d : is_torus_dist xs ys d -> is_torus_dist ys xs d.
Proof.
  intros (L & D0 & B & A). split; [auto|]. split; [auto|]. split.
  - intros i Hi. rewrite <- L in Hi. destruct (B i Hi) as (di & P & H). exists di. split; auto. now apply is_circle_dist_sym.
  - destruct A as [A|(i & Hi & P)]; [now left|right]. exists i. rewrite <- L. split; auto. now apply is_circle_dist_sym.
Qed.
Lemma torus_triangle xs ys zs a b c :
  is_torus_dist xs ys a -> is_torus_dist ys zs b -> is_torus_dist xs zs c -> c <= a + b.
Proof.
  intros (L1 & A0 & AB & _) (L2 & B0 & BB & _) (L3 & C0 & _ & CA).
  destruct CA as [->|(i & Hi & P)]; [lra|].
  destruct (AB i Hi) as (da & Pa & La). destruct (BB i ltac:(lia)) as (db & Pb & Lb).
  pose proof (circle_dist_triangle _ _ _ _ _ _ Pa Pb P). lra.
Qed.

Lemma distance_zero_eq xs ys : unit_pos xs -> unit_pos ys -> length xs = length ys ->
  coord_distance ideal_env 0 xs ys = 0 -> xs = ys.
Proof.
  intros Hx Hy HL H. destruct (coord_distance_max xs ys 0 ltac:(lra) HL _ eq_refl) as (_ & I2 & _). rewrite H in I2.
  apply nth_ext with (d := 0) (d' := 0); auto. intros i Hi.
  unfold unit_pos in *. rewrite Forall_forall in Hx, Hy.
  assert (Xi: 0 <= nth i xs 0 < 1) by (apply Hx, nth_In; auto).
  assert (Yi: 0 <= nth i ys 0 < 1) by (apply Hy, nth_In; lia).
  apply circ_zero; [now apply abs_lt_1|]. apply Rle_antisym; [now apply I2|]. apply circ_nonneg.
  left. now apply abs_lt_1.
Qed.
Lemma distance_refl xs : coord_distance ideal_env 0 xs xs = 0.
Proof.
  induction xs as [|x xs IH]; [reflexivity|]. cbn [coord_distance].
  rewrite axis_distance_ideal, circ_refl, Rmax_left by lra. exact IH.
Qed.
Lemma distance_half xs ys : length xs = length ys -> coord_distance ideal_env 0 xs ys <= / 2.
Proof.
  intros HL. destruct (coord_distance_max xs ys 0 ltac:(lra) HL _ eq_refl) as (_ & _ & [->|(i & _ & <-)]); [lra|apply circ_half].
Qed.

(** translation modulo 1 *)
Definition frac (x : R) : R := x - IZR (Zfloor x).
Definition translate (t p : list R) : list R := map (fun tx => frac (snd tx + fst tx)) (combine t p).

Lemma frac_range x : 0 <= frac x < 1.
Proof. unfold frac. pose proof (Zfloor_lb x). pose proof (Zfloor_ub x). lra. Qed.

Lemma translate_length t p : length t = length p -> length (translate t p) = length p.
Proof. intro H. unfold translate. rewrite map_length, combine_length, H. apply Nat.min_id. Qed.
Lemma translate_unit t p : unit_pos (translate t p).
Proof. unfold unit_pos, translate. apply Forall_map. apply Forall_forall. intros. apply frac_range. Qed.
Lemma translate_nth t p i : length t = length p -> (i < length p)%nat -> nth i (translate t p) 0 = frac (nth i p 0 + nth i t 0).
Proof.
  intros HL Hi. unfold translate.
  rewrite (nth_indep _ 0 (frac (snd (0,0) + fst (0,0)))) by (rewrite map_length, combine_length; lia).
  rewrite (map_nth (fun tx => frac (snd tx + fst tx))). rewrite combine_nth by auto. reflexivity.
Qed.

Lemma distance_translate t xs ys : length t = length xs -> length t = length ys ->
  unit_pos xs -> unit_pos ys ->
  coord_distance ideal_env 0 (translate t xs) (translate t ys) = coord_distance ideal_env 0 xs ys.
Proof.
  intros Lx Ly Hx Hy.
  apply torus_dist_unique with (translate t xs) (translate t ys).
  - apply distance_is_torus_dist; try apply unit_closed, translate_unit. rewrite !translate_length by auto. lia.
  - destruct (distance_is_torus_dist xs ys (unit_closed _ Hx) (unit_closed _ Hy) ltac:(lia)) as (L & D0 & B & A).
    split; [rewrite !translate_length by auto; lia|]. split; [auto|].
    assert (S: forall i d, (i < length xs)%nat -> is_circle_dist (nth i xs 0) (nth i ys 0) d ->
       is_circle_dist (nth i (translate t xs) 0) (nth i (translate t ys) 0) d).
    { intros i d Hi P. rewrite !translate_nth by (auto; lia). unfold frac.
      set (T := nth i t 0).
      assert (P2: is_circle_dist (nth i xs 0 + T) (nth i ys 0 + T) d).
      { destruct P as [P1 [k P2]]. split; [intro j|exists k];
        replace (nth i xs 0 + T - (nth i ys 0 + T)) with (nth i xs 0 - nth i ys 0) by ring; auto. }
      eapply (circle_dist_shift _ _ _ _ d (- Zfloor (nth i xs 0 + T)) (- Zfloor (nth i ys 0 + T))); [| |exact P2];
      rewrite opp_IZR; ring. }
    rewrite translate_length by auto. split.
    + intros i Hi. destruct (B i Hi) as (di & P & H). exists di. split; auto.
    + destruct A as [A|(i & Hi & P)]; [now left|right]. exists i. split; auto.
Qed.

(** ** cells as boxes *)
Definition boxc (l : N) (c : N) : R * R := (IZR (Z.of_N c) / pow2R l, (IZR (Z.of_N c) + 1) / pow2R l).

Lemma bounds_eq E cfg D l A : good_rnd E -> dim_ok D -> (l < 31)%N -> (D * l <= 31)%N -> in_level D l A ->
  bounds E cfg D A l = Some (map (boxc l) (ccoords cfg D l A)).
Proof.
  intros G HD Hl HDl HA. unfold bounds. rewrite shl1_i32_Some by auto. cbn [obind].
  rewrite (cellOfLevel_eq cfg D l) by auto. fold (ccoords cfg D l A). fold (pow2R l).
  assert (E1: rnd E (1 / pow2R l) = 1 / pow2R l) by (apply (gr_dyadic E G 1); lia). rewrite E1.
  f_equal. apply map_ext_in. intros c Hc.
  assert (B: (c < 2^l)%N). { apply In_nth with (d := 0%N) in Hc as (i & _ & <-). now apply ccoords_bound. }
  assert (P: (2^l <= 2^31)%N) by (apply N.pow_le_mono_r; lia).
  change (2^31)%N with 2147483648%N in P.
  unfold boxc. pose proof (pow2R_pos l).
  rewrite w32_small by (change (2^32)%N with 4294967296%N; lia).
  replace (IZR (Z.of_N c) * (1 / pow2R l)) with (IZR (Z.of_N c) / pow2R l) by (field; lra).
  replace (IZR (Z.of_N (c+1)) * (1 / pow2R l)) with (IZR (Z.of_N (c+1)) / pow2R l) by (field; lra).
  assert ((Z.of_N c <= 2^32)%Z) by (change (2^32)%Z with 4294967296%Z; lia).
  rewrite !gr_dyadic; auto; try lia.
  rewrite N2Z.inj_add, plus_IZR. reflexivity.
Qed.

Lemma in_boxc l c x : (fst (boxc l c) <= x < snd (boxc l c)) <-> IZR (Z.of_N c) <= x * pow2R l < IZR (Z.of_N c) + 1.
Proof.
  unfold boxc; cbn [fst snd]. pose proof (pow2R_pos l) as P. unfold Rdiv. split; intros [A B]; split.
  - apply Rmult_le_compat_r with (r := pow2R l) in A; [|lra]. rewrite Rmult_assoc, Rinv_l in A by lra. lra.
  - apply Rmult_lt_compat_r with (r := pow2R l) in B; [|lra]. rewrite Rmult_assoc, Rinv_l in B by lra. lra.
  - apply Rmult_le_reg_r with (pow2R l); auto. rewrite Rmult_assoc, Rinv_l by lra. lra.
  - apply Rmult_lt_reg_r with (pow2R l); auto. rewrite Rmult_assoc, Rinv_l by lra. lra.
Qed.

Lemma Forall2_map_l {A B C} (P : B -> C -> Prop) (f : A -> B) l m :
  Forall2 P (map f l) m <-> Forall2 (fun a c => P (f a) c) l m.
Proof.
  split; revert m; induction l; intros m H; inversion H; subst; cbn; constructor; auto.
Qed.

Lemma point_in_own_cell E cfg D l p : dim_ok D -> (l < 31)%N -> (D * l <= 31)%N -> valid_pos E D p -> 
  in_box (map (boxc l) (ccoords cfg D l (cell_of cfg D l p))) p.
Proof.
  intros HD Hl HDl V. unfold ccoords. rewrite <- (cellOfLevel_eq cfg D l) by (auto; eapply cell_of_in_level; eauto; lia).
  rewrite (extract_cell_of cfg E) by auto. unfold in_box, coordsR. rewrite map_map. apply Forall2_map_l.
  destruct V as [_ V]. induction V as [|x p [Hx _] _ IH]; constructor; auto.
  apply in_boxc. now apply coordR_bounds.
Qed.

Lemma ccoords_inj cfg D l A B : dim_ok D -> (l < 31)%N -> (D * l <= 31)%N -> in_level D l A -> in_level D l B ->
  ccoords cfg D l A = ccoords cfg D l B -> A = B.
Proof.
  intros HD Hl HDl HA HB H. unfold ccoords in H.
  assert (K: forall X, in_level D l X -> (X - fc D l < 2^(D * (32/D)))%N).
  { intros X HX. eapply N.lt_le_trans; [apply local_bound; auto|]. apply N.pow_le_mono_r; [lia|].
    apply N.mul_le_mono_l. unfold dim_ok in HD. apply N.div_le_lower_bound; lia. }
  apply (f_equal (deposit (use_bmi2 cfg) D)) in H. rewrite !deposit_extract in H by auto.
  destruct HA, HB. lia.
Qed.

Lemma box_unique cfg D l A p E : dim_ok D -> (l < 31)%N -> (D * l <= 31)%N -> in_level D l A -> valid_pos E D p ->
  in_box (map (boxc l) (ccoords cfg D l A)) p -> A = cell_of cfg D l p.
Proof.
  intros HD Hl HDl HA V H. apply (ccoords_inj cfg D l A _ HD Hl HDl HA). { eapply cell_of_in_level; eauto; lia. }
  unfold ccoords at 2. rewrite <- (cellOfLevel_eq cfg D l) by (auto; eapply cell_of_in_level; eauto; lia).
  rewrite (extract_cell_of cfg E) by auto.
  apply Forall2_map_l in H. destruct V as [_ V]. unfold coordsR. revert V.
  induction H as [|c x cs p Hc _ IH]; intro V; [reflexivity|]. inversion V as [|? ? [Hx _] V']; subst.
  cbn [map]. f_equal; auto. symmetry. apply coordR_unique; auto. now apply in_boxc.
Qed.

(** ** one axis: index distance and circle distance of closed intervals *)
Lemma axis_touch l a b : (a < 2^l)%N -> (b < 2^l)%N ->
  ((axdist l a b <= 1)%Z <->
   exists x y, (fst (boxc l a) <= x <= snd (boxc l a)) /\ (fst (boxc l b) <= y <= snd (boxc l b)) /\ exists k : Z, x - y = IZR k).
Proof.
  intros Ha Hb. pose proof (pow2R_pos l) as P. unfold boxc; cbn [fst snd].
  assert (ES: pow2R l = IZR (Z.of_N (2^l))) by reflexivity.
  set (S := Z.of_N (2^l)) in *.
  assert (dv: forall u v, u <= v -> u / pow2R l <= v / pow2R l).
  { intros. apply Rmult_le_compat_r; auto. apply Rlt_le, Rinv_0_lt_compat, P. }
  assert (az: (0 <= Z.of_N a < S)%Z) by lia. assert (bz: (0 <= Z.of_N b < S)%Z) by lia.
  set (za := Z.of_N a) in *. set (zb := Z.of_N b) in *.
  assert (AD: axdist l a b = Z.min (Z.abs (za - zb)) (S - Z.abs (za - zb))) by reflexivity. rewrite AD.
  split.
  - intro H.
    assert (C: (za = zb \/ za = zb + 1 \/ zb = za + 1 \/ (za = 0 /\ zb = S - 1) \/ (zb = 0 /\ za = S - 1))%Z) by lia.
    destruct C as [C|[C|[C|[[C1 C2]|[C1 C2]]]]].
    + exists (IZR za / pow2R l), (IZR zb / pow2R l). repeat split; try lra; try (apply dv; lra).
      exists 0%Z. rewrite C. ring.
    + exists (IZR za / pow2R l), (IZR za / pow2R l). 
      assert (IZR za = IZR zb + 1) by (rewrite <- plus_IZR; now f_equal).
      repeat split; try lra; try (apply dv; lra). exists 0%Z. ring.
    + exists (IZR zb / pow2R l), (IZR zb / pow2R l). 
      assert (IZR zb = IZR za + 1) by (rewrite <- plus_IZR; now f_equal).
      repeat split; try lra; try (apply dv; lra). exists 0%Z. ring.
    + exists (IZR za / pow2R l), ((IZR zb + 1) / pow2R l). repeat split; try lra; try (apply dv; lra).
      exists (-1)%Z. rewrite C1, C2, ES, minus_IZR. field. lra.
    + exists ((IZR za + 1) / pow2R l), (IZR zb / pow2R l). repeat split; try lra; try (apply dv; lra).
      exists 1%Z. rewrite C1, C2, ES, minus_IZR. field. lra.
  - intros (x & y & [X1 X2] & [Y1 Y2] & k & Hk).
    assert (ml: forall u v, u / pow2R l <= v -> u <= v * pow2R l).
    { intros u v H. apply Rmult_le_compat_r with (r := pow2R l) in H; [|lra]. unfold Rdiv in H. rewrite Rmult_assoc, Rinv_l in H; lra. }
    assert (mr: forall u v, v <= u / pow2R l -> v * pow2R l <= u).
    { intros u v H. apply Rmult_le_compat_r with (r := pow2R l) in H; [|lra]. unfold Rdiv in H. rewrite Rmult_assoc, Rinv_l in H; lra. }
    apply ml in X1, Y1. apply mr in X2, Y2.
    assert (Hk2: x * pow2R l - y * pow2R l = IZR (k * S)) by (rewrite mult_IZR, <- ES, <- Hk; ring).
    assert (U1: (k * S <= za - zb + 1)%Z). { apply le_IZR. rewrite plus_IZR, minus_IZR, <- Hk2. lra. }
    assert (U2: (za - zb - 1 <= k * S)%Z). { apply le_IZR. rewrite !minus_IZR, <- Hk2. lra. }
    assert (K: (k <= -1 \/ k = 0 \/ 1 <= k)%Z) by lia.
    destruct K as [K|[->|K]]; [|lia|]; nia.
Qed.

Lemma axis_lower l a b x y : (a < 2^l)%N -> (b < 2^l)%N ->
  fst (boxc l a) <= x <= snd (boxc l a) -> fst (boxc l b) <= y <= snd (boxc l b) ->
  IZR (axdist l a b - 1) / pow2R l <= circ x y.
Proof.
  intros Ha Hb [X1 X2] [Y1 Y2]. pose proof (pow2R_pos l) as P. unfold boxc in *; cbn [fst snd] in *.
  assert (ES: pow2R l = IZR (Z.of_N (2^l))) by reflexivity.
  set (S := Z.of_N (2^l)) in *. set (za := Z.of_N a) in *. set (zb := Z.of_N b) in *.
  assert (AD: axdist l a b = Z.min (Z.abs (za - zb)) (S - Z.abs (za - zb))) by reflexivity. rewrite AD.
  assert (ml: forall u v, u / pow2R l <= v -> u <= v * pow2R l).
  { intros u v H. apply Rmult_le_compat_r with (r := pow2R l) in H; [|lra]. unfold Rdiv in H. rewrite Rmult_assoc, Rinv_l in H; lra. }
  assert (mr: forall u v, v <= u / pow2R l -> v * pow2R l <= u).
  { intros u v H. apply Rmult_le_compat_r with (r := pow2R l) in H; [|lra]. unfold Rdiv in H. rewrite Rmult_assoc, Rinv_l in H; lra. }
  apply ml in X1, Y1. apply mr in X2, Y2.
  apply Rmult_le_reg_r with (pow2R l); auto. unfold Rdiv. rewrite Rmult_assoc, Rinv_l, Rmult_1_r by lra.
  set (m := Z.min _ _). unfold circ.
  assert (A: Rabs (x - y) * pow2R l = Rabs (x * pow2R l - y * pow2R l)).
  { rewrite <- (Rabs_pos_eq (pow2R l)) at 1 by lra. rewrite <- Rabs_mult. f_equal. ring. }
  assert (m1: IZR (m - 1) <= IZR (Z.abs (za - zb) - 1)) by (apply IZR_le; lia).
  assert (m2: IZR (m - 1) <= IZR (S - Z.abs (za - zb) - 1)) by (apply IZR_le; lia).
  rewrite !minus_IZR, abs_IZR, minus_IZR in m1. rewrite !minus_IZR, abs_IZR, minus_IZR in m2. rewrite <- ES in m2.
  rewrite minus_IZR.
  unfold Rmin. destruct (Rle_dec _ _).
  - rewrite A. unfold Rabs in *; repeat destruct (Rcase_abs _); lra.
  - rewrite Rmult_minus_distr_r, A. unfold Rabs in *; repeat destruct (Rcase_abs _); lra.
Qed.

Lemma axis_attained l a b : (a < 2^l)%N -> (b < 2^l)%N -> exists x y,
  fst (boxc l a) <= x <= snd (boxc l a) /\ fst (boxc l b) <= y <= snd (boxc l b) /\
  circ x y = Rmax 0 (IZR (axdist l a b - 1) / pow2R l).
Proof.
  intros Ha Hb. pose proof (pow2R_pos l) as P.
  assert (ES: pow2R l = IZR (Z.of_N (2^l))) by reflexivity.
  assert (dv: forall u v, u <= v -> u / pow2R l <= v / pow2R l).
  { intros. apply Rmult_le_compat_r; auto. apply Rlt_le, Rinv_0_lt_compat, P. }
  assert (range: forall c x, (c < 2^l)%N -> fst (boxc l c) <= x <= snd (boxc l c) -> 0 <= x <= 1).
  { intros c x Hc [H1 H2]. unfold boxc in *; cbn [fst snd] in *. split.
    - eapply Rle_trans; [|exact H1]. unfold Rdiv. apply Rmult_le_pos; [apply IZR_le; lia|apply Rlt_le, Rinv_0_lt_compat, P].
    - eapply Rle_trans; [exact H2|]. apply Rmult_le_reg_r with (pow2R l); auto. unfold Rdiv. rewrite Rmult_assoc, Rinv_l by lra.
      rewrite ES, Rmult_1_l, Rmult_1_r. rewrite <- plus_IZR. apply IZR_le. lia. }
  destruct (Z.le_gt_cases (axdist l a b) 1) as [H|H].
  - pose proof (proj1 (axis_touch l a b Ha Hb) H) as (x & y & Hx & Hy & k & Hk).
    exists x, y. split; [exact Hx|]. split; [exact Hy|].
    rewrite Rmax_left.
    2:{ unfold Rdiv. apply Rmult_le_reg_r with (pow2R l); auto. rewrite Rmult_assoc, Rinv_l by lra.
        assert (IZR (axdist l a b - 1) <= 0) by (apply IZR_le; lia). lra. }
    pose proof (range a x Ha Hx). pose proof (range b y Hb Hy).
    apply Rle_antisym; [|apply circ_nonneg; apply Rabs_le; lra].
    pose proof (circ_is x y ltac:(apply Rabs_le; lra)) as [C _]. specialize (C (-k)%Z).
    rewrite Hk, opp_IZR, Rplus_opp_r, Rabs_R0 in C. exact C.
  - set (S := Z.of_N (2^l)) in *. 
    assert (AD: axdist l a b = Z.min (Z.abs (Z.of_N a - Z.of_N b)) (S - Z.abs (Z.of_N a - Z.of_N b))) by reflexivity.
    assert (WL: forall a b, (a < 2^l)%N -> (b < 2^l)%N -> (Z.of_N a <= Z.of_N b)%Z -> (1 < axdist l a b)%Z -> exists x y,
       fst (boxc l a) <= x <= snd (boxc l a) /\ fst (boxc l b) <= y <= snd (boxc l b) /\
       circ x y = Rmax 0 (IZR (axdist l a b - 1) / pow2R l)).
    { clear a b Ha Hb H AD. intros a b Ha Hb Hab H.
      assert (AD: axdist l a b = Z.min (Z.of_N b - Z.of_N a) (S - (Z.of_N b - Z.of_N a))).
      { unfold axdist, axis_dist. fold S. lia. }
      assert (pos: 0 <= IZR (axdist l a b - 1) / pow2R l).
      { unfold Rdiv. apply Rmult_le_pos; [apply IZR_le; lia|apply Rlt_le, Rinv_0_lt_compat, P]. }
      rewrite Rmax_right by exact pos.
      destruct (Z.le_gt_cases (Z.of_N b - Z.of_N a) (S - (Z.of_N b - Z.of_N a))) as [C|C].
      - exists ((IZR (Z.of_N a) + 1) / pow2R l), (IZR (Z.of_N b) / pow2R l).
        unfold boxc; cbn [fst snd]. repeat split; try lra; try (apply dv; lra).
        rewrite AD, Z.min_l by lia. unfold circ.
        replace ((IZR (Z.of_N a) + 1) / pow2R l - IZR (Z.of_N b) / pow2R l) with (- (IZR (Z.of_N b - Z.of_N a - 1) / pow2R l))
          by (rewrite !minus_IZR; field; lra).
        rewrite Rabs_Ropp. rewrite AD, Z.min_l in pos by lia. rewrite Rabs_pos_eq by exact pos.
        apply Rmin_left.
        apply Rmult_le_reg_r with (pow2R l); auto. unfold Rdiv. rewrite Rmult_minus_distr_r, Rmult_assoc, Rinv_l by lra.
        rewrite Rmult_1_r, Rmult_1_l, ES, <- minus_IZR. apply IZR_le. lia.
      - exists (IZR (Z.of_N a) / pow2R l), ((IZR (Z.of_N b) + 1) / pow2R l).
        unfold boxc; cbn [fst snd]. repeat split; try lra; try (apply dv; lra).
        rewrite AD, Z.min_r by lia. unfold circ.
        replace (IZR (Z.of_N a) / pow2R l - (IZR (Z.of_N b) + 1) / pow2R l) with (- (IZR (Z.of_N b - Z.of_N a + 1) / pow2R l))
          by (rewrite plus_IZR, minus_IZR; field; lra).
        rewrite Rabs_Ropp, Rabs_pos_eq.
        2:{ unfold Rdiv. apply Rmult_le_pos; [apply IZR_le; lia|apply Rlt_le, Rinv_0_lt_compat, P]. }
        rewrite Rmin_right.
        + rewrite !minus_IZR, plus_IZR, minus_IZR, <- ES. field. lra.
        + apply Rmult_le_reg_r with (pow2R l); auto. unfold Rdiv. rewrite Rmult_minus_distr_r, Rmult_assoc, Rinv_l by lra.
          rewrite Rmult_1_r, Rmult_1_l, ES, <- minus_IZR. apply IZR_le. lia. }
    destruct (Z.le_gt_cases (Z.of_N a) (Z.of_N b)) as [C|C]; [now apply WL|].
    destruct (WL b a Hb Ha ltac:(lia)) as (y & x & Hy & Hx & Hc); [now rewrite axdist_sym|].
    exists x, y. split; [exact Hx|]. split; [exact Hy|]. now rewrite circ_sym, Hc, axdist_sym.
Qed.

(** ** all axes *)
Lemma box_touch l ca cb : (forall i, nthN ca i < 2^l)%N -> (forall i, nthN cb i < 2^l)%N -> length ca = length cb ->
  (coords_touch l ca cb = true <->
   exists x y, in_box_closed (map (boxc l) ca) x /\ in_box_closed (map (boxc l) cb) y /\ same_torus_point x y).
Proof.
  revert cb. induction ca as [|a ca IH]; intros cb HA HB HL; destruct cb as [|b cb]; try discriminate.
  - split; [|reflexivity]. intros _. exists [], []. repeat constructor.
  - injection HL as HL.
    pose proof (HA 0%nat) as A0. pose proof (HB 0%nat) as B0. unfold nthN in A0, B0; cbn [nth] in A0, B0.
    specialize (IH cb (fun i => HA (S i)) (fun i => HB (S i)) HL).
    unfold coords_touch. cbn [combine forallb fst snd map]. fold (coords_touch l ca cb).
    rewrite andb_true_iff, Z.leb_le, (axis_touch l a b A0 B0), IH. split.
    + intros [(x & y & Hx & Hy & Hk) (xs & ys & Hxs & Hys & Hks)].
      exists (x :: xs), (y :: ys). repeat split; constructor; auto.
    + intros (xs & ys & Hx & Hy & Hk). inversion Hx; subst. inversion Hy; subst. inversion Hk; subst.
      split; [|]; do 2 eexists; repeat split; eauto; lra.
Qed.

Lemma fold_max_spec : forall (L : list Z) z, (z <= fold_left Z.max L z)%Z /\ (forall d, In d L -> (d <= fold_left Z.max L z)%Z) /\
  (fold_left Z.max L z = z \/ In (fold_left Z.max L z) L).
Proof.
  induction L as [|a L IH]; intro z; cbn [fold_left].
  - split; [lia|]. split; [intros d []|now left].
  - destruct (IH (Z.max z a)) as (I1 & I2 & I3). split; [lia|]. split.
    + intros d [<-|H]; [lia|auto].
    + destruct I3 as [I3|I3]; [|right; now right]. rewrite I3.
      destruct (Z.max_spec z a) as [[_ ->]|[_ ->]]; [right; now left|now left].
Qed.

Lemma box_dist_lower l ca cb x y : (forall i, nthN ca i < 2^l)%N -> (forall i, nthN cb i < 2^l)%N -> length ca = length cb ->
  in_box_closed (map (boxc l) ca) x -> in_box_closed (map (boxc l) cb) y ->
  Rmax 0 (IZR (coords_dist l ca cb - 1) / pow2R l) <= coord_distance ideal_env 0 x y.
Proof.
  intros HA HB HL Hx Hy. apply Rmax_lub; [apply coord_distance_ge|].
  destruct (fold_max_spec (map (fun ab => axdist l (fst ab) (snd ab)) (combine ca cb)) 0) as (_ & _ & [E|I]);
    fold (coords_dist l ca cb) in *.
  - rewrite E. apply Rle_trans with 0; [|apply coord_distance_ge].
    pose proof (pow2R_pos l). apply Rmult_le_reg_r with (pow2R l); auto.
    unfold Rdiv. rewrite Rmult_assoc, Rinv_l by lra. change (IZR (0-1)) with (-1). lra.
  - apply in_map_iff in I as ((a & b) & E & I). rewrite <- E. cbn [fst snd]. clear E.
    apply Forall2_map_l in Hx. apply Forall2_map_l in Hy.
    assert (I2: exists s t, In (s, t) (combine x y) /\ fst (boxc l a) <= s <= snd (boxc l a) /\ fst (boxc l b) <= t <= snd (boxc l b)
       /\ (a < 2^l)%N /\ (b < 2^l)%N).
    { clear HL. revert cb y HB Hy I. induction Hx as [|a0 x0 ca x Ha0 _ IH]; intros cb y HB Hy I; [destruct I|].
      destruct Hy as [|b0 y0 cb y Hb0 Hy]; [destruct I|]. destruct I as [I|I].
      - injection I as <- <-. exists x0, y0. split; [now left|]. split; [auto|]. split; [auto|]. 
        split; [exact (HA 0%nat)|exact (HB 0%nat)].
      - destruct (IH (fun i => HA (S i)) cb y (fun i => HB (S i)) Hy I) as (s & t & Hst & R).
        exists s, t. split; [now right|exact R]. }
    destruct I2 as (s & t & Hst & Hs & Ht & Ha & Hb).
    eapply Rle_trans; [apply (axis_lower l a b s t); auto|].
    exact (coord_distance_axis ideal_env x y 0 s t Hst).
Qed.

Lemma coord_distance_const : forall x y r m, Forall2 (fun s t => circ s t <= m) x y -> r <= m -> coord_distance ideal_env r x y <= m.
Proof.
  intros x y r m H; revert r. induction H as [|s t x y Hst _ IH]; intros r Hr; [exact Hr|].
  cbn [coord_distance]. apply IH. apply Rmax_lub; auto.
Qed.

Lemma box_dist_attained l ca cb : (forall i, nthN ca i < 2^l)%N -> (forall i, nthN cb i < 2^l)%N -> length ca = length cb ->
  exists x y, in_box_closed (map (boxc l) ca) x /\ in_box_closed (map (boxc l) cb) y /\
  coord_distance ideal_env 0 x y <= Rmax 0 (IZR (coords_dist l ca cb - 1) / pow2R l).
Proof.
  intros HA HB HL.
  assert (H: exists x y, in_box_closed (map (boxc l) ca) x /\ in_box_closed (map (boxc l) cb) y /\
    Forall2 (fun s t => exists d, In d (map (fun ab => axdist l (fst ab) (snd ab)) (combine ca cb)) /\
        circ s t = Rmax 0 (IZR (d - 1) / pow2R l)) x y).
  { revert cb HB HL. induction ca as [|a ca IH]; intros cb HB HL; destruct cb as [|b cb]; try discriminate.
    - exists [], []. repeat constructor.
    - injection HL as HL. destruct (IH (fun i => HA (S i)) cb (fun i => HB (S i)) HL) as (x & y & Hx & Hy & Hxy).
      destruct (axis_attained l a b (HA 0%nat) (HB 0%nat)) as (s & t & Hs & Ht & Hst).
      exists (s :: x), (t :: y). split; [constructor; auto|]. split; [constructor; auto|]. constructor.
      + exists (axdist l a b). split; [now left|exact Hst].
      + eapply Forall2_weaken; [|exact Hxy]. intros s0 t0 (d & Hd & E). exists d. split; [now right|exact E]. }
  destruct H as (x & y & Hx & Hy & Hxy). exists x, y. split; auto. split; auto.
  apply coord_distance_const; [|apply Rmax_l].
  eapply Forall2_weaken; [|exact Hxy]. intros s t (d & Hd & ->).
  destruct (fold_max_spec (map (fun ab => axdist l (fst ab) (snd ab)) (combine ca cb)) 0) as (_ & U & _).
  fold (coords_dist l ca cb) in U. specialize (U d Hd).
  apply Rle_max_compat_l. apply Rmult_le_compat_r; [apply Rlt_le, Rinv_0_lt_compat, pow2R_pos|]. apply IZR_le. lia.
Qed.
