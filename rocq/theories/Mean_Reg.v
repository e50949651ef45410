(** Means of functions of points that vary little within the cells of fine grids: products of continuous functions and functions of the cells. *)
From Coq Require Import Arith NArith ZArith List Reals Lia Lra.
From Coquelicot Require Import Coquelicot.
From Verif Require Import Base Coord_Geo Coord_Torus Girg_Num Mean Cost_Touch Mean_Cells Draws_Mean.
Import ListNotations.
Local Open Scope R_scope.

(** ** one variable *)
Lemma unit_dec t : {0 <= t < 1} + {~ 0 <= t < 1}.
Proof. destruct (Rle_dec 0 t), (Rlt_dec t 1); [left; lra|right; lra|right; lra|right; lra]. Qed.
Lemma reg_int (f : R -> R) : (forall e, 0 < e -> exists M, forall s t, 0 <= s < 1 -> 0 <= t < 1 -> coordR M s = coordR M t -> Rabs (f s - f t) <= e) -> exists I, is_RInt f 0 1 I.
Proof.
  intros H. set (g := fun t => if unit_dec t then f t else 0). set (gn := fun (n : nat) t => if unit_dec t then f (corner (N.of_nat n) (coordR (N.of_nat n) t)) else 0).
  destruct (filterlim_RInt (V := R_CompleteNormedModule) gn 0 1 Hierarchy.eventually _ g (fun n => nsum (fun k => f (corner (N.of_nat n) (N.of_nat k))) (N.to_nat (2 ^ N.of_nat n)) / pow2R (N.of_nat n))) as (I & _ & HI).
  - intros n. apply (is_RInt_ext (V := R_CompleteNormedModule) (fun t => f (corner (N.of_nat n) (coordR (N.of_nat n) t)))).
    + rewrite Rmin_left, Rmax_right by lra. intros t Ht. unfold gn. destruct (unit_dec t); [reflexivity|lra].
    + exact (cell_mean (N.of_nat n) (fun c => f (corner (N.of_nat n) c))).
  - apply filterlim_locally. intros eps. destruct (H (eps / 2) ltac:(pose proof (cond_pos eps); lra)) as (M & HM). exists (N.to_nat M). intros n Hn t. unfold gn, g. destruct (unit_dec t) as [U|U].
    + destruct (corner_coord (N.of_nat n) t U) as [C1 C2]. unfold ball. cbn. unfold AbsRing_ball, abs, minus, plus, opp. cbn. eapply Rle_lt_trans; [apply (HM _ t C2 U)|pose proof (cond_pos eps); lra].
      rewrite (coordR_shift _ C2 (n - N.to_nat M) M), (coordR_shift t U (n - N.to_nat M) M). replace (M + N.of_nat (n - N.to_nat M))%N with (N.of_nat n) by lia. now rewrite C1.
    + apply ball_center.
  - exists I. apply (is_RInt_ext (V := R_CompleteNormedModule) g); [|exact HI]. rewrite Rmin_left, Rmax_right by lra. intros t Ht. unfold g. destruct (unit_dec t); [reflexivity|lra].
Qed.
(** ** points of the cube *)
Fixpoint cval (d : nat) (F : list R -> R) : R := match d with O => F [] | S d => RInt (fun t => cval d (fun x => F (t :: x))) 0 1 end.
Lemma cube_close d F G m k e : (forall x, in_cube d x -> Rabs (F x - G x) <= e) -> is_cube_mean d F m -> is_cube_mean d G k -> Rabs (m - k) <= e.
Proof.
  intros H HF HG. assert (A : m <= k + e). { apply (cube_mean_le d F (fun x => G x + e)); [|exact HF|apply cube_mean_plus; [exact HG|apply cube_mean_const]]. intros x Hx. specialize (H x Hx). apply Rabs_le_between in H. lra. }
  assert (B : k <= m + e). { apply (cube_mean_le d G (fun x => F x + e)); [|exact HG|apply cube_mean_plus; [exact HF|apply cube_mean_const]]. intros x Hx. specialize (H x Hx). apply Rabs_le_between in H. lra. }
  apply Rabs_le. lra.
Qed.
Definition creg (d : nat) (F : list R -> R) : Prop := forall e, 0 < e -> exists M, forall x y, in_cube d x -> in_cube d y -> map (coordR M) x = map (coordR M) y -> Rabs (F x - F y) <= e.
Lemma creg_mean d : forall F, creg d F -> is_cube_mean d F (cval d F).
Proof.
  induction d as [|d IH]; intros F H; cbn [is_cube_mean cval]; [reflexivity|].
  assert (HM : forall t, 0 <= t < 1 -> is_cube_mean d (fun x => F (t :: x)) (cval d (fun x => F (t :: x)))).
  { intros t Ht. apply IH. intros e He. destruct (H e He) as (M & HM). exists M. intros x y Hx Hy E. apply HM; [now apply cube_cons|now apply cube_cons|cbn [map]; now rewrite E]. }
  exists (fun t => cval d (fun x => F (t :: x))). split; [exact HM|].
  destruct (reg_int (fun t => cval d (fun x => F (t :: x)))) as [I HI].
  - intros e He. destruct (H e He) as (M & HE). exists M. intros s t Hs Ht E. apply (cube_close d (fun x => F (s :: x)) (fun x => F (t :: x))); [|now apply HM|now apply HM].
    intros x Hx. apply HE; [now apply cube_cons|now apply cube_cons|cbn [map]; now rewrite E].
  - apply (RInt_correct (V := R_CompleteNormedModule)). now exists I.
Qed.
(** ** lists of points *)
Fixpoint pval (n d : nat) (F : list (list R) -> R) : R := match n with O => F [] | S n => cval d (fun x => pval n d (fun ps => F (x :: ps))) end.
Lemma points_close n d F G m k e : (forall ps, points_in n d ps -> Rabs (F ps - G ps) <= e) -> is_points_mean n d F m -> is_points_mean n d G k -> Rabs (m - k) <= e.
Proof.
  intros H HF HG. assert (A : m <= k + e). { apply (points_mean_le d n F (fun x => G x + e)); [|exact HF|apply points_mean_plus; [exact HG|apply points_mean_const]]. intros x Hx. specialize (H x Hx). apply Rabs_le_between in H. lra. }
  assert (B : k <= m + e). { apply (points_mean_le d n G (fun x => F x + e)); [|exact HG|apply points_mean_plus; [exact HF|apply points_mean_const]]. intros x Hx. specialize (H x Hx). apply Rabs_le_between in H. lra. }
  apply Rabs_le. lra.
Qed.
Definition same_cells (M : N) (ps qs : list (list R)) : Prop := map (map (coordR M)) ps = map (map (coordR M)) qs.
Definition preg (n d : nat) (F : list (list R) -> R) : Prop := forall e, 0 < e -> exists M, forall ps qs, points_in n d ps -> points_in n d qs -> same_cells M ps qs -> Rabs (F ps - F qs) <= e.
Lemma preg_mean n d : forall F, preg n d F -> is_points_mean n d F (pval n d F).
Proof.
  induction n as [|n IH]; intros F H; cbn [is_points_mean pval]; [reflexivity|].
  assert (HM : forall x, in_cube d x -> is_points_mean n d (fun ps => F (x :: ps)) (pval n d (fun ps => F (x :: ps)))).
  { intros x Hx. apply IH. intros e He. destruct (H e He) as (M & HM). exists M. intros ps qs Hp Hq E. apply HM; [now apply points_cons|now apply points_cons|unfold same_cells in *; cbn [map]; now rewrite E]. }
  exists (fun x => pval n d (fun ps => F (x :: ps))). split; [exact HM|]. apply creg_mean. intros e He. destruct (H e He) as (M & HE). exists M. intros x y Hx Hy E.
  apply (points_close n d (fun ps => F (x :: ps)) (fun ps => F (y :: ps))); [|now apply HM|now apply HM]. intros ps Hp. apply HE; [now apply points_cons|now apply points_cons|unfold same_cells; cbn [map]; now rewrite E].
Qed.
(** finer grids *)
Lemma finer n d M M' ps qs : (M <= M')%N -> points_in n d ps -> points_in n d qs -> same_cells M' ps qs -> same_cells M ps qs.
Proof.
  intros HM. revert n qs. unfold same_cells. induction ps as [|x ps IH]; intros n qs Hp Hq E; destruct qs as [|y qs]; try discriminate; [reflexivity|]. cbn [map] in *. injection E as E1 E2.
  destruct n as [|n]; [destruct Hp; discriminate|]. apply points_cons in Hp as [Hx Hp]. apply points_cons in Hq as [Hy Hq]. f_equal; [now apply (coords_eq M' M d)|now apply (IH n)].
Qed.
Lemma preg_plus n d F G : preg n d F -> preg n d G -> preg n d (fun ps => F ps + G ps).
Proof.
  intros HF HG e He. destruct (HF (e / 2) ltac:(lra)) as (M1 & H1), (HG (e / 2) ltac:(lra)) as (M2 & H2). exists (N.max M1 M2). intros ps qs Hp Hq E.
  pose proof (H1 ps qs Hp Hq (finer n d M1 (N.max M1 M2) ps qs ltac:(lia) Hp Hq E)). pose proof (H2 ps qs Hp Hq (finer n d M2 (N.max M1 M2) ps qs ltac:(lia) Hp Hq E)).
  replace (F ps + G ps - (F qs + G qs)) with ((F ps - F qs) + (G ps - G qs)) by ring. eapply Rle_trans; [apply Rabs_triang|]. lra.
Qed.
Lemma preg_const n d c : preg n d (fun _ => c).
Proof. intros e He. exists 0%N. intros ps qs _ _ _. rewrite Rminus_diag_eq, Rabs_R0 by reflexivity. lra. Qed.
Lemma preg_sum {A} n d (F : A -> list (list R) -> R) l : (forall x, In x l -> preg n d (F x)) -> preg n d (fun ps => sumR (map (fun x => F x ps) l)).
Proof.
  induction l as [|x l IH]; intros H; [exact (preg_const n d 0)|]. unfold sumR. cbn [map fold_right]. apply preg_plus; [apply H; now left|apply IH; intros y Hy; apply H; now right].
Qed.
(** a function of the cells of one grid times a function of the class *)
Lemma preg_cells n d L (b : list (list R) -> bool) F : (forall ps qs, points_in n d ps -> points_in n d qs -> same_cells L ps qs -> b ps = b qs) -> preg n d F -> preg n d (fun ps => if b ps then 0 else F ps).
Proof.
  intros HB HF e He. destruct (HF e He) as (M & HM). exists (N.max L M). intros ps qs Hp Hq E. rewrite (HB ps qs Hp Hq (finer n d L (N.max L M) ps qs ltac:(lia) Hp Hq E)). destruct (b qs); [rewrite Rminus_diag_eq, Rabs_R0 by reflexivity; lra|].
  apply HM; [exact Hp|exact Hq|]. apply (finer n d M (N.max L M) ps qs ltac:(lia) Hp Hq E).
Qed.
(** continuous functions of the distance of two points *)
Lemma coord_close M s t : 0 <= s < 1 -> 0 <= t < 1 -> coordR M s = coordR M t -> Rabs (s - t) <= / pow2R M.
Proof.
  intros Hs Ht E. pose proof (coordR_bounds M s Hs) as Bs. pose proof (coordR_bounds M t Ht) as Bt. rewrite E in Bs. pose proof (pow2R_pos M) as P.
  assert (Q : Rabs ((s - t) * pow2R M) <= 1) by (apply Rabs_le; lra). rewrite Rabs_mult, (Rabs_pos_eq (pow2R M)) in Q by lra. apply Rmult_le_reg_r with (pow2R M); [exact P|]. rewrite Rinv_l by lra. exact Q.
Qed.
Lemma circ_close s t s' t' e : Rabs (s - s') <= e -> Rabs (t - t') <= e -> Rabs (circ s t - circ s' t') <= 2 * e.
Proof.
  intros H1 H2. assert (Q : Rabs (Rabs (s - t) - Rabs (s' - t')) <= 2 * e). { eapply Rle_trans; [apply Rabs_triang_inv2|]. replace (s - t - (s' - t')) with ((s - s') + - (t - t')) by ring. eapply Rle_trans; [apply Rabs_triang|]. rewrite Rabs_Ropp. lra. }
  apply Rabs_le_between in Q. unfold circ. apply Rabs_le. unfold Rmin. repeat destruct (Rle_dec _ _); lra.
Qed.
Lemma tdist_close M d : forall x y x' y', in_cube d x -> in_cube d y -> in_cube d x' -> in_cube d y' -> map (coordR M) x = map (coordR M) x' -> map (coordR M) y = map (coordR M) y' ->
  Rabs (tdist x y - tdist x' y') <= 2 * / pow2R M.
Proof.
  assert (P : 0 < / pow2R M) by (apply Rinv_0_lt_compat, pow2R_pos).
  induction d as [|d IH]; intros x y x' y' Hx Hy Hx' Hy' E1 E2.
  - destruct Hx as [Lx _], Hx' as [Lx' _]. destruct x; [|discriminate]. destruct x'; [|discriminate]. cbn [tdist]. rewrite Rminus_diag_eq, Rabs_R0 by reflexivity. lra.
  - destruct x as [|s x]; [destruct Hx; discriminate|]. destruct y as [|t y]; [destruct Hy; discriminate|]. destruct x' as [|s' x']; [destruct Hx'; discriminate|]. destruct y' as [|t' y']; [destruct Hy'; discriminate|].
    apply cube_cons in Hx as [Hs Hx], Hy as [Ht Hy], Hx' as [Hs' Hx'], Hy' as [Ht' Hy']. cbn [map] in E1, E2. injection E1 as E1 E1'. injection E2 as E2 E2'. specialize (IH x y x' y' Hx Hy Hx' Hy' E1' E2').
    pose proof (circ_close s t s' t' _ (coord_close M s s' Hs Hs' E1) (coord_close M t t' Ht Ht' E2)) as C. cbn [tdist]. apply Rabs_le_between in IH, C. apply Rabs_le. unfold Rmax. repeat destruct (Rle_dec _ _); lra.
Qed.
Lemma small_cells e : 0 < e -> exists M, 2 * / pow2R M < e.
Proof.
  intros He. destruct (archimed (2 / e)) as [A _]. assert (Z0 : (0 < up (2 / e))%Z). { apply lt_IZR. eapply Rlt_trans; [|exact A]. apply Rdiv_lt_0_compat; lra. }
  exists (Z.to_N (up (2 / e))). set (k := Z.to_N (up (2 / e))). assert (B : IZR (up (2 / e)) <= pow2R k). { unfold pow2R. apply IZR_le. replace (up (2 / e)) with (Z.of_N k) by (unfold k; lia). apply N2Z.inj_le. apply N.lt_le_incl, N.pow_gt_lin_r. lia. }
  pose proof (pow2R_pos k) as P. apply Rmult_lt_reg_r with (pow2R k); [exact P|]. rewrite Rmult_assoc, Rinv_l, Rmult_1_r by lra. assert (L : 2 / e < pow2R k) by lra. apply Rmult_lt_compat_r with (r := e) in L; [|exact He]. replace (2 / e * e) with 2 in L by (field; lra). lra.
Qed.
Lemma in_pts n d ps u : points_in n d ps -> (u < n)%nat -> in_cube d (nth u ps []).
Proof. intros [L F] Hu. apply (proj1 (List.Forall_forall _ _) F). apply nth_In. lia. Qed.
Lemma preg_dist n d (f : R -> R) u v : (forall r, continuous f r) -> (u < n)%nat -> (v < n)%nat -> preg n d (fun ps => f (tdist (nth u ps []) (nth v ps []))).
Proof.
  intros Hf Hu Hv e He. assert (HC : forall x, 0 <= x <= 1 / 2 -> continuity_pt f x) by (intros x _; apply continuity_pt_filterlim, Hf). destruct (Heine_cor2 HC (mkposreal e He)) as (delta & HD).
  destruct (small_cells delta (cond_pos delta)) as (M & HM). exists M. intros ps qs Hp Hq E.
  assert (EN : forall w, map (coordR M) (nth w ps []) = map (coordR M) (nth w qs [])) by (intros w; rewrite <- !(map_nth (map (coordR M))); unfold same_cells in E; now rewrite E).
  pose proof (in_pts _ _ _ u Hp Hu) as A1. pose proof (in_pts _ _ _ v Hp Hv) as A2. pose proof (in_pts _ _ _ u Hq Hu) as A3. pose proof (in_pts _ _ _ v Hq Hv) as A4.
  left. apply HD; [now apply (tdist_range d)|now apply (tdist_range d)|]. eapply Rle_lt_trans; [|exact HM]. apply (tdist_close M d); auto.
Qed.
