(** Mean values over independent uniform points of the unit cube, as iterated Riemann integrals. *)
From Coq Require Import Arith ZArith List Reals Lia Lra Psatz.
From Coquelicot Require Import Coquelicot.
From Verif Require Import Coord_Torus.
Import ListNotations.
Local Open Scope R_scope.

(** ** Specification *)
(** points of [0,1)^d *)
Definition in_cube (d : nat) (x : list R) : Prop := length x = d /\ List.Forall (fun t => 0 <= t < 1) x.
(** m is the integral of F over [0,1]^d, computed coordinate by coordinate *)
Fixpoint is_cube_mean (d : nat) (F : list R -> R) (m : R) : Prop :=
  match d with
  | O => m = F []
  | S d => exists g, (forall t, 0 <= t < 1 -> is_cube_mean d (fun x => F (t :: x)) (g t)) /\ is_RInt g 0 1 m
  end.
(** m is the mean of F over n independent uniform points of [0,1)^d *)
Fixpoint is_points_mean (n d : nat) (F : list (list R) -> R) (m : R) : Prop :=
  match n with
  | O => m = F []
  | S n => exists g, (forall x, in_cube d x -> is_points_mean n d (fun ps => F (x :: ps)) (g x)) /\ is_cube_mean d g m
  end.

(** ** General facts *)
Lemma cube_cons d t x : in_cube (S d) (t :: x) <-> 0 <= t < 1 /\ in_cube d x.
Proof. unfold in_cube. split; [intros [L F]; apply List.Forall_cons_iff in F; cbn in L; repeat split; [apply F|apply F|lia|apply F]|intros (T & L & F); split; [cbn; lia|now constructor]]. Qed.
Lemma cube_mean_ext d : forall F G m, (forall x, in_cube d x -> F x = G x) -> is_cube_mean d F m -> is_cube_mean d G m.
Proof.
  induction d as [|d IH]; intros F G m E H; cbn in *; [rewrite H; apply E; split; [reflexivity|constructor]|].
  destruct H as (g & Hg & HI). exists g. split; [|exact HI]. intros t Ht. apply (IH (fun x => F (t :: x))); [|apply Hg, Ht]. intros x Hx. apply E, cube_cons. now split.
Qed.
Lemma cube_mean_unique d : forall F m m', is_cube_mean d F m -> is_cube_mean d F m' -> m = m'.
Proof.
  induction d as [|d IH]; intros F m m' H H'; cbn in *; [congruence|]. destruct H as (g & Hg & HI), H' as (g' & Hg' & HI').
  rewrite <- (is_RInt_unique _ _ _ _ HI). rewrite <- (is_RInt_unique _ _ _ _ HI'). apply RInt_ext. rewrite Rmin_left, Rmax_right by lra. intros t Ht. eapply IH; [apply Hg|apply Hg']; lra.
Qed.
Lemma cube_mean_plus d : forall F G m k, is_cube_mean d F m -> is_cube_mean d G k -> is_cube_mean d (fun x => F x + G x) (m + k).
Proof.
  induction d as [|d IH]; intros F G m k H K; cbn in *; [congruence|]. destruct H as (g & Hg & HI), K as (h & Hh & HJ). exists (fun t => g t + h t). split; [intros t Ht; apply (IH (fun x => F (t :: x)) (fun x => G (t :: x))); auto|].
  exact (is_RInt_plus (V := R_NormedModule) g h 0 1 m k HI HJ).
Qed.
Lemma cube_mean_scal d c : forall F m, is_cube_mean d F m -> is_cube_mean d (fun x => c * F x) (c * m).
Proof.
  induction d as [|d IH]; intros F m H; cbn in *; [congruence|]. destruct H as (g & Hg & HI). exists (fun t => c * g t). split; [intros t Ht; apply (IH (fun x => F (t :: x))); auto|].
  exact (is_RInt_scal (V := R_NormedModule) g 0 1 c m HI).
Qed.
Lemma cube_mean_const d c : is_cube_mean d (fun _ => c) c.
Proof.
  induction d as [|d IH]; cbn; [reflexivity|]. exists (fun _ => c). split; [auto|]. pose proof (is_RInt_const (V := R_NormedModule) 0 1 c) as K. assert (E : @scal R_Ring R_NormedModule (1 - 0) c = c) by (unfold scal; cbn; unfold mult; cbn; ring). exact (eq_ind _ (fun m => is_RInt (fun _ => c) 0 1 m) K _ E).
Qed.
Definition points_in (n d : nat) (ps : list (list R)) : Prop := length ps = n /\ List.Forall (in_cube d) ps.
Lemma points_cons n d x ps : points_in (S n) d (x :: ps) <-> in_cube d x /\ points_in n d ps.
Proof. unfold points_in. split; [intros [L F]; apply List.Forall_cons_iff in F; cbn in L; repeat split; [apply F|apply F|lia|apply F]|intros (T & L & F); split; [cbn; lia|now constructor]]. Qed.
Lemma points_mean_ext d n : forall F G m, (forall ps, points_in n d ps -> F ps = G ps) -> is_points_mean n d F m -> is_points_mean n d G m.
Proof.
  induction n as [|n IH]; intros F G m E H; cbn in *; [rewrite H; apply E; split; [reflexivity|constructor]|].
  destruct H as (g & Hg & HI). exists g. split; [|exact HI]. intros x Hx. apply (IH (fun ps => F (x :: ps))); [|apply Hg, Hx]. intros ps Hps. apply E, points_cons. now split.
Qed.
Lemma points_mean_unique d n : forall F m m', is_points_mean n d F m -> is_points_mean n d F m' -> m = m'.
Proof.
  induction n as [|n IH]; intros F m m' H H'; cbn in *; [congruence|]. destruct H as (g & Hg & HI), H' as (g' & Hg' & HI').
  apply (cube_mean_unique d g' m m'); [|exact HI']. apply (cube_mean_ext d g); [|exact HI]. intros x Hx. eapply IH; [apply Hg|apply Hg']; exact Hx.
Qed.
Lemma points_mean_plus d n : forall F G m k, is_points_mean n d F m -> is_points_mean n d G k -> is_points_mean n d (fun x => F x + G x) (m + k).
Proof.
  induction n as [|n IH]; intros F G m k H K; cbn in *; [congruence|]. destruct H as (g & Hg & HI), K as (h & Hh & HJ). exists (fun t => g t + h t). split; [intros t Ht; apply (IH (fun x => F (t :: x)) (fun x => G (t :: x))); auto|].
  now apply cube_mean_plus.
Qed.
Lemma points_mean_scal d n c : forall F m, is_points_mean n d F m -> is_points_mean n d (fun x => c * F x) (c * m).
Proof.
  induction n as [|n IH]; intros F m H; cbn in *; [congruence|]. destruct H as (g & Hg & HI). exists (fun t => c * g t). split; [intros t Ht; apply (IH (fun x => F (t :: x))); auto|]. now apply cube_mean_scal.
Qed.
Lemma points_mean_const d n c : is_points_mean n d (fun _ => c) c.
Proof. induction n as [|n IH]; cbn; [reflexivity|]. exists (fun _ => c). split; [auto|apply cube_mean_const]. Qed.
(** functions of one and of two of the points *)
Lemma points_mean_one d F m : forall n u, (u < n)%nat -> is_cube_mean d F m -> is_points_mean n d (fun ps => F (nth u ps [])) m.
Proof.
  induction n as [|n IH]; intros u Hu H; [lia|]. destruct u as [|u].
  - exists F. split; [|exact H]. intros x Hx. cbn [nth]. apply points_mean_const.
  - exists (fun _ => m). split; [|apply cube_mean_const]. intros x Hx. cbn [nth]. apply IH; [lia|exact H].
Qed.
Lemma points_mean_two d F m : (forall x, in_cube d x -> is_cube_mean d (F x) m) -> (forall x, in_cube d x -> is_cube_mean d (fun y => F y x) m) ->
  forall n u v, (u < n)%nat -> (v < n)%nat -> u <> v -> is_points_mean n d (fun ps => F (nth u ps []) (nth v ps [])) m.
Proof.
  intros H1 H2. induction n as [|n IH]; intros u v Hu Hv Huv; [lia|]. exists (fun _ => m). split; [|apply cube_mean_const]. intros x Hx. destruct u as [|u], v as [|v]; cbn [nth]; [lia| | |apply IH; lia].
  - apply (points_mean_one d (F x)); [lia|now apply H1].
  - apply (points_mean_one d (fun y => F y x)); [lia|now apply H2].
Qed.

(** ** One coordinate *)
Lemma is_RInt_eq (f g : R -> R) (a b l m : R) : a <= b -> (forall x, a < x < b -> f x = g x) -> l = m -> is_RInt f a b l -> is_RInt g a b m.
Proof. intros H E -> I. eapply is_RInt_ext; [|exact I]. rewrite Rmin_left, Rmax_right by lra. exact E. Qed.
(** substitution y = u x + v *)
Lemma is_RInt_lin (g : R -> R) (u v a b l : R) : u <> 0 -> is_RInt g (u * a + v) (u * b + v) l -> is_RInt (fun x => g (u * x + v)) a b (l / u).
Proof.
  intros U I. pose proof (is_RInt_comp_lin g u v a b l I) as J. apply (is_RInt_scal (V := R_NormedModule) _ _ _ (/ u)) in J. replace (l / u) with (@scal R_Ring R_NormedModule (/ u) l) by (unfold scal; cbn; unfold mult; cbn; field; exact U).
  eapply is_RInt_ext; [|exact J]. intros x _. unfold scal; cbn; unfold mult; cbn. now field.
Qed.
Lemma circle_mean (g : R -> R) (I x : R) : 0 <= x < 1 -> is_RInt g 0 (1 / 2) I -> is_RInt (fun y => g (circ x y)) 0 1 (2 * I).
Proof.
  intros Hx HI. assert (SUB : forall c, 0 <= c <= 1 / 2 -> exists I1 I2 : R, is_RInt g 0 c I1 /\ is_RInt g c (1 / 2) I2 /\ I = I1 + I2).
  { intros c Hc. assert (E : ex_RInt g 0 (1 / 2)) by now exists I. destruct (ex_RInt_Chasles_1 g 0 c (1 / 2) Hc E) as [I1 J1]. destruct (ex_RInt_Chasles_2 g 0 c (1 / 2) Hc E) as [I2 J2]. exists I1, I2. split; [exact J1|]. split; [exact J2|].
    pose proof (is_RInt_Chasles (V := R_NormedModule) g 0 c (1 / 2) I1 I2 J1 J2) as K. transitivity (RInt g 0 (1 / 2)); [symmetry; exact (is_RInt_unique _ _ _ _ HI)|exact (is_RInt_unique _ _ _ _ K)]. }
  destruct (Rle_lt_dec x (1 / 2)) as [S|S].
  - destruct (SUB x ltac:(lra)) as (I1 & I2 & J1 & J2 & E). replace (2 * I) with (@plus R_NormedModule (@plus R_NormedModule I1 I) I2) by (unfold plus; cbn; lra).
    apply (is_RInt_Chasles (V := R_NormedModule) _ 0 (x + 1 / 2) 1); [apply (is_RInt_Chasles (V := R_NormedModule) _ 0 x (x + 1 / 2))|].
    + apply (is_RInt_eq (fun y => g (-1 * y + x)) _ 0 x (- I1 / -1) I1); [lra| |field|].
      * intros y Hy. f_equal. unfold circ. rewrite Rabs_pos_eq by lra. rewrite Rmin_left; lra.
      * apply is_RInt_lin; [lra|]. replace (-1 * 0 + x) with x by ring. replace (-1 * x + x) with 0 by ring. exact (is_RInt_swap (V := R_NormedModule) g x 0 I1 J1).
    + apply (is_RInt_eq (fun y => g (1 * y + - x)) _ x (x + 1 / 2) (I / 1) I); [lra| |field|].
      * intros y Hy. f_equal. unfold circ. rewrite Rabs_left by lra. rewrite Rmin_left; lra.
      * apply is_RInt_lin; [lra|]. replace (1 * x + - x) with 0 by ring. replace (1 * (x + 1 / 2) + - x) with (1 / 2) by ring. exact HI.
    + apply (is_RInt_eq (fun y => g (-1 * y + (1 + x))) _ (x + 1 / 2) 1 (- I2 / -1) I2); [lra| |field|].
      * intros y Hy. f_equal. unfold circ. rewrite Rabs_left by lra. rewrite Rmin_right; lra.
      * apply is_RInt_lin; [lra|]. replace (-1 * (x + 1 / 2) + (1 + x)) with (1 / 2) by field. replace (-1 * 1 + (1 + x)) with x by ring. exact (is_RInt_swap (V := R_NormedModule) g (1 / 2) x I2 J2).
  - destruct (SUB (1 - x) ltac:(lra)) as (I1 & I2 & J1 & J2 & E). replace (2 * I) with (@plus R_NormedModule (@plus R_NormedModule I2 I) I1) by (unfold plus; cbn; lra).
    apply (is_RInt_Chasles (V := R_NormedModule) _ 0 x 1); [apply (is_RInt_Chasles (V := R_NormedModule) _ 0 (x - 1 / 2) x)|].
    + apply (is_RInt_eq (fun y => g (1 * y + (1 - x))) _ 0 (x - 1 / 2) (I2 / 1) I2); [lra| |field|].
      * intros y Hy. f_equal. unfold circ. rewrite Rabs_pos_eq by lra. rewrite Rmin_right; lra.
      * apply is_RInt_lin; [lra|]. replace (1 * 0 + (1 - x)) with (1 - x) by ring. replace (1 * (x - 1 / 2) + (1 - x)) with (1 / 2) by field. exact J2.
    + apply (is_RInt_eq (fun y => g (-1 * y + x)) _ (x - 1 / 2) x (- I / -1) I); [lra| |field|].
      * intros y Hy. f_equal. unfold circ. rewrite Rabs_pos_eq by lra. rewrite Rmin_left; lra.
      * apply is_RInt_lin; [lra|]. replace (-1 * (x - 1 / 2) + x) with (1 / 2) by field. replace (-1 * x + x) with 0 by ring. exact (is_RInt_swap (V := R_NormedModule) g (1 / 2) 0 I HI).
    + apply (is_RInt_eq (fun y => g (1 * y + - x)) _ x 1 (I1 / 1) I1); [lra| |field|].
      * intros y Hy. f_equal. unfold circ. rewrite Rabs_left by lra. rewrite Rmin_left; lra.
      * apply is_RInt_lin; [lra|]. replace (1 * x + - x) with 0 by ring. replace (1 * 1 + - x) with (1 - x) by ring. exact J1.
Qed.

(** ** The distance of a random point *)
Fixpoint tdist (x y : list R) : R := match x, y with s :: x, t :: y => Rmax (circ s t) (tdist x y) | _, _ => 0 end.
Lemma circ_range x y : 0 <= x < 1 -> 0 <= y < 1 -> 0 <= circ x y <= 1 / 2.
Proof. intros Hx Hy. pose proof (abs_lt_1 x y Hx Hy). pose proof (circ_half x y). pose proof (circ_nonneg x y ltac:(lra)). lra. Qed.
Lemma tdist_is d : forall x y, in_cube d x -> in_cube d y -> is_torus_dist x y (tdist x y).
Proof.
  induction d as [|d IH]; intros x y Hx Hy.
  - destruct Hx as [Lx _], Hy as [Ly _]. destruct x, y; try discriminate. split; [reflexivity|]. cbn. split; [lra|]. split; [intros i Hi; lia|now left].
  - destruct x as [|s x], y as [|t y]; [destruct Hx; discriminate..|destruct Hy; discriminate|]. apply cube_cons in Hx as [Hs Hx], Hy as [Ht Hy]. destruct (IH x y Hx Hy) as (L & D0 & A & B). cbn [tdist].
    pose proof (circ_is s t ltac:(pose proof (abs_lt_1 s t Hs Ht); lra)) as CI. split; [cbn; lia|]. split; [eapply Rle_trans; [exact D0|apply Rmax_r]|]. split.
    + intros [|i] Hi; cbn [nth]; [exists (circ s t); split; [exact CI|apply Rmax_l]|]. destruct (A i ltac:(cbn in Hi; lia)) as (di & P & LE). exists di. split; [exact P|]. eapply Rle_trans; [exact LE|apply Rmax_r].
    + unfold Rmax. destruct (Rle_dec (circ s t) (tdist x y)) as [C|C].
      * destruct B as [B|(i & Hi & B)]; [left; exact B|right; exists (S i); split; [cbn; lia|exact B]].
      * right. exists 0%nat. split; [cbn; lia|exact CI].
Qed.
Lemma tdist_range d : forall x y, in_cube d x -> in_cube d y -> 0 <= tdist x y <= 1 / 2.
Proof.
  induction d as [|d IH]; intros x y Hx Hy.
  - destruct Hx as [Lx _], Hy as [Ly _]. destruct x, y; try discriminate. cbn. lra.
  - destruct x as [|s x], y as [|t y]; [destruct Hx; discriminate..|destruct Hy; discriminate|]. apply cube_cons in Hx as [Hs Hx], Hy as [Ht Hy]. cbn [tdist]. pose proof (circ_range s t Hs Ht). pose proof (IH x y Hx Hy). unfold Rmax. destruct (Rle_dec _ _); lra.
Qed.
Lemma tdist_sym : forall x y, tdist x y = tdist y x.
Proof. induction x as [|s x IH]; intros [|t y]; cbn; try reflexivity. now rewrite circ_sym, IH. Qed.

(** the mean of a continuous function of the distance *)
Definition hdens (d : nat) (r : R) : R := INR d * 2 ^ d * r ^ (d - 1).
Definition radial (d : nat) (f : R -> R) : R := match d with O => f 0 | S _ => RInt (fun r => f r * hdens d r) 0 (1 / 2) end.
Lemma hdens_cont d r : continuous (hdens d) r.
Proof. apply (ex_derive_continuous (K := R_AbsRing) (V := R_NormedModule) (hdens d) r). unfold hdens. auto_derive. exact I. Qed.
Lemma fh_cont (f : R -> R) d r : (forall r, continuous f r) -> continuous (fun r => f r * hdens d r) r.
Proof. intros C. exact (continuous_mult (K := R_AbsRing) f (hdens d) r (C r) (hdens_cont d r)). Qed.
Lemma hdens_int d c : (1 <= d)%nat -> is_RInt (hdens d) 0 c ((2 * c) ^ d).
Proof.
  intros Hd. assert (E : (2 * c) ^ d = @minus R_AbelianGroup ((2 * c) ^ d) ((2 * 0) ^ d)). { unfold minus, plus, opp; cbn. rewrite Rmult_0_r, (pow_i d) by lia. ring. }
  rewrite E. apply (is_RInt_derive (V := R_CompleteNormedModule) (fun r => (2 * r) ^ d) (hdens d)).
  - intros x _. unfold hdens. auto_derive; [exact I|]. replace (pred d) with (d - 1)%nat by lia. rewrite !Rpow_mult_distr. destruct d as [|d]; [lia|]. replace (S d - 1)%nat with d by lia. cbn [pow]. ring.
  - intros x _. apply hdens_cont.
Qed.
Lemma max_cont c r : continuous (Rmax c) r.
Proof.
  apply (continuous_ext (fun r => (c + r + Rabs (c - r)) * / 2)).
  - intros x. unfold Rmax, Rabs. destruct (Rle_dec c x), (Rcase_abs (c - x)); lra.
  - apply (continuous_mult (K := R_AbsRing) (fun r => c + r + Rabs (c - r)) (fun _ => / 2)); [|apply continuous_const]. apply (continuous_plus (V := R_NormedModule) (fun r => c + r) (fun r => Rabs (c - r))).
    + apply (continuous_plus (V := R_NormedModule) (fun _ => c) (fun r => r)); [apply continuous_const|apply continuous_id].
    + apply (continuous_comp (fun r => c - r) Rabs); [|apply continuous_Rabs]. apply (continuous_minus (V := R_NormedModule) (fun _ => c) (fun r => r)); [apply continuous_const|apply continuous_id].
Qed.
Lemma fmax_cont (f : R -> R) c r : (forall r, continuous f r) -> continuous (fun r => f (Rmax c r)) r.
Proof. intros C. apply (continuous_comp (Rmax c) f); [apply max_cont|apply C]. Qed.
Lemma fh_int (f : R -> R) d a b : (forall r, continuous f r) -> is_RInt (fun r => f r * hdens d r) a b (RInt (fun r => f r * hdens d r) a b).
Proof. intros C. apply (RInt_correct (V := R_CompleteNormedModule)). apply (ex_RInt_continuous (V := R_CompleteNormedModule)). intros r _. now apply fh_cont. Qed.
Lemma radial_max d (f : R -> R) c : (1 <= d)%nat -> (forall r, continuous f r) -> 0 <= c <= 1 / 2 -> radial d (fun r => f (Rmax c r)) = f c * (2 * c) ^ d + RInt (fun r => f r * hdens d r) c (1 / 2).
Proof.
  intros Hd C Hc. unfold radial. destruct d as [|d]; [lia|]. apply is_RInt_unique. apply (is_RInt_Chasles (V := R_NormedModule) _ 0 c (1 / 2)).
  - eapply (is_RInt_eq (fun r => f c * hdens (S d) r) _ 0 c); [lra| |reflexivity|].
    + intros x Hx. f_equal. f_equal. rewrite Rmax_left; lra.
    + exact (is_RInt_scal (V := R_NormedModule) (hdens (S d)) 0 c (f c) _ (hdens_int (S d) c Hd)).
  - eapply (is_RInt_eq (fun r => f r * hdens (S d) r) _ c (1 / 2)); [lra| |reflexivity|apply fh_int, C].
    intros x Hx. f_equal. f_equal. rewrite Rmax_right; lra.
Qed.
Lemma radial_step d (f : R -> R) : (forall r, continuous f r) -> is_RInt (fun c => radial d (fun r => f (Rmax c r))) 0 (1 / 2) (radial (S d) f / 2).
Proof.
  intros C. destruct d as [|d].
  - apply (is_RInt_eq (fun r => / 2 * (f r * hdens 1 r)) _ 0 (1 / 2) (/ 2 * radial 1 f) _); [lra| |field|].
    + intros x Hx. cbn [radial]. rewrite Rmax_left by lra. unfold hdens. cbn. field.
    + exact (is_RInt_scal (V := R_NormedModule) _ 0 (1 / 2) (/ 2) _ (fh_int f 1 0 (1 / 2) C)).
  - set (n := S d). set (T := fun c => RInt (fun r => f r * hdens n r) c (1 / 2)).
    assert (DT : forall c, is_derive T c (- (f c * hdens n c))).
    { intros c. apply (is_derive_RInt' (V := R_NormedModule) (fun r => f r * hdens n r) T c (1 / 2)).
      - apply filter_forall. intros x. apply fh_int, C.
      - now apply fh_cont. }
    assert (CT : forall c, continuous T c). { intros c. apply (ex_derive_continuous (K := R_AbsRing) (V := R_NormedModule)). eexists. apply DT. }
    assert (IA : is_RInt (fun c => T c - c * (f c * hdens n c)) 0 (1 / 2) 0).
    { assert (E : 0 = @minus R_AbelianGroup (1 / 2 * T (1 / 2)) (0 * T 0)). { unfold T at 1. rewrite RInt_point. unfold minus, plus, opp, zero; cbn. ring. }
      apply (is_RInt_eq (fun c => T c - c * (f c * hdens n c)) _ 0 (1 / 2) (@minus R_AbelianGroup (1 / 2 * T (1 / 2)) (0 * T 0)) 0); [lra|reflexivity|now symmetry|]. apply (is_RInt_derive (V := R_CompleteNormedModule) (fun c => c * T c)).
      - intros c _. pose proof (is_derive_mult (fun c => c) T c 1 _ (is_derive_id c) (DT c) Rmult_comm) as D. replace (T c - c * (f c * hdens n c)) with (plus (mult 1 (T c)) (mult c (- (f c * hdens n c)))) by (unfold plus, mult; cbn; ring). exact D.
      - intros c _. apply (continuous_minus (V := R_NormedModule) T (fun c => c * (f c * hdens n c))); [apply CT|]. apply (continuous_mult (K := R_AbsRing) (fun c => c) (fun c => f c * hdens n c)); [apply continuous_id|now apply fh_cont]. }
    pose proof (is_RInt_scal (V := R_NormedModule) _ 0 (1 / 2) (/ 2) _ (fh_int f (S n) 0 (1 / 2) C)) as IB.
    pose proof (is_RInt_plus (V := R_NormedModule) _ _ _ _ _ _ IA IB) as K. eapply (is_RInt_eq _ _ 0 (1 / 2)); [lra| | |exact K].
    + intros c Hc. rewrite (radial_max n f c ltac:(unfold n; lia) C ltac:(lra)). change (RInt (fun r => f r * hdens n r) c (1 / 2)) with (T c). set (tc := T c). unfold plus, scal; cbn -[INR pow hdens n T]. unfold mult; cbn -[INR pow hdens n T]. unfold hdens. replace (S n - 1)%nat with n by lia. unfold n. replace (S d - 1)%nat with d by lia.
      rewrite Rpow_mult_distr. rewrite (S_INR (S d)). cbn [pow]. field.
    + unfold plus, scal; cbn -[INR pow hdens n T]. unfold mult; cbn -[INR pow hdens n T]. unfold radial. field.
Qed.
Theorem mean_radial d : forall f, (forall r : R, continuous f r) -> forall x, in_cube d x -> is_cube_mean d (fun y => f (tdist x y)) (radial d f).
Proof.
  induction d as [|d IH]; intros f C x Hx; [destruct Hx as [L _]; destruct x; [reflexivity|discriminate]|].
  destruct x as [|s x]; [destruct Hx; discriminate|]. apply cube_cons in Hx as [Hs Hx]. exists (fun t => radial d (fun r => f (Rmax (circ s t) r))). split.
  - intros t Ht. cbn [tdist]. apply (IH (fun r => f (Rmax (circ s t) r))); [intros r; now apply fmax_cont|exact Hx].
  - replace (radial (S d) f) with (2 * (radial (S d) f / 2)) by field. apply (circle_mean (fun c => radial d (fun r => f (Rmax c r)))); [exact Hs|]. now apply radial_step.
Qed.
(** the mean of the indicator of a ball *)
Lemma step_int (K rho : R) : 0 <= rho <= 1 / 2 -> is_RInt (fun c => (if Rlt_dec c rho then 1 else 0) * K) 0 (1 / 2) (rho * K).
Proof.
  intros H. assert (E : rho * K = @plus R_NormedModule (scal (rho - 0) K) (scal (1 / 2 - rho) 0)) by (unfold plus, scal; cbn; unfold mult; cbn; ring).
  apply (is_RInt_eq (fun c => (if Rlt_dec c rho then 1 else 0) * K) _ 0 (1 / 2) (@plus R_NormedModule (scal (rho - 0) K) (scal (1 / 2 - rho) 0))); [lra|reflexivity|now symmetry|].
  apply (is_RInt_Chasles (V := R_NormedModule) _ 0 rho (1 / 2)).
  - eapply (is_RInt_eq (fun _ => K)); [lra| |reflexivity|apply (is_RInt_const (V := R_NormedModule))]. intros c Hc. destruct (Rlt_dec c rho); [ring|lra].
  - eapply (is_RInt_eq (fun _ => 0)); [lra| |reflexivity|apply (is_RInt_const (V := R_NormedModule))]. intros c Hc. destruct (Rlt_dec c rho); [lra|ring].
Qed.
Theorem mean_ball rho : 0 < rho <= 1 / 2 -> forall d x, in_cube d x -> is_cube_mean d (fun y => if Rlt_dec (tdist x y) rho then 1 else 0) ((2 * rho) ^ d).
Proof.
  intros Hr. induction d as [|d IH]; intros x Hx.
  - destruct Hx as [L _]. destruct x; [|discriminate]. cbn. destruct (Rlt_dec 0 rho); [reflexivity|lra].
  - destruct x as [|s x]; [destruct Hx; discriminate|]. apply cube_cons in Hx as [Hs Hx]. exists (fun t => (if Rlt_dec (circ s t) rho then 1 else 0) * (2 * rho) ^ d). split.
    + intros t Ht. apply (cube_mean_ext d (fun y => (if Rlt_dec (circ s t) rho then 1 else 0) * (if Rlt_dec (tdist x y) rho then 1 else 0))); [|now apply cube_mean_scal, IH].
      intros y _. cbn [tdist]. unfold Rmax. destruct (Rle_dec _ _), (Rlt_dec (circ s t) rho), (Rlt_dec (tdist x y) rho); try lra; destruct (Rlt_dec _ _); lra.
    + replace ((2 * rho) ^ S d) with (2 * (rho * (2 * rho) ^ d)) by (cbn; ring). apply (circle_mean (fun c => (if Rlt_dec c rho then 1 else 0) * (2 * rho) ^ d)); [exact Hs|]. apply step_int. lra.
Qed.
