(** Means of functions that only depend on the grid cells of the points; monotonicity of means. *)
From Coq Require Import Arith NArith ZArith List Reals Lia Lra.
From Coquelicot Require Import Coquelicot.
From Verif Require Import Base Coord_Geo Mean Cost_Touch.
Import ListNotations.
Local Open Scope R_scope.

Lemma cube_mean_le d : forall F G m k, (forall x, in_cube d x -> F x <= G x) -> is_cube_mean d F m -> is_cube_mean d G k -> m <= k.
Proof.
  induction d as [|d IH]; intros F G m k E H K; cbn in *; [subst; apply E; split; [reflexivity|constructor]|].
  destruct H as (g & Hg & HI), K as (h & Hh & HJ). apply (is_RInt_le g h 0 1 m k); [lra|exact HI|exact HJ|]. intros t Ht. apply (IH (fun x => F (t :: x)) (fun x => G (t :: x))); [|apply Hg; lra|apply Hh; lra].
  intros x Hx. apply E, cube_cons. split; [lra|exact Hx].
Qed.
Lemma points_mean_le d n : forall F G m k, (forall ps, points_in n d ps -> F ps <= G ps) -> is_points_mean n d F m -> is_points_mean n d G k -> m <= k.
Proof.
  induction n as [|n IH]; intros F G m k E H K; cbn in *; [subst; apply E; split; [reflexivity|constructor]|].
  destruct H as (g & Hg & HI), K as (h & Hh & HJ). apply (cube_mean_le d g h m k); [|exact HI|exact HJ]. intros x Hx. apply (IH (fun ps => F (x :: ps)) (fun ps => G (x :: ps))); [|apply Hg, Hx|apply Hh, Hx].
  intros ps Hp. apply E, points_cons. now split.
Qed.
Section Cells.
  Variable L : N.
  Fixpoint cmean (d : nat) (F : list N -> R) : R :=
    match d with O => F [] | S d => nsum (fun k => cmean d (fun x => F (N.of_nat k :: x))) (N.to_nat (2 ^ L)) / pow2R L end.
  Lemma cmean_is d : forall F, is_cube_mean d (fun x => F (map (coordR L) x)) (cmean d F).
  Proof.
    induction d as [|d IH]; intros F; cbn [is_cube_mean cmean]; [reflexivity|].
    exists (fun t => cmean d (fun x => F (coordR L t :: x))). split; [|exact (cell_mean L (fun c => cmean d (fun x => F (c :: x))))].
    intros t _. exact (IH (fun x => F (coordR L t :: x))).
  Qed.
  Fixpoint pmean (n d : nat) (F : list (list N) -> R) : R := match n with O => F [] | S n => cmean d (fun x => pmean n d (fun ps => F (x :: ps))) end.
  Lemma pmean_is n d : forall F, is_points_mean n d (fun ps => F (map (map (coordR L)) ps)) (pmean n d F).
  Proof.
    induction n as [|n IH]; intros F; cbn [is_points_mean pmean]; [reflexivity|].
    exists (fun x => pmean n d (fun ps => F (map (coordR L) x :: ps))). split; [|exact (cmean_is d (fun x => pmean n d (fun ps => F (x :: ps))))].
    intros x _. exact (IH (fun ps => F (map (coordR L) x :: ps))).
  Qed.
  (** the corner of a cell *)
  Definition corner (c : N) : R := IZR (Z.of_N c) / pow2R L.
  Lemma corner_range c : (c < 2 ^ L)%N -> 0 <= corner c < 1.
  Proof.
    intros H. unfold corner. pose proof (pow2R_pos L) as P. split; [apply Rmult_le_pos; [apply IZR_le; lia|left; now apply Rinv_0_lt_compat]|].
    apply Rmult_lt_reg_r with (pow2R L); [exact P|]. replace (IZR (Z.of_N c) / pow2R L * pow2R L) with (IZR (Z.of_N c)) by (field; lra). rewrite Rmult_1_l. unfold pow2R. apply IZR_lt. lia.
  Qed.
  Lemma corner_coord x : 0 <= x < 1 -> coordR L (corner (coordR L x)) = coordR L x /\ 0 <= corner (coordR L x) < 1.
  Proof.
    intros Hx. pose proof (coordR_lt L x Hx) as B. pose proof (corner_range _ B) as C. split; [|exact C]. apply coordR_unique; [exact C|]. unfold corner. pose proof (pow2R_pos L). replace (IZR (Z.of_N (coordR L x)) / pow2R L * pow2R L) with (IZR (Z.of_N (coordR L x))) by (field; lra). lra.
  Qed.
  Lemma corners_coord d x : in_cube d x -> in_cube d (map corner (map (coordR L) x)) /\ map (coordR L) (map corner (map (coordR L) x)) = map (coordR L) x.
  Proof.
    intros [Hl Hf]. split.
    - split; [now rewrite !map_length|]. rewrite map_map. apply List.Forall_forall. intros y Hy. apply in_map_iff in Hy as (z & <- & Hz). rewrite List.Forall_forall in Hf. now apply corner_coord, Hf.
    - rewrite !map_map. apply map_ext_in. intros z Hz. rewrite List.Forall_forall in Hf. now apply corner_coord, Hf.
  Qed.
  (** a function of the cells has a mean *)
  Lemma cells_mean n d (F : list (list R) -> R) :
    (forall ps qs, points_in n d ps -> points_in n d qs -> map (map (coordR L)) ps = map (map (coordR L)) qs -> F ps = F qs) -> exists m, is_points_mean n d F m.
  Proof.
    intros H. exists (pmean n d (fun cs => F (map (map corner) cs))). apply (points_mean_ext d n (fun ps => F (map (map corner) (map (map (coordR L)) ps)))); [|apply (pmean_is n d (fun cs => F (map (map corner) cs)))].
    intros ps Hp. apply H; [|exact Hp|].
    - destruct Hp as [Hl Hf]. split; [now rewrite !map_length|]. rewrite map_map. apply List.Forall_forall. intros y Hy. apply in_map_iff in Hy as (z & <- & Hz). rewrite List.Forall_forall in Hf. now apply corners_coord, Hf.
    - destruct Hp as [Hl Hf]. rewrite !map_map. apply map_ext_in. intros z Hz. rewrite List.Forall_forall in Hf. eapply corners_coord, Hf, Hz.
  Qed.
End Cells.
