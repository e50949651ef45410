(** AngleHelper: the angular cells. *)
From Coq Require Import Arith NArith ZArith List Bool Reals Permutation Lia Lra.
From Flocq Require Import Core.
From Verif Require Import Base Bits_Model Bits_Proofs Coord_Model Coord_Proofs Coord_Geo Tree_Model Hyp_Model Hyp_Math.
Import ListNotations.
Local Open Scope N_scope.

Definition hfc (l : N) : N := 2 ^ l - 1.
Definition in_lv (l A : N) : Prop := hfc l <= A < hfc (l + 1).
Lemma hfc_succ l : hfc (l + 1) = hfc l + 2 ^ l.
Proof. unfold hfc. rewrite N.pow_add_r. pose proof (pow2_pos l). change (2 ^ 1) with 2. lia. Qed.
Lemma hfc_0 : hfc 0 = 0. Proof. reflexivity. Qed.
Lemma pow2_lt l m : l <= m -> 2 ^ l <= 2 ^ m.
Proof. intros H. now apply N.pow_le_mono_r. Qed.
Lemma numCells_Some l : l < 32 -> numCells l = Some (2 ^ l).
Proof. intros H. unfold numCells, shl1_u32. rewrite (proj2 (N.ltb_lt _ _) H). f_equal. rewrite N.shiftl_1_l. reflexivity. Qed.
Lemma firstCell_Some l : l < 32 -> firstCell l = Some (hfc l).
Proof. intros H. unfold firstCell. change (shl1_u32 l) with (numCells l). now rewrite numCells_Some. Qed.
Lemma shl_i32 l : l < 31 -> shl1_i32 l = Some (2 ^ l).
Proof. intros H. unfold shl1_i32. rewrite (proj2 (N.ltb_lt _ _) H). f_equal. rewrite N.shiftl_1_l. reflexivity. Qed.

(** the level-local cell of an angle *)
Definition hidx (l : N) (phi : R) : N := coordR l (phi / 2 / PI).
Definition hcel (l : N) (phi : R) : N := hfc l + hidx l phi.
Definition ang (phi : R) : Prop := (0 <= phi < 2 * PI)%R.
Lemma ang_unit phi : ang phi -> (0 <= phi / 2 / PI < 1)%R.
Proof.
  intros [H0 H1]. pose proof PI_RGT_0 as P. replace (phi / 2 / PI)%R with (phi / (2 * PI))%R by (field; lra). split.
  - apply Rmult_le_pos; [lra|]. left. apply Rinv_0_lt_compat. lra.
  - apply Rmult_lt_reg_r with (2 * PI)%R; [lra|]. unfold Rdiv. rewrite Rmult_assoc, Rinv_l by lra. lra.
Qed.
Lemma hidx_lt l phi : ang phi -> hidx l phi < 2 ^ l.
Proof. intros H. apply coordR_lt. now apply ang_unit. Qed.
Definition wid (l : N) : R := (2 * PI / pow2R l)%R.
Lemma wid_pos l : (0 < wid l)%R.
Proof. unfold wid. pose proof PI_RGT_0. pose proof (pow2R_pos l). apply Rdiv_lt_0_compat; lra. Qed.
Lemma hidx_bounds l phi : ang phi -> (IZR (Z.of_N (hidx l phi)) * wid l <= phi < (IZR (Z.of_N (hidx l phi)) + 1) * wid l)%R.
Proof.
  intros H. pose proof (coordR_bounds l _ (ang_unit phi H)) as [B1 B2]. fold (hidx l phi) in *. pose proof (wid_pos l) as W.
  pose proof PI_RGT_0. pose proof (pow2R_pos l).
  assert (E : phi = (phi / 2 / PI * pow2R l * wid l)%R) by (unfold wid; field; split; lra).
  pose proof (Rmult_le_compat_r (wid l) _ _ (Rlt_le _ _ W) B1). pose proof (Rmult_lt_compat_r (wid l) _ _ W B2). lra.
Qed.
Lemma hidx_unique l phi k : ang phi -> (IZR (Z.of_N k) * wid l <= phi < (IZR (Z.of_N k) + 1) * wid l)%R -> hidx l phi = k.
Proof.
  intros H [B1 B2]. apply coordR_unique; [now apply ang_unit|]. pose proof (wid_pos l) as W. pose proof PI_RGT_0. pose proof (pow2R_pos l).
  assert (E : phi = (phi / 2 / PI * pow2R l * wid l)%R) by (unfold wid; field; split; lra).
  split; [apply Rmult_le_reg_r with (wid l)|apply Rmult_lt_reg_r with (wid l)]; lra.
Qed.
Lemma hcellForPoint_eq l phi : ang phi -> l < 32 -> hcellForPoint phi l = Some (hidx l phi).
Proof.
  intros H Hl. unfold hcellForPoint. rewrite numCells_Some by exact Hl. cbn [obind]. unfold double_to_u32.
  pose proof (ang_unit phi H) as U. pose proof (hidx_lt l phi H) as L. unfold hidx, coordR in *. fold (pow2R l) in *.
  pose proof (pow2R_pos l) as P. rewrite Ztrunc_floor by (apply Rmult_le_pos; lra).
  assert (0 <= Zfloor (phi / 2 / PI * pow2R l))%Z by (apply Zfloor_lub; apply Rmult_le_pos; lra).
  pose proof (pow2_lt l 31 ltac:(lia)) as P2. change (2 ^ 31) with 2147483648 in P2.
  destruct (_ && _)%Z eqn:E; [reflexivity|]. exfalso. apply andb_false_iff in E as [E|E]; [apply Z.leb_gt in E; lia|apply Z.ltb_ge in E; lia].
Qed.
Lemma hcel_in l phi : ang phi -> in_lv l (hcel l phi).
Proof. intros H. unfold in_lv, hcel. rewrite hfc_succ. pose proof (hidx_lt l phi H). lia. Qed.
Lemma hidx_half l phi : ang phi -> hidx l phi = hidx (l + 1) phi / 2.
Proof. intros H. apply coordR_half. now apply ang_unit. Qed.
Lemma hidx_ancestor phi k : forall l, ang phi -> hidx l phi = hidx (l + N.of_nat k) phi / 2 ^ N.of_nat k.
Proof.
  induction k as [|k IH]; intros l H.
  - rewrite N.add_0_r, N.pow_0_r, N.div_1_r. reflexivity.
  - rewrite (hidx_half l phi H), (IH (l + 1) H). replace (l + 1 + N.of_nat k) with (l + N.of_nat (S k)) by lia.
    rewrite N.div_div by (try apply N.pow_nonzero; discriminate). f_equal. rewrite Nat2N.inj_succ, N.pow_succ_r'. lia.
Qed.

(** ** children *)
Definition hkids (A : N) : list N := [2 * A + 1; 2 * A + 2].
Lemma in_lv_lt l A : l < 31 -> in_lv l A -> A < 2 ^ 31 - 1.
Proof.
  intros Hl [_ H]. unfold hfc in H. pose proof (pow2_lt (l + 1) 31 ltac:(lia)). lia.
Qed.
Lemma hfirstChild_eq l A : l < 31 -> in_lv l A -> hfirstChild A = 2 * A + 1 /\ w32 (hfirstChild A + 1) = 2 * A + 2 /\ hsecondChild A = 2 * A + 2.
Proof.
  intros Hl HA. pose proof (in_lv_lt l A Hl HA) as H. change (2 ^ 31) with 2147483648 in H.
  assert (E : hfirstChild A = 2 * A + 1) by (unfold hfirstChild; apply w32_small; change (2 ^ 32) with 4294967296; lia).
  rewrite E. unfold hsecondChild. rewrite !w32_small by (change (2 ^ 32) with 4294967296; lia). repeat split; lia.
Qed.
Lemma hkids_in_lv l A a : in_lv l A -> In a (hkids A) -> in_lv (l + 1) a.
Proof.
  unfold in_lv, hfc. rewrite !N.pow_add_r. change (2 ^ 1) with 2. pose proof (pow2_pos l) as P. intros H [<-|[<-|[]]]; lia.
Qed.
Lemma hkids_iff l phi A : ang phi -> in_lv l A -> (In (hcel (l + 1) phi) (hkids A) <-> hcel l phi = A).
Proof.
  intros H HA. unfold hcel. rewrite (hidx_half l phi H). unfold hfc. rewrite N.pow_add_r. change (2 ^ 1) with 2. pose proof (pow2_pos l).
  set (c := hidx (l + 1) phi). pose proof (N.div_mod c 2 ltac:(lia)) as E. pose proof (N.mod_lt c 2 ltac:(lia)) as M.
  set (q := c / 2) in *. set (r := c mod 2) in *. clearbody c q r. unfold in_lv, hfc in HA. cbn [hkids In]. split; intros; lia.
Qed.
Lemma hchild_pairs_eq l A B : l < 31 -> in_lv l A -> in_lv l B ->
  Permutation (hchild_pairs A B) (if A =? B then filter (fun ab => fst ab <=? snd ab) (list_prod (hkids A) (hkids A)) else list_prod (hkids A) (hkids B)).
Proof.
  intros Hl HA HB. unfold hchild_pairs. destruct (hfirstChild_eq l A Hl HA) as (E1 & E2 & _). destruct (hfirstChild_eq l B Hl HB) as (E3 & E4 & _).
  rewrite E2, E4, E1, E3. destruct (N.eqb_spec A B) as [<-|HN]; cbn [hkids list_prod map app filter fst snd].
  - destruct (N.leb_spec (2 * A + 1) (2 * A + 1)); [|lia]. destruct (N.leb_spec (2 * A + 1) (2 * A + 2)); [|lia].
    destruct (N.leb_spec (2 * A + 2) (2 * A + 1)); [lia|]. destruct (N.leb_spec (2 * A + 2) (2 * A + 2)); [|lia]. reflexivity.
  - apply Permutation_cons; auto. apply Permutation_cons; auto. constructor.
Qed.
Lemma hchild_pairs_in l A B ab : l < 31 -> in_lv l A -> in_lv l B -> In ab (hchild_pairs A B) -> In (fst ab) (hkids A) /\ In (snd ab) (hkids B).
Proof.
  intros Hl HA HB H. apply (Permutation_in _ (hchild_pairs_eq l A B Hl HA HB)) in H. destruct ab as [a b]. cbn [fst snd].
  destruct (N.eqb_spec A B) as [<-|HN]; [apply filter_In in H as [H _]|]; now apply in_prod_iff in H.
Qed.

(** ** touching and distance *)
(** number of cell borders between two cells on the shorter way round *)
Definition ring (l A B : N) : N := N.min (cell_diff A B) (2 ^ l - cell_diff A B).
Lemma cell_diff_lt l A B : in_lv l A -> in_lv l B -> cell_diff A B < 2 ^ l.
Proof. unfold in_lv, cell_diff. rewrite hfc_succ. lia. Qed.
Lemma cell_diff_sym A B : cell_diff A B = cell_diff B A.
Proof. unfold cell_diff. lia. Qed.
Lemma htouching_eq l A B : l < 32 -> in_lv l A -> in_lv l B -> htouching A B l = Some (ring l A B <=? 1).
Proof.
  intros Hl HA HB. unfold htouching. pose proof (cell_diff_lt l A B HA HB) as Hd. unfold ring. set (d := cell_diff A B) in *.
  destruct (N.leb_spec d 1) as [L|L].
  - f_equal. symmetry. apply N.leb_le. lia.
  - rewrite numCells_Some by exact Hl. cbn [obind]. f_equal. destruct (N.eqb_spec d (2 ^ l - 1)), (N.leb_spec (N.min d (2 ^ l - d)) 1); auto; lia.
Qed.
Lemma cellsBetween_eq l A B : l < 32 -> in_lv l A -> in_lv l B -> cellsBetween A B l = Some (ring l A B - 1).
Proof.
  intros Hl HA HB. unfold cellsBetween. rewrite numCells_Some by exact Hl. cbn [obind]. pose proof (cell_diff_lt l A B HA HB) as Hd. unfold ring.
  set (d := cell_diff A B) in *. pose proof (pow2_lt l 31 ltac:(lia)) as P2. change (2 ^ 31) with 2147483648 in P2.
  assert (E : w32 (2 ^ l + 2 ^ 32 - d) = 2 ^ l - d).
  { replace (2 ^ l + 2 ^ 32 - d) with (2 ^ l - d + 1 * 2 ^ 32) by lia. unfold w32. rewrite N.land_ones, N.mod_add by discriminate.
    apply N.mod_small. change (2 ^ 32) with 4294967296. lia. }
  rewrite E. f_equal. destruct (N.leb_spec (N.min d (2 ^ l - d)) 1); lia.
Qed.
Lemma hdist_eq l A B : l < 31 -> in_lv l A -> in_lv l B -> hdist A B l = Some (IZR (Z.of_N (ring l A B - 1)) * wid l)%R.
Proof.
  intros Hl HA HB. unfold hdist. rewrite cellsBetween_eq by (auto; lia). cbn [obind]. rewrite shl_i32 by exact Hl. cbn [obind].
  f_equal. fold (pow2R l). unfold wid. pose proof (pow2R_pos l). field. lra.
Qed.
Lemma htouching_low l A B : l <= 1 -> in_lv l A -> in_lv l B -> htouching A B l = Some true.
Proof.
  intros Hl HA HB. rewrite (htouching_eq l) by (auto; lia). f_equal. apply N.leb_le. unfold ring. pose proof (cell_diff_lt l A B HA HB).
  assert (2 ^ l <= 2) by (apply (pow2_lt l 1 Hl)). lia.
Qed.
Lemma htouching_self l A : htouching A A l = Some true.
Proof. unfold htouching, cell_diff. rewrite N.max_id, N.min_id, N.sub_diag. reflexivity. Qed.
Lemma ring_sym l A B : ring l A B = ring l B A.
Proof. unfold ring. now rewrite cell_diff_sym. Qed.

(** circular angle distance against index distance *)
Lemma circ_lower l a b : ang a -> ang b -> (IZR (Z.of_N (ring l (hcel l a) (hcel l b)) - 1) * wid l <= circ a b)%R.
Proof.
  intros Ha Hb. pose proof (hidx_bounds l a Ha) as [A1 A2]. pose proof (hidx_bounds l b Hb) as [B1 B2].
  pose proof (hidx_lt l a Ha) as La. pose proof (hidx_lt l b Hb) as Lb. pose proof (wid_pos l) as W.
  assert (T : (2 * PI = IZR (Z.of_N (2 ^ l)) * wid l)%R) by (fold (pow2R l); unfold wid; pose proof (pow2R_pos l); field; lra).
  unfold ring, hcel. set (d := cell_diff (hfc l + hidx l a) (hfc l + hidx l b)).
  assert (Hd : Z.of_N d = Z.abs (Z.of_N (hidx l a) - Z.of_N (hidx l b))) by (unfold d, cell_diff; lia).
  assert (Hd2 : d < 2 ^ l) by (unfold d, cell_diff; lia).
  set (ia := hidx l a) in *. set (ib := hidx l b) in *. clearbody d ia ib.
  assert (X : ((IZR (Z.of_N d) - 1) * wid l <= Rabs (a - b) <= (IZR (Z.of_N d) + 1) * wid l)%R).
  { rewrite Hd, abs_IZR, minus_IZR. set (x := IZR (Z.of_N ia)) in *. set (y := IZR (Z.of_N ib)) in *. clearbody x y.
    unfold Rabs. destruct (Rcase_abs (a - b)), (Rcase_abs (x - y)); split; try nra.
    all: clear -A1 A2 B1 B2 W r r0; try nra. }
  unfold circ. apply Rmin_glb.
  - eapply Rle_trans; [|apply X]. rewrite minus_IZR. apply Rmult_le_compat_r; [lra|]. apply Rplus_le_compat_r. apply IZR_le. lia.
  - rewrite T. apply Rle_trans with ((IZR (Z.of_N (2 ^ l)) - IZR (Z.of_N d) - 1) * wid l)%R; [|lra].
    apply Rmult_le_compat_r; [lra|]. rewrite <- minus_IZR, <- minus_IZR. apply IZR_le. lia.
Qed.
