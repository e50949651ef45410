(** Cell numbering: the integer part of SpatialTreeCoordinateHelper. *)
From Coq Require Import Arith NArith ZArith List Bool Lia.
From Verif Require Import Base Bits_Model Bits_Proofs Coord_Model.
Import ListNotations.
Open Scope N_scope.

(** first cell of a level, closed form *)
Definition fc (D l : N) : N := (2^(D*l) - 1) / (2^D - 1).
Definition in_level (D l c : N) : Prop := fc D l <= c < fc D (l + 1).

Lemma pow2_pos k : 0 < 2^k. Proof. apply N.neq_0_lt_0, N.pow_nonzero. lia. Qed.

Lemma pow2_dim D : dim_ok D -> 2 <= 2^D.
Proof. intros [H _]. change 2 with (2^1) at 1. apply N.pow_le_mono_r; lia. Qed.

Lemma fc_mul D l : dim_ok D -> fc D l * (2^D - 1) + 1 = 2^(D*l).
Proof.
  intro HD. pose proof (pow2_dim D HD) as P. unfold fc.
  assert (E: exists q, 2^(D*l) = q * (2^D-1) + 1).
  { induction l using N.peano_ind.
    - exists 0. now rewrite N.mul_0_r.
    - destruct IHl as [q Hq]. exists (q * 2^D + 1). replace (D * N.succ l) with (D*l + D) by lia.
      rewrite N.pow_add_r, Hq. nia. }
  destruct E as [q Hq]. rewrite Hq. rewrite N.add_sub. rewrite N.div_mul by lia. reflexivity.
Qed.

Lemma fc_0 D : fc D 0 = 0.
Proof. unfold fc. rewrite N.mul_0_r. cbn [N.pow N.sub]. change (1 - 1) with 0. destruct (2^D - 1); reflexivity. Qed.
Lemma fc_succ D l : dim_ok D -> fc D (l+1) = fc D l + 2^(D*l).
Proof.
  intro HD. pose proof (pow2_dim D HD). pose proof (fc_mul D l HD). pose proof (fc_mul D (l+1) HD) as E.
  replace (D*(l+1)) with (D*l+D) in E by lia. rewrite N.pow_add_r in E. nia.
Qed.
Lemma fc_succ' D l : dim_ok D -> fc D (l+1) = 2^D * fc D l + 1.
Proof.
  intro HD. pose proof (pow2_dim D HD). pose proof (fc_mul D l HD). pose proof (fc_succ D l HD). nia.
Qed.
Lemma fc_mono D l m : dim_ok D -> l <= m -> fc D l <= fc D m.
Proof.
  intros HD H. replace m with (l + (m - l)) by lia. generalize (m - l); clear H m.
  induction n using N.peano_ind; [rewrite N.add_0_r; lia|].
  replace (l + N.succ n) with (l + n + 1) by lia. rewrite fc_succ by auto. lia.
Qed.
Lemma fc_lt_pow D l : dim_ok D -> fc D l < 2^(D*l).
Proof. intro HD. pose proof (pow2_dim D HD). pose proof (fc_mul D l HD). nia. Qed.

Lemma numChildren_eq D : numChildren D = 2^D.
Proof. unfold numChildren. apply N.shiftl_1_l. Qed.

Lemma shl1_u32_Some k : k < 32 -> shl1_u32 k = Some (2^k).
Proof. intro H. unfold shl1_u32. apply N.ltb_lt in H. now rewrite H, N.shiftl_1_l. Qed.
Lemma shl1_i32_Some k : k < 31 -> shl1_i32 k = Some (2^k).
Proof. intro H. unfold shl1_i32. apply N.ltb_lt in H. now rewrite H, N.shiftl_1_l. Qed.

Lemma firstCellOfLevel_Some D l : D * l < 32 -> firstCellOfLevel D l = Some (fc D l).
Proof. intro H. unfold firstCellOfLevel. rewrite shl1_u32_Some by auto. cbn [obind]. now rewrite numChildren_eq. Qed.
Lemma numCellsInLevel_Some D l : D * l < 32 -> numCellsInLevel D l = Some (2^(D*l)).
Proof. apply shl1_u32_Some. Qed.

Lemma w32_small x : x < 2^32 -> w32 x = x.
Proof. intro H. unfold w32. rewrite N.land_ones. now apply N.mod_small. Qed.

Lemma fc_lt_2p32 D l : dim_ok D -> D * l <= 31 -> fc D (l+1) < 2^32.
Proof.
  intros HD H. rewrite fc_succ by auto. pose proof (fc_lt_pow D l HD).
  assert (2^(D*l) <= 2^31) by (apply N.pow_le_mono_r; lia). lia.
Qed.

(** bits of [fc] *)
Lemma fc_bit D l b : dim_ok D -> N.testbit (fc D l) b = (b mod D =? 0) && (b <? D * l).
Proof.
  intro HD. assert (HD0: D <> 0) by (unfold dim_ok in HD; lia).
  revert b. induction l using N.peano_ind; intro b.
  - rewrite fc_0, N.bits_0, N.mul_0_r. destruct (N.ltb_spec b 0); [lia|]. now rewrite andb_false_r.
  - rewrite <- N.add_1_r, fc_succ by auto.
    assert (E: fc D l + 2^(D*l) = N.lor (fc D l) (2^(D*l))).
    { assert (E0: N.land (fc D l) (2^(D*l)) = 0).
      { apply N.bits_inj; intro k. rewrite N.land_spec, N.pow2_bits_eqb, N.bits_0.
        destruct (N.eqb_spec (D*l) k) as [<-|]; [|apply andb_false_r].
        rewrite (small_bits_above _ (D*l)); auto; [now apply fc_lt_pow|lia]. }
      rewrite (N.add_nocarry_lxor _ _ E0). now apply N.lxor_lor. }
    rewrite E, N.lor_spec, IHl, N.pow2_bits_eqb.
    destruct (N.eqb_spec (D*l) b) as [<-|NE].
    + rewrite orb_true_r. rewrite N.mul_comm, N.mod_mul by auto. cbn [N.eqb andb]. symmetry. apply N.ltb_lt. lia.
    + rewrite orb_false_r. destruct (N.eqb_spec (b mod D) 0) as [M|M]; [|reflexivity]. cbn [andb].
      apply N.div_exact in M; auto.
      destruct (N.ltb_spec b (D*l)), (N.ltb_spec b (D*(l+1))); auto; try lia.
      exfalso. assert (l < b / D). { apply N.mul_lt_mono_pos_l with D; lia. } nia.
Qed.

Lemma every_bit D b : dim_ok D -> N.testbit (kEveryDthBit D) b = (b mod D =? 0) && (b <? 32).
Proof.
  intro HD.
  replace (kEveryDthBit D) with (fc D ((31 / D) + 1)) by
    (destruct (dim_cases _ HD) as [->|[->|[->|[->| ->]]]]; vm_compute; reflexivity).
  rewrite fc_bit by auto. destruct (N.eqb_spec (b mod D) 0) as [M|]; [|reflexivity]. cbn [andb].
  apply N.div_exact in M; [|unfold dim_ok in HD; lia]. rewrite M.
  generalize (b / D). intro q.
  assert (G: forall a b, (a < b <-> D * q < 32) -> (a <? b) = (D * q <? 32)).
  { intros a c Hac. destruct (N.ltb_spec a c), (N.ltb_spec (D*q) 32); auto; exfalso; lia. }
  apply G. clear G M.
  destruct (dim_cases _ HD) as [->|[->|[->|[->| ->]]]];
  match goal with |- context [31 / ?d] => let y := eval vm_compute in (31 / d) in change (31 / d) with y end; lia.
Qed.

(** ** assertLower *)
Lemma assertLower_gnu_eq x : 0 < x -> x < 2^32 -> assertLower_gnu x = N.ones (N.log2 x + 1).
Proof.
  intros H0 H. unfold assertLower_gnu, clz32. destruct (N.eqb_spec x 0); [lia|].
  assert (L: N.log2 x < 32) by (apply N.log2_lt_pow2; auto).
  replace (32 - (31 - N.log2 x)) with (N.log2 x + 1) by lia.
  rewrite N.shiftl_1_l. rewrite N.ones_equiv. rewrite N.sub_1_r. apply w32_small.
  assert (2^(N.log2 x + 1) <= 2^32) by (apply N.pow_le_mono_r; lia). pose proof (pow2_pos (N.log2 x + 1)). lia.
Qed.

Definition anyof (n : nat) (x k : N) : bool := existsb (fun j => N.testbit x (k + N.of_nat j)) (seq 0 n).
Lemma anyof_step n y x : (forall k, N.testbit y k = anyof n x k) ->
  forall k, N.testbit (N.lor y (N.shiftr y (N.of_nat n))) k = anyof (n + n) x k.
Proof.
  intros H k. rewrite N.lor_spec, N.shiftr_spec', !H. unfold anyof. rewrite seq_app, existsb_app. f_equal.
  cbn [Nat.add]. 
  assert (G: forall s t, existsb (fun j => N.testbit x (k + N.of_nat n + N.of_nat j)) (seq s t) =
     existsb (fun j => N.testbit x (k + N.of_nat j)) (seq (n + s) t)).
  { intros s t. revert s. induction t; intro s; cbn [seq existsb]; [reflexivity|]. f_equal.
    - f_equal. lia.
    - rewrite IHt. now replace (n + S s)%nat with (S (n + s)) by lia. }
  rewrite G. now rewrite Nat.add_0_r.
Qed.
Lemma assertLower_portable_eq x : 0 < x -> x < 2^32 -> assertLower_portable x = N.ones (N.log2 x + 1).
Proof.
  intros H0 H. assert (B: forall k, N.testbit (assertLower_portable x) k = anyof 32 x k).
  { unfold assertLower_portable; cbv zeta.
    apply (anyof_step 16). apply (anyof_step 8). apply (anyof_step 4). apply (anyof_step 2). apply (anyof_step 1).
    intro k. unfold anyof; cbn. now rewrite N.add_0_r, orb_false_r. }
  apply N.bits_inj; intro k. rewrite B. unfold anyof.
  assert (L: N.log2 x < 32) by (apply N.log2_lt_pow2; auto).
  destruct (N.le_gt_cases k (N.log2 x)) as [C|C].
  - rewrite N.ones_spec_low by lia. apply existsb_exists. exists (N.to_nat (N.log2 x - k)). split.
    + apply in_seq. lia.
    + replace (k + _) with (N.log2 x) by lia. apply N.bit_log2. lia.
  - rewrite N.ones_spec_high by lia. apply not_true_is_false. intro E. apply existsb_exists in E as (j & _ & E).
    rewrite N.bits_above_log2 in E by lia. discriminate.
Qed.

Lemma in_level_pos D l c : dim_ok D -> in_level D l c -> 0 < l -> 2^(D*(l-1)) <= c.
Proof.
  intros HD [H _] Hl. replace l with (l - 1 + 1) in H by lia. rewrite fc_succ in H by auto. lia.
Qed.

Theorem cellOfLevel_eq cfg D l c : dim_ok D -> D * l <= 31 -> in_level D l c ->
  cellOfLevel cfg D c = c - fc D l.
Proof.
  intros HD Hl Hin. unfold cellOfLevel.
  pose proof (fc_lt_2p32 D l HD Hl) as B32.
  assert (HD0: 0 < D) by (unfold dim_ok in HD; lia).
  destruct (N.eq_dec l 0) as [->|L0].
  { destruct Hin as [_ H2]. rewrite fc_succ, fc_0, N.mul_0_r in H2 by auto.
    assert (c = 0) by (cbn in H2; lia). subst c. rewrite fc_0. now destruct (N.land _ _). }
  pose proof (in_level_pos D l c HD Hin ltac:(lia)) as Lo.
  destruct Hin as [I1 I2].
  assert (C0: 0 < c) by (pose proof (pow2_pos (D*(l-1))); lia).
  assert (EA: (if gnuc cfg then assertLower_gnu else assertLower_portable) c = N.ones (N.log2 c + 1)).
  { destruct (gnuc cfg); [apply assertLower_gnu_eq|apply assertLower_portable_eq]; lia. }
  rewrite EA. set (h := N.log2 c).
  assert (H1: D*(l-1) <= h) by (apply N.log2_le_pow2; auto).
  assert (H2: h <= D*l).
  { enough (h < D*l+1) by lia. apply N.log2_lt_pow2; auto. rewrite N.pow_add_r.
    pose proof (fc_succ D l HD). pose proof (fc_lt_pow D l HD). lia. }
  assert (EM: N.land (kEveryDthBit D) (N.ones (h+1)) = fc D (h/D+1)).
  { apply N.bits_inj; intro b. rewrite N.land_spec, every_bit, fc_bit by auto.
    assert (Hh: h < 32) by lia.
    destruct (N.eqb_spec (b mod D) 0) as [M|]; [|reflexivity]. cbn [andb].
    apply N.div_exact in M; [|lia].
    destruct (N.lt_ge_cases b (h+1)) as [C|C].
    - rewrite N.ones_spec_low by auto. rewrite andb_true_r.
      destruct (N.ltb_spec b 32); [|lia]. symmetry. apply N.ltb_lt.
      assert (b / D <= h / D) by (apply N.div_le_mono; lia). nia.
    - rewrite N.ones_spec_high, andb_false_r by auto. symmetry. apply N.ltb_ge.
      pose proof (N.div_mod h D ltac:(lia)). pose proof (N.mod_lt h D ltac:(lia)). 
      enough (h/D < b / D) by nia. apply N.mul_lt_mono_pos_l with D; [lia|].
      rewrite <- M. apply N.le_lt_trans with h; [apply N.mul_div_le; lia|lia]. }
  assert (DL: D*l = D*(l-1)+D) by nia.
  rewrite EM. destruct (N.eq_dec h (D*l)) as [E|E].
  - replace (h / D) with l by (rewrite E, N.mul_comm, N.div_mul; [reflexivity|lia]).
    destruct (N.ltb_spec c (fc D (l+1))); [|lia].
    rewrite fc_succ' by auto. rewrite N.shiftr_div_pow2, N.mul_comm.
    rewrite N.div_add_l by (pose proof (pow2_pos D); lia).
    rewrite N.div_small by (pose proof (pow2_dim D HD); lia). now rewrite N.add_0_r.
  - replace (h / D + 1) with l.
    + destruct (N.ltb_spec c (fc D l)); [lia|reflexivity].
    + enough (h / D = l - 1) by lia. symmetry. apply N.div_unique with (h - D*(l-1)); nia.
Qed.

(** ** children and parents *)
Lemma firstChild_eq D l c : dim_ok D -> D * (l+1) <= 31 -> in_level D l c -> firstChild D c = 2^D * c + 1.
Proof.
  intros HD Hl [_ H]. unfold firstChild. rewrite numChildren_eq. apply w32_small.
  pose proof (fc_lt_2p32 D (l+1) HD Hl). pose proof (fc_succ' D (l+1) HD). pose proof (pow2_dim D HD). nia.
Qed.
Lemma lastChild_eq D l c : dim_ok D -> D * (l+1) <= 31 -> in_level D l c -> lastChild D c = 2^D * c + 2^D.
Proof.
  intros HD Hl Hin. unfold lastChild. rewrite (firstChild_eq D l) by auto. rewrite numChildren_eq.
  replace (2^D * c + 1 + 2^D - 1) with (2^D * c + 2^D) by lia. apply w32_small.
  pose proof (fc_lt_2p32 D (l+1) HD Hl). pose proof (fc_succ' D (l+1) HD). pose proof (pow2_dim D HD).
  destruct Hin. nia.
Qed.
Lemma parent_eq D c : c < 2^32 -> 0 < c -> parent D c = (c - 1) / 2^D.
Proof.
  intros H H0. unfold parent. rewrite numChildren_eq. f_equal. unfold w32. rewrite N.land_ones.
  replace (c + (2^32 - 1)) with (c - 1 + 1 * 2^32) by lia. rewrite N.mod_add by lia. apply N.mod_small. lia.
Qed.

Definition is_child (D A a : N) : Prop := 2^D * A + 1 <= a <= 2^D * A + 2^D.

Lemma is_child_iff D A a : dim_ok D -> is_child D A a <-> 0 < a /\ (a - 1) / 2^D = A.
Proof.
  intro HD. pose proof (pow2_dim D HD) as P. unfold is_child. split.
  - intros H. split; [lia|]. symmetry. apply N.div_unique with (a - 1 - 2^D * A); lia.
  - intros [H0 H]. pose proof (N.div_mod (a-1) (2^D) ltac:(lia)) as E. pose proof (N.mod_lt (a-1) (2^D) ltac:(lia)).
    rewrite H in E. clear H. set (r := (a-1) mod 2^D) in *. clearbody r. set (p := 2^D) in *. clearbody p. split; nia.
Qed.

Lemma child_in_level D l A a : dim_ok D -> in_level D l A -> is_child D A a -> in_level D (l+1) a.
Proof.
  intros HD [H1 H2] [C1 C2]. pose proof (fc_succ' D l HD). pose proof (fc_succ' D (l+1) HD). pose proof (pow2_dim D HD).
  split; nia.
Qed.
Lemma in_level_child D l a : dim_ok D -> in_level D (l+1) a -> in_level D l ((a-1)/2^D) /\ is_child D ((a-1)/2^D) a.
Proof.
  intros HD [H1 H2]. pose proof (fc_succ' D l HD). pose proof (fc_succ' D (l+1) HD). pose proof (pow2_dim D HD).
  split.
  - split.
    + apply N.div_le_lower_bound; lia.
    + apply N.div_lt_upper_bound; lia.
  - apply is_child_iff; auto. split; [lia|reflexivity].
Qed.
Lemma in_level_unique D l m c : dim_ok D -> in_level D l c -> in_level D m c -> l = m.
Proof.
  intros HD [A1 A2] [B1 B2].
  destruct (N.lt_trichotomy l m) as [H|[H|H]]; auto; exfalso.
  - pose proof (fc_mono D (l+1) m HD ltac:(lia)). lia.
  - pose proof (fc_mono D (m+1) l HD ltac:(lia)). lia.
Qed.

(** level-local coordinates of children: coordinate 2c or 2c+1 *)
Lemma deposit_half bmi2 D coords l : dim_ok D -> (l + 1) * D <= 32 -> length coords = N.to_nat D ->
  (forall i, nthN coords i < 2^(l+1)) ->
  deposit bmi2 D (map (fun c => c / 2) coords) = deposit bmi2 D coords / 2^D.
Proof.
  intros HD Hl HL HB. assert (HD0: 0 < D) by (unfold dim_ok in HD; lia).
  assert (Hfit: l + 1 <= 32 / D) by (apply N.div_le_lower_bound; nia).
  assert (F1: fits D coords).
  { split; auto. intro i. eapply N.lt_le_trans; [apply HB|]. apply N.pow_le_mono_r; lia. }
  assert (NM: forall i, nthN (map (fun c => c/2) coords) i = nthN coords i / 2).
  { intro i. unfold nthN. change 0 with (0/2) at 1. now rewrite (map_nth (fun c => c/2)). }
  assert (F2: fits D (map (fun c => c/2) coords)).
  { split; [now rewrite map_length|]. intro i. rewrite NM. apply N.le_lt_trans with (nthN coords i); [|apply F1].
    apply N.div_le_upper_bound; [lia|]. generalize (nthN coords i); intro; lia. }
  apply N.bits_inj; intro b. rewrite <- N.shiftr_div_pow2, N.shiftr_spec', !deposit_bit by auto.
  rewrite NM. replace ((b + D) mod D) with (b mod D).
  - replace ((b + D)/D) with (b/D + 1).
    + rewrite <- N.div2_div, N.div2_spec, N.shiftr_spec'. reflexivity.
    + replace (b + D) with (b + 1 * D) by lia. now rewrite N.div_add by lia.
  - replace (b + D) with (b + 1 * D) by lia. now rewrite N.mod_add by lia.
Qed.
