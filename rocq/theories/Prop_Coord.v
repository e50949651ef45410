(** Properties C20-C26: Morton codes, cell numbering, cell geometry, torus metric, constant powers.
    Specification vocabulary: [is_circle_dist], [is_torus_dist], [in_box], [same_torus_point] (Coord_Torus.v). *)
From Coq Require Import Arith NArith ZArith List Bool Reals Lia Lra.
From Verif Require Import Base Bits_Model Bits_Proofs Coord_Model Coord_Proofs Coord_Geo Coord_Torus.
Import ListNotations.
Open Scope N_scope.

(** ** C20: Morton codes.  [b] = USE_BMI2; coordinates "fit" if they have at most floor(32/D) bits. *)
Theorem C20_extract_bits : forall b D cell i k, 1 <= D <= 5 -> cell < 2^32 -> (i < N.to_nat D)%nat ->
  length (extract b D cell) = N.to_nat D /\
  N.testbit (nth i (extract b D cell) 0) k = N.testbit cell (k * D + N.of_nat i).
Proof. intros b D cell i k HD Hc Hi. split; [now apply extract_length|now apply extract_bit]. Qed.

Theorem C20_deposit_bits : forall b D coords p, 1 <= D <= 5 -> length coords = N.to_nat D ->
  (forall i, nth i coords 0 < 2^(32 / D)) ->
  N.testbit (deposit b D coords) p = N.testbit (nth (N.to_nat (p mod D)) coords 0) (p / D).
Proof. intros b D coords p HD HL HB. apply deposit_bit; [exact HD|]. split; [exact HL|exact HB]. Qed.

Theorem C20_roundtrip_coords : forall b b' D coords, 1 <= D <= 5 -> length coords = N.to_nat D ->
  (forall i, nth i coords 0 < 2^(32 / D)) -> extract b D (deposit b' D coords) = coords.
Proof. intros b b' D coords HD HL HB. apply extract_deposit; [exact HD|]. split; [exact HL|exact HB]. Qed.

Theorem C20_roundtrip_code : forall b b' D x, 1 <= D <= 5 -> x < 2^(D * (32 / D)) ->
  deposit b D (extract b' D x) = x.
Proof. intros b b' D x HD Hx. now apply deposit_extract. Qed.

Example C20_witness : deposit false 3 [5; 3; 7] = 375 /\ extract false 3 375 = [5; 3; 7] /\ (forall i, nth i [5;3;7] 0 < 2^(32/3)).
Proof. split; [reflexivity|]. split; [reflexivity|]. intros [|[|[|[|i]]]]; vm_compute; reflexivity. Qed.

(** ** C21: the BMI2 and the portable implementation agree *)
Theorem C21_extract_agree : forall D cell, 1 <= D <= 5 -> cell < 2^32 ->
  extract_bmi2 D cell = extract_generic D cell.
Proof.
  intros D cell HD Hc. change (extract true D cell = extract false D cell). now rewrite !extract_eq_spec.
Qed.
(** coordinates in the ranges asserted by the portable code (Generic.inl:134,154-156,183): *)
Theorem C21_deposit_agree : forall D coords, 1 <= D <= 5 ->
  Forall2 (fun bits c => c < 2^bits)
     (match D with 1 => [32] | 2 => [16;16] | 3 => [11;11;10] | 4 => [8;8;8;8] | _ => [6;6;6;6;6] end) coords ->
  deposit_bmi2 D coords = deposit_generic D coords.
Proof.
  intros D coords HD HF. change (deposit true D coords = deposit false D coords).
  rewrite !deposit_eq_scatter; auto; destruct (dim_cases _ HD) as [->|[->|[->|[->| ->]]]]; exact HF.
Qed.
Example C21_witness : Forall2 (fun bits c => c < 2^bits) [11;11;10] [2047; 1; 1023] /\
  deposit_bmi2 3 [2047; 1; 1023] = deposit_generic 3 [2047; 1; 1023] /\ deposit_generic 3 [2047; 1; 1023] = 1840700271.
Proof. split; [repeat constructor|split; vm_compute; reflexivity]. Qed.
(** the range restriction matters: with 7 bits and D = 5 the two implementations differ *)
Example C21_range_is_needed : deposit_bmi2 5 [64;0;0;0;0] <> deposit_generic 5 [64;0;0;0;0].
Proof. vm_compute. discriminate. Qed.

(** ** C22: the cell numbering is a complete 2^D-ary tree.
    A cell belongs to level l if it lies between firstCellOfLevel l and firstCellOfLevel l + numCellsInLevel l. *)
Definition cell_in_level (D l c : N) : Prop :=
  exists f n, firstCellOfLevel D l = Some f /\ numCellsInLevel D l = Some n /\ f <= c < f + n.

Lemma cell_in_level_iff D l c : 1 <= D <= 5 -> D * l < 32 -> cell_in_level D l c <-> in_level D l c.
Proof.
  intros HD H. unfold cell_in_level, in_level. rewrite firstCellOfLevel_Some, numCellsInLevel_Some by auto.
  rewrite fc_succ by exact HD. split.
  - intros (f & n & [= <-] & [= <-] & L). exact L.
  - intro L. eauto.
Qed.

Theorem C22_levels : forall D l, 1 <= D <= 5 -> D * (l + 1) <= 31 ->
  exists f n f' n', firstCellOfLevel D l = Some f /\ numCellsInLevel D l = Some n /\
    firstCellOfLevel D (l + 1) = Some f' /\ numCellsInLevel D (l + 1) = Some n' /\
    n = 2^(D*l) /\ f' = f + n /\ n' = 2^D * n /\ (l = 0 -> f = 0).
Proof.
  intros D l HD H. assert (D * l <= 31) by lia.
  rewrite !firstCellOfLevel_Some, !numCellsInLevel_Some by lia.
  exists (fc D l), (2^(D*l)), (fc D (l+1)), (2^(D*(l+1))). repeat split; auto.
  - now apply fc_succ.
  - rewrite <- N.pow_add_r. f_equal. lia.
  - intros ->. apply fc_0.
Qed.

Theorem C22_children : forall D l c, 1 <= D <= 5 -> D * (l + 1) <= 31 -> cell_in_level D l c ->
  lastChild D c - firstChild D c = 2^D - 1 /\
  (forall a, firstChild D c <= a <= lastChild D c <-> cell_in_level D (l + 1) a /\ parent D a = c).
Proof.
  intros D l c HD H Hc. apply cell_in_level_iff in Hc; [|exact HD|lia].
  rewrite (firstChild_eq D l), (lastChild_eq D l) by auto. split; [pose proof (pow2_dim D HD); lia|].
  intro a. fold (is_child D c a). rewrite cell_in_level_iff by (auto; lia). split.
  - intro Ch. pose proof (child_in_level D l c a HD Hc Ch) as La. split; [exact La|].
    rewrite parent_eq.
    + now apply is_child_iff in Ch as [_ ->].
    + destruct La as [_ U]. pose proof (fc_lt_2p32 D (l+1) HD H). lia.
    + now apply is_child_iff in Ch as [? _].
  - intros [La P]. pose proof (in_level_child D l a HD La) as [_ Ch].
    rewrite parent_eq in P.
    + now rewrite P in Ch.
    + destruct La as [_ U]. pose proof (fc_lt_2p32 D (l+1) HD H). lia.
    + now apply is_child_iff in Ch as [? _].
Qed.

Theorem C22_local_index : forall cfg D l c f, 1 <= D <= 5 -> D * l <= 31 -> cell_in_level D l c ->
  firstCellOfLevel D l = Some f -> cellOfLevel cfg D c = c - f.
Proof.
  intros cfg D l c f HD H Hc Hf. apply cell_in_level_iff in Hc; [|exact HD|lia].
  rewrite firstCellOfLevel_Some in Hf by lia. injection Hf as <-. now apply cellOfLevel_eq.
Qed.

Theorem C22_levels_disjoint : forall D l m c, 1 <= D <= 5 -> D * l <= 31 -> D * m <= 31 ->
  cell_in_level D l c -> cell_in_level D m c -> l = m.
Proof.
  intros D l m c HD H1 H2 A B. apply cell_in_level_iff in A, B; try lia; try exact HD. eapply in_level_unique; eauto.
Qed.
Example C22_witness : cell_in_level 2 2 17 /\ firstChild 2 17 = 69 /\ lastChild 2 17 = 72 /\ parent 2 70 = 17
   /\ cellOfLevel {| use_bmi2 := false; gnuc := false; ndebug := true |} 2 17 = 12.
Proof. split; [exists 5, 16; repeat split; vm_compute; auto; discriminate|vm_compute; auto]. Qed.

Open Scope R_scope.
(** ** C23: points lie in the bounds of their cell; cells of a level are disjoint; cells nest.
    [E] is any rounding with [good_rnd] (exact reals are one: ideal_good). *)
Theorem C23_point_in_bounds : forall E cfg D l p, good_rnd E -> (1 <= D <= 5)%N -> (l < 31)%N -> (D * l <= 31)%N ->
  length p = N.to_nat D -> Forall (fun x => 0 <= x < 1 /\ rnd E x = x) p ->
  exists c f, cellForPoint E cfg D p l = Some c /\ firstCellOfLevel D l = Some f /\ cell_in_level D l (f + c) /\
    (exists b, bounds E cfg D (f + c) l = Some b /\ Forall2 (fun iv x => fst iv <= x < snd iv) b p) /\
    (forall a ba, cell_in_level D l a -> bounds E cfg D a l = Some ba ->
        Forall2 (fun iv x => fst iv <= x < snd iv) ba p -> a = (f + c)%N).
Proof.
  intros E cfg D l p G HD Hl HDl HL HF. assert (V: valid_pos E D p) by (split; auto).
  exists (cellR cfg D l p), (fc D l). split; [now apply cellForPoint_eq|]. split; [apply firstCellOfLevel_Some; lia|].
  assert (IL: in_level D l (cell_of cfg D l p)) by (eapply cell_of_in_level; eauto; lia).
  split; [apply cell_in_level_iff; auto; lia|]. split.
  - eexists. split; [now apply bounds_eq|]. now apply (point_in_own_cell E).
  - intros a ba Ha Hb Hin. apply cell_in_level_iff in Ha; [|exact HD|lia].
    rewrite bounds_eq in Hb by auto. injection Hb as <-. now apply (box_unique cfg D l a p E).
Qed.

Theorem C23_cells_nest : forall E cfg D l p, good_rnd E -> (1 <= D <= 5)%N -> (D * (l + 1) <= 31)%N -> (l + 1 < 31)%N ->
  length p = N.to_nat D -> Forall (fun x => 0 <= x < 1 /\ rnd E x = x) p ->
  exists c c' f f', cellForPoint E cfg D p l = Some c /\ firstCellOfLevel D l = Some f /\
    cellForPoint E cfg D p (l + 1) = Some c' /\ firstCellOfLevel D (l + 1) = Some f' /\
    parent D (f' + c') = (f + c)%N.
Proof.
  intros E cfg D l p G HD HDl Hl HL HF. assert (V: valid_pos E D p) by (split; auto).
  exists (cellR cfg D l p), (cellR cfg D (l+1) p), (fc D l), (fc D (l+1)).
  rewrite !cellForPoint_eq, !firstCellOfLevel_Some by (auto; lia). repeat split; auto.
  pose proof (cell_of_child cfg E D l p HD V ltac:(lia)) as Ch.
  assert (IL: in_level D (l+1) (cell_of cfg D (l+1) p)) by (eapply cell_of_in_level; eauto; lia).
  fold (cell_of cfg D l p) (cell_of cfg D (l+1) p).
  rewrite parent_eq.
  - now apply is_child_iff in Ch as [_ ->].
  - destruct IL as [_ U]. pose proof (fc_lt_2p32 D (l+1) HD HDl). lia.
  - now apply is_child_iff in Ch as [? _].
Qed.
Example C23_witness : Forall (fun x => 0 <= x < 1 /\ rnd ideal_env x = x) [/2; 0; /3].
Proof. repeat constructor; cbn; lra. Qed.

(** ** C24: touching and dist *)
Theorem C24_touching : forall cfg D l A B, (1 <= D <= 5)%N -> (l < 31)%N -> (D * l <= 31)%N ->
  cell_in_level D l A -> cell_in_level D l B ->
  exists bA bB t, bounds ideal_env cfg D A l = Some bA /\ bounds ideal_env cfg D B l = Some bB /\
    touching cfg D A B l = Some t /\
    (t = true <-> exists x y, Forall2 (fun iv s => fst iv <= s <= snd iv) bA x /\
                              Forall2 (fun iv s => fst iv <= s <= snd iv) bB y /\
                              Forall2 (fun s r => exists k : Z, s - r = IZR k) x y).
Proof.
  intros cfg D l A B HD Hl HDl HA HB. apply cell_in_level_iff in HA, HB; try lia; try exact HD.
  rewrite !bounds_eq, touching_eq by (auto using ideal_good).
  do 3 eexists. repeat (split; [reflexivity|]).
  apply box_touch; [now apply ccoords_bound|now apply ccoords_bound|].
  rewrite !ccoords_length by auto. reflexivity.
Qed.

(** dist is exactly the distance of the closed cells: a lower bound for all point pairs, attained, and at least one cell
    width if the cells do not touch *)
Theorem C24_dist : forall cfg D l A B, (1 <= D <= 5)%N -> (l < 31)%N -> (D * l <= 31)%N ->
  cell_in_level D l A -> cell_in_level D l B ->
  exists bA bB d, bounds ideal_env cfg D A l = Some bA /\ bounds ideal_env cfg D B l = Some bB /\
    cell_dist ideal_env cfg D A B l = Some d /\
    (forall x y e, Forall2 (fun iv s => fst iv <= s <= snd iv) bA x ->
                   Forall2 (fun iv s => fst iv <= s <= snd iv) bB y -> is_torus_dist x y e -> d <= e) /\
    (exists x y, Forall2 (fun iv s => fst iv <= s <= snd iv) bA x /\
                 Forall2 (fun iv s => fst iv <= s <= snd iv) bB y /\ is_torus_dist x y d) /\
    (touching cfg D A B l = Some false -> / IZR (2 ^ Z.of_N l) <= d).
Proof.
  intros cfg D l A B HD Hl HDl HA HB. apply cell_in_level_iff in HA, HB; try lia; try exact HD.
  rewrite !bounds_eq, cell_dist_eq by (auto using ideal_good).
  do 3 eexists. repeat (split; [reflexivity|]).
  pose proof (ccoords_bound cfg D l HD Hl HDl A HA) as BA. pose proof (ccoords_bound cfg D l HD Hl HDl B HB) as BB.
  assert (LL: length (ccoords cfg D l A) = length (ccoords cfg D l B)) by (rewrite !ccoords_length by auto; reflexivity).
  assert (U: forall cs x, (forall i, nthN cs i < 2^l)%N -> in_box_closed (map (boxc l) cs) x -> unit_pos_closed x /\ length x = length cs).
  { intros cs x Hc Hx. apply Forall2_map_l in Hx. induction Hx as [|c s cs x [H1 H2] _ IH]; [repeat constructor|].
    destruct (IH (fun i => Hc (S i))) as [I1 I2]. split; [|cbn; lia]. constructor; auto.
    pose proof (Hc 0%nat) as C0. unfold nthN in C0; cbn [nth] in C0. unfold boxc in *; cbn [fst snd] in *.
    pose proof (pow2R_pos l) as P. split.
    - eapply Rle_trans; [|exact H1]. unfold Rdiv. apply Rmult_le_pos; [apply IZR_le; lia|apply Rlt_le, Rinv_0_lt_compat, P].
    - eapply Rle_trans; [exact H2|]. apply Rmult_le_reg_r with (pow2R l); auto. unfold Rdiv. rewrite Rmult_assoc, Rinv_l by lra.
      unfold pow2R. rewrite Rmult_1_l, Rmult_1_r, <- plus_IZR. apply IZR_le. lia. }
  split; [|split].
  - intros x y e Hx Hy He. destruct (U _ _ BA Hx) as [Ux Lx]. destruct (U _ _ BB Hy) as [Uy Ly].
    rewrite (torus_dist_unique _ _ _ _ He (distance_is_torus_dist x y Ux Uy ltac:(congruence))).
    now apply box_dist_lower with (ca := ccoords cfg D l A) (cb := ccoords cfg D l B).
  - destruct (box_dist_attained l _ _ BA BB LL) as (x & y & Hx & Hy & Hd). exists x, y. split; [exact Hx|]. split; [exact Hy|].
    destruct (U _ _ BA Hx) as [Ux Lx]. destruct (U _ _ BB Hy) as [Uy Ly].
    pose proof (box_dist_lower l _ _ x y BA BB LL Hx Hy) as Lo.
    rewrite (Rle_antisym _ _ Lo Hd). apply distance_is_torus_dist; auto. congruence.
  - intro T. destruct (cell_dist_nontouching ideal_env cfg D l A B HD ideal_good Hl HDl HA HB T) as (d & Hd & L).
    rewrite cell_dist_eq in Hd by (auto using ideal_good). injection Hd as Hd. rewrite Hd.
    unfold pow2R in L. rewrite N2Z.inj_pow in L. unfold Rdiv in L. now rewrite Rmult_1_l in L.
Qed.
Example C24_witness : cell_in_level 1 2 3 /\ cell_in_level 1 2 5 /\
  touching {| use_bmi2 := true; gnuc := true; ndebug := true |} 1 3 5 2 = Some false /\
  touching {| use_bmi2 := true; gnuc := true; ndebug := true |} 1 3 6 2 = Some true.
Proof. repeat split; try (exists 3%N, 4%N; repeat split; vm_compute; auto; discriminate); vm_compute; reflexivity. Qed.

(** ** C25: Node::distance is the max-norm distance of the torus, hence a metric *)
Definition node_at (p : list R) : node := {| coord := p; weight := 1; index := 0; cell_id := 0 |}.
Definition in_torus (p : list R) : Prop := Forall (fun x => 0 <= x < 1) p.

Theorem C25_is_torus_distance : forall a b, in_torus (coord a) -> in_torus (coord b) -> length (coord a) = length (coord b) ->
  is_torus_dist (coord a) (coord b) (node_distance ideal_env a b).
Proof. intros a b Ha Hb L. apply distance_is_torus_dist; auto; now apply unit_closed. Qed.

Theorem C25_metric : forall a b c, in_torus (coord a) -> in_torus (coord b) -> in_torus (coord c) ->
  length (coord a) = length (coord b) -> length (coord b) = length (coord c) ->
  node_distance ideal_env a b = node_distance ideal_env b a /\
  (node_distance ideal_env a b = 0 <-> coord a = coord b) /\
  0 <= node_distance ideal_env a b <= / 2 /\
  node_distance ideal_env a c <= node_distance ideal_env a b + node_distance ideal_env b c.
Proof.
  intros a b c Ha Hb Hc L1 L2. unfold node_distance.
  pose proof (C25_is_torus_distance a b Ha Hb L1) as Tab. pose proof (C25_is_torus_distance b a Hb Ha (eq_sym L1)) as Tba.
  split; [apply torus_dist_unique with (coord a) (coord b); [exact Tab|now apply torus_dist_sym]|].
  split; [split; [now apply distance_zero_eq|intros ->; apply distance_refl]|].
  split; [split; [apply coord_distance_ge|now apply distance_half]|].
  eapply torus_triangle; [exact Tab|apply C25_is_torus_distance; auto|apply C25_is_torus_distance; auto; congruence].
Qed.

(** translating both points by the same vector (modulo 1) keeps the distance *)
Theorem C25_translation : forall t a b a' b', in_torus (coord a) -> in_torus (coord b) -> 
  length t = length (coord a) -> length t = length (coord b) ->
  coord a' = map (fun tx => (snd tx + fst tx) - IZR (Flocq.Core.Raux.Zfloor (snd tx + fst tx))) (combine t (coord a)) ->
  coord b' = map (fun tx => (snd tx + fst tx) - IZR (Flocq.Core.Raux.Zfloor (snd tx + fst tx))) (combine t (coord b)) ->
  in_torus (coord a') /\ in_torus (coord b') /\ node_distance ideal_env a' b' = node_distance ideal_env a b.
Proof.
  intros t a b a' b' Ha Hb L1 L2 Ea Eb. unfold node_distance. rewrite Ea, Eb.
  split; [apply translate_unit|]. split; [apply translate_unit|]. now apply distance_translate.
Qed.
Example C25_witness : in_torus [0; /4] /\ in_torus [3/4; /4] /\ node_distance ideal_env (node_at [0; /4]) (node_at [3/4; /4]) = / 4.
Proof.
  split; [repeat constructor; lra|]. split; [repeat constructor; lra|].
  unfold node_distance; cbn. unfold axis_distance; cbn.
  unfold Rmin, Rmax, Rabs. repeat (destruct (Rcase_abs _) || destruct (Rle_dec _ _)); lra.
Qed.

(** ** C26: pow_to_the<D>(x) is the D-th power, for every D *)
Theorem C26_pow : forall D x, pow_to_the ideal_env D x = x ^ (N.to_nat D).
Proof. exact pow_to_the_ideal. Qed.
Example C26_witness : pow_to_the ideal_env 5 2 = 32.
Proof. rewrite C26_pow. change (N.to_nat 5) with 5%nat. cbn [pow]. lra. Qed.

Print Assumptions C20_roundtrip_coords.
Print Assumptions C21_deposit_agree.
Print Assumptions C22_children.
Print Assumptions C23_point_in_bounds.
Print Assumptions C24_dist.
Print Assumptions C25_translation.
Print Assumptions C26_pow.
