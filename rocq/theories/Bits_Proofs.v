(** Proofs about the bit manipulation routines: every routine is an or-homomorphism ("linear"),
    so it is determined by its values on single-bit words. *)
From Coq Require Import Arith NArith List Bool Lia.
From Verif Require Import Base Bits_Model.
Import ListNotations.
Open Scope N_scope.

Definition lin (f : N -> N) : Prop := f 0 = 0 /\ forall a b, f (N.lor a b) = N.lor (f a) (f b).

Lemma lin_id : lin (fun x => x). Proof. split; auto. Qed.
Lemma lin_0 : lin (fun _ => 0). Proof. split; auto. Qed.
Lemma lin_comp f g : lin g -> lin f -> lin (fun x => g (f x)).
Proof. intros [G0 G] [F0 F]; split; intros; rewrite ?F0, ?F, ?G0, ?G; auto. Qed.
Lemma lin_lor f g : lin f -> lin g -> lin (fun x => N.lor (f x) (g x)).
Proof.
  intros [F0 F] [G0 G]; split; [now rewrite F0, G0|]. intros a b; rewrite F, G.
  apply N.bits_inj; intro k; rewrite !N.lor_spec.
  destruct (N.testbit (f a) k), (N.testbit (f b) k), (N.testbit (g a) k), (N.testbit (g b) k); reflexivity.
Qed.
Lemma lin_land c f : lin f -> lin (fun x => N.land (f x) c).
Proof.
  intros [F0 F]; split; [now rewrite F0|]. intros a b; rewrite F.
  apply N.bits_inj; intro k; rewrite ?N.lor_spec, ?N.land_spec, ?N.lor_spec.
  destruct (N.testbit (f a) k), (N.testbit (f b) k), (N.testbit c k); reflexivity.
Qed.
Lemma lin_shl k f : lin f -> lin (fun x => N.shiftl (f x) k).
Proof.
  intros [F0 F]; split; [now rewrite F0, N.shiftl_0_l|]. intros a b; rewrite F. apply N.shiftl_lor.
Qed.
Lemma lin_shr k f : lin f -> lin (fun x => N.shiftr (f x) k).
Proof.
  intros [F0 F]; split; [now rewrite F0, N.shiftr_0_l|]. intros a b; rewrite F. apply N.shiftr_lor.
Qed.
Lemma lin_w32 f : lin f -> lin (fun x => w32 (f x)). Proof. apply lin_land. Qed.
Lemma lin_w64 f : lin f -> lin (fun x => w64 (f x)). Proof. apply lin_land. Qed.
Lemma lin_b2n k f : lin f -> lin (fun x => N.b2n (N.testbit (f x) k)).
Proof.
  intros [F0 F]; split; [now rewrite F0|]. intros a b; rewrite F, N.lor_spec.
  destruct (N.testbit (f a) k), (N.testbit (f b) k); reflexivity.
Qed.

Lemma lin_ext_shift fuel p B S K : forall f, lin f -> lin (fun x => ext_shift fuel p B S K (f x)).
Proof.
  revert S K; induction fuel; intros S K f Hf; cbn [ext_shift].
  - now apply lin_land.
  - destruct (B <=? K); [now apply lin_land|].
    set (c := if p then _ else _). clearbody c.
    apply (IHfuel (2*S) (2*K) (fun x => N.lor (N.land (f x) c) (N.shiftr (N.land (f x) c) S))).
    apply lin_lor; [|apply lin_shr]; now apply lin_land.
Qed.
Lemma lin_extractor p D f : lin f -> lin (fun x => extractor p D (f x)).
Proof. apply lin_ext_shift. Qed.
Lemma lin_pdep fuel m : forall i k f, lin f -> lin (fun x => pdep_loop fuel (f x) m i k).
Proof.
  induction fuel; intros i k f Hf; cbn [pdep_loop pext_loop]; [apply lin_0|].
  destruct (N.testbit m i); [|now apply IHfuel].
  apply lin_lor; [|now apply IHfuel]. now apply lin_shl, lin_b2n.
Qed.
Lemma lin_pext fuel m : forall i k f, lin f -> lin (fun x => pext_loop fuel (f x) m i k).
Proof.
  induction fuel; intros i k f Hf; cbn [pdep_loop pext_loop]; [apply lin_0|].
  destruct (N.testbit m i); [|now apply IHfuel].
  apply lin_lor; [|now apply IHfuel]. now apply lin_shl, lin_b2n.
Qed.

(** ** Specification: bit k of coordinate i is bit k*D+i of the code *)
Fixpoint gather (n : nat) (D i x k : N) : N :=
  match n with
  | O => 0
  | S m => N.lor (N.shiftl (N.b2n (N.testbit x (k * D + i))) k) (gather m D i x (k + 1))
  end.

Lemma lin_gather n D i k f : lin f -> lin (fun x => gather n D i (f x) k).
Proof.
  revert k; induction n; intros k Hf; cbn [gather]; [apply lin_0|].
  apply lin_lor; [|auto]. now apply lin_shl, lin_b2n.
Qed.

Ltac lin_tac := repeat lazymatch goal with
  | |- lin (fun x => x) => exact lin_id
  | |- lin (fun x => 0) => exact lin_0
  | |- lin (fun x => N.lor (@?f x) (@?g x)) => refine (lin_lor f g _ _)
  | |- lin (fun x => N.land (@?f x) ?c) => refine (lin_land c f _)
  | |- lin (fun x => w32 (@?f x)) => refine (lin_w32 f _)
  | |- lin (fun x => w64 (@?f x)) => refine (lin_w64 f _)
  | |- lin (fun x => N.shiftl (@?f x) ?c) => refine (lin_shl c f _)
  | |- lin (fun x => N.shiftr (@?f x) ?c) => refine (lin_shr c f _)
  | |- lin (fun x => N.b2n (N.testbit (@?f x) ?c)) => refine (lin_b2n c f _)
  | |- lin (fun x => extractor ?p ?D (@?f x)) => refine (lin_extractor p D f _)
  | |- lin (fun x => pdep_u32 (@?f x) ?m) => refine (lin_pdep 32 m 0 0 f _)
  | |- lin (fun x => pext_u32 (@?f x) ?m) => refine (lin_pext 32 m 0 0 f _)
  | |- lin (fun x => gather ?n ?D ?i (@?f x) ?k) => refine (lin_gather n D i k f _)
  end.

(** ** Single-bit basis *)
Definition agree_on_bits (n : nat) (f g : N -> N) : bool :=
  forallb (fun k => f (N.shiftl 1 (N.of_nat k)) =? g (N.shiftl 1 (N.of_nat k))) (seq 0 n).

Lemma split_top (n : N) x : x < 2^(n+1) ->
  exists b y, y < 2^n /\ x = N.lor (N.shiftl (N.b2n b) n) y.
Proof.
  intro H. exists (N.testbit x n), (N.land x (N.ones n)). split.
  - rewrite N.land_ones. apply N.mod_lt. now apply N.pow_nonzero.
  - apply N.bits_inj; intro k. rewrite N.lor_spec, N.land_spec.
    destruct (N.lt_ge_cases k n) as [L|L].
    + rewrite N.shiftl_spec_low, N.ones_spec_low by auto. now rewrite andb_true_r.
    + rewrite N.shiftl_spec_high', N.ones_spec_high by auto. rewrite andb_false_r, orb_false_r.
      destruct (N.eq_dec k n) as [->|NE].
      * rewrite N.sub_diag. now rewrite N.b2n_bit0.
      * assert (E1: N.testbit x k = false).
        { destruct (N.eq_dec x 0) as [->|X]; [apply N.bits_0|]. apply N.bits_above_log2.
          apply N.log2_lt_pow2; [lia|]. eapply N.lt_le_trans; [exact H|]. apply N.pow_le_mono_r; lia. }
        rewrite E1. symmetry.
        destruct (N.testbit x n); cbn [N.b2n].
        -- apply N.bits_above_log2. change (N.log2 1) with 0. lia.
        -- apply N.bits_0.
Qed.

Lemma lin_basis n f g : lin f -> lin g -> agree_on_bits n f g = true ->
  forall x, x < 2^(N.of_nat n) -> f x = g x.
Proof.
  intros [F0 F] [G0 G] A. induction n as [|n IH]; intros x Hx.
  - assert (x = 0) by (cbn in Hx; lia). subst; congruence.
  - unfold agree_on_bits in A. rewrite seq_S, forallb_app in A. apply andb_true_iff in A as [A1 A2].
    cbn in A2. rewrite andb_true_r in A2. apply N.eqb_eq in A2.
    replace (N.of_nat (S n)) with (N.of_nat n + 1) in Hx by lia.
    destruct (split_top _ _ Hx) as (b & y & Hy & ->).
    rewrite F, G. f_equal; [|now apply IH].
    destruct b; cbn [N.b2n]; [exact A2|now rewrite N.shiftl_0_l, F0, G0].
Qed.

Lemma gather_spec n D i x : forall k j,
  N.testbit (gather n D i x k) j =
  if (k <=? j) && (j <? k + N.of_nat n) then N.testbit x (j * D + i) else false.
Proof.
  induction n; intros k j.
  - cbn. destruct (N.leb_spec k j), (N.ltb_spec j (k + 0)); cbn; auto; try lia; apply N.bits_0.
  - cbn [gather]. rewrite N.lor_spec, IHn.
    assert (E: N.testbit (N.shiftl (N.b2n (N.testbit x (k * D + i))) k) j
            = if j =? k then N.testbit x (k*D+i) else false).
    { destruct (N.eqb_spec j k) as [->|NE].
      - rewrite N.shiftl_spec_high', N.sub_diag by lia. apply N.b2n_bit0.
      - destruct (N.lt_ge_cases j k); [now rewrite N.shiftl_spec_low|].
        rewrite N.shiftl_spec_high' by lia.
        destruct (N.testbit x (k*D+i)); [|apply N.bits_0].
        apply N.bits_above_log2. change (N.log2 (N.b2n true)) with 0. lia. }
    rewrite E.
    destruct (N.eqb_spec j k) as [EQ|NE]; [subst j|].
    + destruct (N.leb_spec (k+1) k), (N.leb_spec k k), (N.ltb_spec k (k + N.of_nat (S n))); cbn; try lia.
      now rewrite orb_false_r.
    + destruct (N.leb_spec (k+1) j), (N.leb_spec k j), (N.ltb_spec j (k + N.of_nat (S n))),
        (N.ltb_spec j (k+1+N.of_nat n)); cbn; auto; lia.
Qed.
Definition spec_extract (D cell : N) : list N :=
  map (fun i => gather 32 D (N.of_nat i) cell 0) (seq 0 (N.to_nat D)).

Lemma cons_eq {A} (a b : A) l m : a = b -> l = m -> a :: l = b :: m.
Proof. congruence. Qed.

Definition dim_ok (D : N) : Prop := 1 <= D <= 5.
Lemma dim_cases D : dim_ok D -> D = 1 \/ D = 2 \/ D = 3 \/ D = 4 \/ D = 5.
Proof. unfold dim_ok. lia. Qed.

Lemma extract_eq_spec bmi2 D cell : dim_ok D -> cell < 2^32 ->
  extract bmi2 D cell = spec_extract D cell.
Proof.
  intros HD Hc. unfold extract, spec_extract.
  destruct bmi2.
  - unfold extract_bmi2. apply map_ext_in. intros i Hi. apply in_seq in Hi.
    refine (lin_basis 32 (fun c => pext_u32 c _) (fun c => gather 32 D (N.of_nat i) c 0) _ _ _ cell Hc).
    + apply lin_pext, lin_id.
    + apply lin_gather, lin_id.
    + destruct (dim_cases _ HD) as [->|[->|[->|[->| ->]]]]; cbn in Hi;
      repeat (destruct i as [|i]; [vm_compute; reflexivity|]; try (exfalso; clear -Hi; lia)).
  - unfold extract_generic, extract_odd, extract_even.
    destruct (dim_cases _ HD) as [->|[->|[->|[->| ->]]]];
    cbn [N.eqb Pos.eqb N.odd];
    change (N.to_nat 1) with 1%nat; change (N.to_nat 2) with 2%nat; change (N.to_nat 3) with 3%nat;
    change (N.to_nat 4) with 4%nat; change (N.to_nat 5) with 5%nat;
    change (N.to_nat (2/2)) with 1%nat; change (N.to_nat (4/2)) with 2%nat;
    cbn [map seq flat_map app]; repeat apply cons_eq; try (match goal with |- [] = [] => reflexivity end);
      (match goal with |- ?l = ?r => 
        let f := eval pattern cell in l in let g := eval pattern cell in r in
        match f with ?F _ => match g with ?G' _ => refine (lin_basis 32 F G' _ _ _ cell Hc) end end end;
      [cbv zeta; lin_tac| apply lin_gather, lin_id | vm_compute; reflexivity]).
Qed.

(** ** Deposit *)
Fixpoint unpack (bits : list N) (x : N) : list N :=
  match bits with
  | [] => []
  | b :: r => N.land x (N.ones b) :: unpack r (N.shiftr x 32)
  end.
Fixpoint pack (cs : list N) : N :=
  match cs with [] => 0 | c :: r => N.lor c (N.shiftl (pack r) 32) end.

Lemma small_bits_above x n k : x < 2^n -> n <= k -> N.testbit x k = false.
Proof.
  intros H L. destruct (N.eq_dec x 0) as [->|X]; [apply N.bits_0|]. apply N.bits_above_log2.
  apply N.log2_lt_pow2; [lia|]. eapply N.lt_le_trans; [exact H|]. now apply N.pow_le_mono_r.
Qed.

Lemma small_from_bits x n : (forall k, n <= k -> N.testbit x k = false) -> x < 2^n.
Proof.
  intro H. replace x with (N.land x (N.ones n)).
  - rewrite N.land_ones. apply N.mod_lt. now apply N.pow_nonzero.
  - apply N.bits_inj; intro k. rewrite N.land_spec. destruct (N.lt_ge_cases k n) as [L|L].
    + rewrite N.ones_spec_low by auto. apply andb_true_r.
    + now rewrite H.
Qed.

Lemma unpack_pack bits cs : Forall2 (fun b c => b <= 32 /\ c < 2^b) bits cs -> unpack bits (pack cs) = cs.
Proof.
  induction 1 as [|b c bs cs [Hb Hc] _ IH]; [reflexivity|]. cbn [unpack pack].
  apply cons_eq.
  - apply N.bits_inj; intro k. rewrite N.land_spec, N.lor_spec.
    destruct (N.lt_ge_cases k b).
    + rewrite N.ones_spec_low, N.shiftl_spec_low by lia. now rewrite orb_false_r, andb_true_r.
    + rewrite N.ones_spec_high, andb_false_r by auto. symmetry. eapply small_bits_above; eauto.
  - rewrite <- IH at 2. f_equal. apply N.bits_inj; intro k.
    rewrite N.shiftr_spec', N.lor_spec, N.shiftl_spec_high' by lia.
    replace (k + 32 - 32) with k by lia.
    rewrite (small_bits_above c b (k+32)); auto. lia.
Qed.

Lemma pack_bound cs : Forall (fun c => c < 2^32) cs -> pack cs < 2^(32 * N.of_nat (length cs)).
Proof.
  induction 1 as [|c cs Hc _ IH]; [reflexivity|]. cbn [pack length].
  apply small_from_bits. intros k Hk. rewrite N.lor_spec.
  rewrite (small_bits_above c 32) by (auto; lia).
  rewrite N.shiftl_spec_high' by lia. apply (small_bits_above _ _ _ IH). lia.
Qed.

Fixpoint scatter (n : nat) (D : N) (cs : list N) (b : N) : N :=
  match n with
  | O => 0
  | S m => N.lor (N.shiftl (N.b2n (N.testbit (nthN cs (N.to_nat (b mod D))) (b / D))) b) (scatter m D cs (b + 1))
  end.
Lemma scatter_spec n D cs : forall b j,
  N.testbit (scatter n D cs b) j =
  if (b <=? j) && (j <? b + N.of_nat n) then N.testbit (nthN cs (N.to_nat (j mod D))) (j / D) else false.
Proof.
  induction n; intros b j.
  - cbn [scatter]. rewrite N.bits_0. destruct (N.leb_spec b j), (N.ltb_spec j (b + N.of_nat 0)); cbn; auto; lia.
  - cbn [scatter]. rewrite N.lor_spec, IHn.
    set (t := N.testbit (nthN cs (N.to_nat (b mod D))) (b / D)).
    assert (E: N.testbit (N.shiftl (N.b2n t) b) j = if j =? b then t else false).
    { destruct (N.eqb_spec j b) as [EQ|NE]; [subst j|].
      - rewrite N.shiftl_spec_high', N.sub_diag by lia. apply N.b2n_bit0.
      - destruct (N.lt_ge_cases j b); [now rewrite N.shiftl_spec_low|].
        rewrite N.shiftl_spec_high' by lia.
        destruct t; [|apply N.bits_0].
        apply N.bits_above_log2. change (N.log2 (N.b2n true)) with 0. lia. }
    rewrite E.
    destruct (N.eqb_spec j b) as [EQ|NE]; [subst j|].
    + destruct (N.leb_spec (b+1) b), (N.leb_spec b b), (N.ltb_spec b (b + N.of_nat (S n))); cbn [andb orb]; try lia.
      apply orb_false_r.
    + destruct (N.leb_spec (b+1) j), (N.leb_spec b j), (N.ltb_spec j (b + N.of_nat (S n))),
        (N.ltb_spec j (b+1+N.of_nat n)); cbn [andb orb]; auto; lia.
Qed.
Lemma lin_scatter n D (cs : N -> list N) :
  (forall i, lin (fun x => nthN (cs x) i)) -> forall b, lin (fun x => scatter n D (cs x) b).
Proof.
  intros H. induction n; intros b; cbn [scatter]; [apply lin_0|].
  apply lin_lor; [|auto]. apply lin_shl. apply (lin_b2n (b / D) (fun x => nthN (cs x) _)). apply H.
Qed.

Lemma lin_unpack bits : forall f, lin f -> forall i, lin (fun x => nthN (unpack bits (f x)) i).
Proof.
  induction bits as [|b r IH]; intros f Hf i.
  - unfold nthN; destruct i; apply lin_0.
  - destruct i as [|i]; cbn [unpack nthN nth].
    + now apply lin_land.
    + apply (IH (fun x => N.shiftr (f x) 32)). now apply lin_shr.
Qed.

(** How many bits of each coordinate the debug assertions of Deposit<2..4> (Generic.inl:134,154-156,183) admit;
    for D = 1 and D = 5 the loop encodes 32/D bits. *)
Definition fit_bits (D : N) : list N :=
  if D =? 1 then [32] else if D =? 2 then [16;16] else if D =? 3 then [11;11;10]
  else if D =? 4 then [8;8;8;8] else [6;6;6;6;6].

Lemma lin_deposit_bmi2 D (cs : N -> list N) :
  (forall i, lin (fun x => nthN (cs x) i)) -> lin (fun x => deposit_bmi2 D (cs x)).
Proof.
  intro H. unfold deposit_bmi2. generalize (seq 0 (N.to_nat D)). intro l.
  assert (G: forall f, lin f -> lin (fun x => fold_left (fun result i => N.lor result (pdep_u32 (nthN (cs x) i)
      (w32 (N.shiftl (kEveryDthBit D) (N.of_nat i))))) l (f x))).
  { induction l as [|a l IH]; intros f Hf; cbn [fold_left]; [exact Hf|].
    apply (IH (fun x => N.lor (f x) (pdep_u32 (nthN (cs x) a) _))).
    apply lin_lor; [exact Hf|]. apply (lin_pdep 32 _ 0 0 (fun x => nthN (cs x) a)). apply H. }
  apply (G (fun _ => 0)), lin_0.
Qed.
Lemma lin_deposit_loop D (cs : N -> list N) :
  (forall i, lin (fun x => nthN (cs x) i)) -> lin (fun x => deposit_loop D (cs x)).
Proof.
  intro H. unfold deposit_loop. generalize (seq 0 (N.to_nat D)), (seq 0 (N.to_nat (32/D))). intros l m.
  assert (G: forall k f, lin f -> lin (fun x => fold_left (fun result d => N.lor result 
     (w32 (N.shiftl (N.land (N.shiftr (nthN (cs x) d) (N.of_nat k)) 1) (N.of_nat k * D + N.of_nat d)))) l (f x))).
  { intros k. induction l as [|a l IH]; intros f Hf; cbn [fold_left]; [exact Hf|].
    apply (IH (fun x => N.lor (f x) (w32 (N.shiftl (N.land (N.shiftr (nthN (cs x) a) (N.of_nat k)) 1) _)))).
    apply lin_lor; [exact Hf|]. apply lin_w32, lin_shl, lin_land, lin_shr. apply H. }
  assert (G2: forall f, lin f -> lin (fun x => fold_left (fun result k => fold_left (fun result d => N.lor result 
     (w32 (N.shiftl (N.land (N.shiftr (nthN (cs x) d) (N.of_nat k)) 1) (N.of_nat k * D + N.of_nat d)))) l result) m (f x))).
  { induction m as [|k m IH]; intros f Hf; cbn [fold_left]; [exact Hf|].
    apply (IH (fun x => fold_left _ l (f x))). now apply G. }
  apply (G2 (fun _ => 0)), lin_0.
Qed.
Lemma lin_spread3 f : lin f -> lin (fun x => spread3 (f x)).
Proof. intro H. unfold spread3; cbv zeta. lin_tac; exact H. Qed.
Lemma lin_spread4 f : lin f -> lin (fun x => spread4 (f x)).
Proof. intro H. unfold spread4; cbv zeta. lin_tac; exact H. Qed.

Lemma lin_deposit bmi2 D (cs : N -> list N) :
  (forall i, lin (fun x => nthN (cs x) i)) -> lin (fun x => deposit bmi2 D (cs x)).
Proof.
  intro H. unfold deposit. destruct bmi2; [now apply lin_deposit_bmi2|].
  unfold deposit_generic. destruct (D =? 2); [|destruct (D =? 3); [|destruct (D =? 4)]].
  - unfold deposit2; cbv zeta. lin_tac; apply H.
  - unfold deposit3; cbv zeta. apply lin_lor; [apply lin_lor|]; try apply lin_w32, lin_shl; apply lin_spread3, H.
  - unfold deposit4; cbv zeta. apply lin_w32, lin_lor; [|apply lin_w64, lin_shl]; apply lin_spread4; lin_tac; apply H.
  - unfold deposit_default. destruct (D =? 1); [apply H|]. now apply lin_deposit_loop.
Qed.

Lemma deposit_unpack bmi2 D x : dim_ok D -> x < 2^(32 * D) ->
  deposit bmi2 D (unpack (fit_bits D) x) = scatter 32 D (unpack (fit_bits D) x) 0.
Proof.
  intros HD Hx.
  refine (lin_basis (N.to_nat (32 * D)) (fun x => deposit bmi2 D (unpack (fit_bits D) x))
           (fun x => scatter 32 D (unpack (fit_bits D) x) 0) _ _ _ x _).
  - apply lin_deposit. apply (lin_unpack _ (fun x => x)), lin_id.
  - apply lin_scatter. apply (lin_unpack _ (fun x => x)), lin_id.
  - destruct bmi2; destruct (dim_cases _ HD) as [->|[->|[->|[->| ->]]]]; vm_compute; reflexivity.
  - now rewrite N2Nat.id.
Qed.

Lemma deposit_eq_scatter bmi2 D coords : dim_ok D ->
  Forall2 (fun b c => c < 2^b) (fit_bits D) coords ->
  deposit bmi2 D coords = scatter 32 D coords 0.
Proof.
  intros HD HF.
  assert (F2: Forall2 (fun b c => b <= 32 /\ c < 2^b) (fit_bits D) coords).
  { assert (B: Forall (fun b => b <= 32) (fit_bits D)).
    { destruct (dim_cases _ HD) as [->|[->|[->|[->| ->]]]]; cbn; repeat constructor; lia. }
    clear -HF B. induction HF; constructor; inversion B; subst; auto. }
  rewrite <- (unpack_pack _ _ F2). apply deposit_unpack; auto.
  assert (L: length coords = N.to_nat D).
  { rewrite <- (Forall2_len _ _ _ HF). now destruct (dim_cases _ HD) as [->|[->|[->|[->| ->]]]]. }
  assert (HB: Forall (fun c => c < 2^32) coords).
  { clear -F2. induction F2 as [|b c ? ? [? ?]]; constructor; auto.
    eapply N.lt_le_trans; [eassumption|]. now apply N.pow_le_mono_r. }
  apply pack_bound in HB. rewrite L, N2Nat.id in HB. exact HB.
Qed.

(** ** The facts used by the rest of the development *)
Definition fits (D : N) (coords : list N) : Prop :=
  length coords = N.to_nat D /\ forall i, nthN coords i < 2^(32 / D).

Lemma fits_Forall2 D coords : dim_ok D -> fits D coords -> Forall2 (fun b c => c < 2^b) (fit_bits D) coords.
Proof.
  intros HD [HL HB].
  destruct (dim_cases _ HD) as [->|[->|[->|[->| ->]]]]; cbn [fit_bits N.eqb Pos.eqb];
  repeat (destruct coords as [|? coords]; [discriminate HL|]); destruct coords; try discriminate HL;
  pose proof (HB 0%nat); pose proof (HB 1%nat); pose proof (HB 2%nat); pose proof (HB 3%nat); pose proof (HB 4%nat);
  unfold nthN in *; cbn [nth] in *;
  repeat constructor; (eapply N.lt_le_trans; [eassumption|]); vm_compute; discriminate.
Qed.

Lemma extract_length bmi2 D cell : dim_ok D -> cell < 2^32 -> length (extract bmi2 D cell) = N.to_nat D.
Proof. intros; rewrite extract_eq_spec by auto. unfold spec_extract. now rewrite map_length, seq_length. Qed.

Lemma extract_bit bmi2 D cell i k : dim_ok D -> cell < 2^32 -> (i < N.to_nat D)%nat ->
  N.testbit (nthN (extract bmi2 D cell) i) k = N.testbit cell (k * D + N.of_nat i).
Proof.
  intros HD Hc Hi. rewrite extract_eq_spec by auto. unfold spec_extract, nthN.
  rewrite (nth_indep _ 0 (gather 32 D (N.of_nat 0) cell 0)) by (now rewrite map_length, seq_length).
  rewrite (map_nth (fun i => gather 32 D (N.of_nat i) cell 0)). rewrite seq_nth by auto.
  rewrite gather_spec. cbn [N.leb N.compare Nat.add].
  destruct (N.ltb_spec k (0 + N.of_nat 32)).
  - now destruct k.
  - replace (0 <=? k) with true by (destruct k; reflexivity). cbn [andb].
    symmetry. apply (small_bits_above _ _ _ Hc). unfold dim_ok in HD. change (N.of_nat 32) with 32 in *. nia.
Qed.

Lemma extract_bound bmi2 D cell i l : dim_ok D -> cell < 2^32 -> cell < 2^(D*l) -> nthN (extract bmi2 D cell) i < 2^l.
Proof.
  intros HD Hc Hl. destruct (Nat.lt_ge_cases i (N.to_nat D)) as [Hi|Hi].
  - apply small_from_bits. intros k Hk. rewrite extract_bit by auto.
    apply (small_bits_above _ _ _ Hl). unfold dim_ok in HD. nia.
  - unfold nthN. rewrite nth_overflow by (now rewrite extract_length). apply N.neq_0_lt_0, N.pow_nonzero. lia.
Qed.

Lemma deposit_bit bmi2 D coords b : dim_ok D -> fits D coords ->
  N.testbit (deposit bmi2 D coords) b = N.testbit (nthN coords (N.to_nat (b mod D))) (b / D).
Proof.
  intros HD HF. rewrite (deposit_eq_scatter bmi2 D coords HD (fits_Forall2 _ _ HD HF)).
  rewrite scatter_spec. replace (0 <=? b) with true by (destruct b; reflexivity). cbn [andb].
  destruct (N.ltb_spec b (0 + N.of_nat 32)) as [L|L]; [reflexivity|]. 
  symmetry. apply (small_bits_above _ (32/D)). { apply HF. }
  unfold dim_ok in HD. apply N.div_le_mono; [lia|]. change (N.of_nat 32) with 32 in L. lia.
Qed.

Lemma deposit_bound bmi2 D coords l : dim_ok D -> l * D <= 32 -> length coords = N.to_nat D ->
  (forall i, nthN coords i < 2^l) -> deposit bmi2 D coords < 2^(D*l).
Proof.
  intros HD Hl HL HB. assert (HF: fits D coords).
  { split; auto. intro i. eapply N.lt_le_trans; [apply HB|]. apply N.pow_le_mono_r; [lia|].
    apply N.div_le_lower_bound; unfold dim_ok in HD; nia. }
  apply small_from_bits. intros b Hb. rewrite deposit_bit by auto.
  apply (small_bits_above _ l). { apply HB. }
  apply N.div_le_lower_bound; unfold dim_ok in HD; nia.
Qed.

Lemma extract_deposit bmi2 bmi2' D coords : dim_ok D -> fits D coords ->
  extract bmi2 D (deposit bmi2' D coords) = coords.
Proof.
  intros HD HF.
  assert (HDm: 0 < D) by (unfold dim_ok in HD; lia).
  assert (B: deposit bmi2' D coords < 2^32).
  { apply small_from_bits. intros b Hb. rewrite deposit_bit by auto.
    apply (small_bits_above _ (32/D)); [apply HF|]. apply N.div_le_mono; lia. }
  apply nth_ext with (d := 0) (d' := 0).
  - rewrite extract_length by auto. symmetry; apply HF.
  - intros i Hi. rewrite extract_length in Hi by auto.
    apply N.bits_inj; intro k. fold (nthN (extract bmi2 D (deposit bmi2' D coords)) i). rewrite extract_bit by auto.
    rewrite deposit_bit by auto.
    replace ((k * D + N.of_nat i) mod D) with (N.of_nat i) by
      (rewrite N.add_comm, N.mod_add, N.mod_small; lia).
    rewrite Nat2N.id. replace ((k * D + N.of_nat i) / D) with k; [reflexivity|].
    rewrite N.add_comm, N.div_add, N.div_small; lia.
Qed.

Lemma deposit_extract bmi2 bmi2' D x : dim_ok D -> x < 2^(D * (32/D)) ->
  deposit bmi2 D (extract bmi2' D x) = x.
Proof.
  intros HD Hx.
  assert (HDm: 0 < D) by (unfold dim_ok in HD; lia).
  assert (Hx32: x < 2^32).
  { eapply N.lt_le_trans; [exact Hx|]. apply N.pow_le_mono_r; [lia|]. apply N.mul_div_le. lia. }
  assert (HF: fits D (extract bmi2' D x)).
  { split; [now apply extract_length|]. intro i. now apply extract_bound. }
  apply N.bits_inj; intro b. rewrite deposit_bit by auto.
  rewrite extract_bit; auto.
  - rewrite N2Nat.id. f_equal. rewrite N.mul_comm. symmetry. apply N.div_mod. lia.
  - pose proof (N.mod_lt b D ltac:(lia)). lia.
Qed.
