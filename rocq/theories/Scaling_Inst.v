(** The two estimators as instances of the capped kernel. *)
From Coq Require Import Arith NArith ZArith List Bool Reals Lia Lra Psatz Sorting.Sorted Permutation.
From Flocq Require Import Core.
From Verif Require Import Base Scaling_Model Scaling_Lazy Scaling_Loops Scaling_Thr.
Import ListNotations.
Local Open Scope R_scope.

Lemma sorted_ext {A} (P : A -> Prop) (r s : A -> A -> Prop) l : (forall x, In x l -> P x) -> (forall x y, P x -> P y -> r x y -> s x y) -> StronglySorted r l -> StronglySorted s l.
Proof.
  intros HP H. induction 1 as [|a l Hs IH Hf]; [constructor|]. constructor; [apply IH; intros; apply HP; now right|]. rewrite Forall_forall in *. intros y Hy. apply H; auto; apply HP; [now left|now right].
Qed.

Section I.
  Variable ws : list R.
  Hypothesis V : valid_weights ws.
  Hypothesis Hne : ws <> [].
  Let W := sum_by (fun w => w) ws.
  Lemma W_pos : 0 < W.
  Proof. apply sumf_pos; [exact Hne|]. intros x Hx. now apply (valid_pos ws). Qed.
  Lemma n_pos : 0 < INR (length ws).
  Proof. apply lt_0_INR. destruct ws; [congruence|cbn; lia]. Qed.

  (** ** threshold *)
  Definition idR (z : R) : R := z.
  Definition qthr (d : nat) (c : R) : R := (2 * c) ^ d / W.
  Theorem threshold_est d st c v st' : 0 < c -> lazy_inv ws st -> threshold_f ws d st c v st' -> lazy_inv ws st' /\ est idR ws (qthr d c) v.
  Proof.
    intros Hc I (k & Hs & Hv). destruct (query_correct _ _ _ _ _ V I Hs) as (I' & Q & _ & _). split; [exact I'|].
    pose proof W_pos as HW. pose proof n_pos as Hn. fold W in Q, Hv. set (p := (2 * c) ^ d) in *. cbv zeta in Hv. assert (Hp : 0 < p) by (apply pow_lt; lra).
    set (q := qthr d c). assert (Eq : q = p / W) by reflexivity. assert (Hq : 0 < q) by (rewrite Eq; apply Rdiv_lt_0_compat; lra).
    assert (E1 : W / p = 1 / q) by (rewrite Eq; field; lra). rewrite E1 in Q. exists k, (larr st'). split; [exact Q|].
    pose proof (club_sum idR eq_refl ws V q k (larr st') Hq Q) as CS. pose proof (club_pos ws V _ _ _ Q) as CP. destruct Q as [QP Qk QS QI QO].
    set (L := firstn k (larr st')) in *. assert (Lpos : forall x, In x L -> 0 < x) by (intros x Hx; now apply CP).
    assert (Ht : forall w, 0 < w -> 1 / (w / W) / p = 1 / q / w). { intros w Hw. rewrite Eq. field. repeat split; lra. }
    assert (HL : threshold_loop W p (rev (with_index L)) L 0 0 0 = sumf (cterm (1 / q) (kern idR q) L) (with_index L)).
    { pose proof (threshold_loop_eq W p L (rev (with_index L)) 0 0) as E. cbn [skipn firstn] in E. rewrite sumf_nil in E. rewrite E; clear E.
      - rewrite Rplus_0_l, (sumf_perm _ (rev (with_index L)) (with_index L)) by (symmetry; apply Permutation_rev).
        apply sumf_ext. intros [i w] Hin. apply in_with_index in Hin. assert (Hw : 0 < w) by (apply Lpos; eapply nth_error_In; exact Hin).
        cbn [thr_term cterm]. rewrite (Ht w Hw). fold (ci (1 / q) L w). unfold kern, idR. f_equal.
        + rewrite sumf_minus, sumf_const, firstn_length_le by apply pfx_le. rewrite Rmult_1_l. f_equal.
          rewrite (sumf_ext (fun y => q * (w * y)) (fun x => x * (p * (w / W)))) by (intros; rewrite Eq; field; lra). rewrite sumf_scal_r. lra.
        + destruct (i <=? ci (1 / q) L w)%nat; [|reflexivity]. rewrite Eq. field. lra.
      - pose proof (rev_sorted (1 / q) L ltac:(apply Rdiv_lt_0_compat; lra) QS Lpos) as RS.
        eapply (sorted_ext (fun iw => 0 < snd iw)); [| |exact RS].
        + intros [i w] H. apply in_rev in H. apply in_with_index in H. apply Lpos. eapply nth_error_In; exact H.
        + intros x y Hx Hy H. now rewrite !Ht.
      - apply Forall_forall. intros; lia. }
    rewrite HL, CS in Hv. clear HL CS.
    assert (HO : p * (W - sum_by (fun w => w * w) ws / W) = psum (kern idR q) ws).
    { unfold psum, kern, idR. rewrite (sumf_ext (fun x => sumf (fun y => q * (x * y)) ws) (fun x => x * p)).
      - rewrite sumf_scal_r. change (sumf (fun x => x) ws) with W. rewrite (sumf_ext (fun x => q * (x * x)) (fun x => (x * x) * (p / W))) by (intros; rewrite Eq; field; lra).
        rewrite sumf_scal_r. rewrite !sum_by_sumf. field. lra.
      - intros x _. rewrite (sumf_ext (fun y => q * (x * y)) (fun y => y * (p * x / W))) by (intros; rewrite Eq; field; lra). rewrite sumf_scal_r. change (sumf (fun y => y) ws) with W. field. lra. }
    rewrite HO in Hv. rewrite Hv. field_simplify; [|lra]. lra.
  Qed.

  (** ** finite alpha *)
  Variable alpha : R.
  Hypothesis Ha0 : 0 < alpha.
  Hypothesis Ha1 : alpha <> 1.
  Definition phi_gen (z : R) : R := z * (1 + 1 / (alpha - 1)) - Rpower z alpha / (alpha - 1).
  Definition qgen (d : nat) (c : R) : R := 2 ^ d * Rpower c (1 / alpha) / W.
  Lemma phi_gen_1 : phi_gen 1 = 1.
  Proof. unfold phi_gen. unfold Rpower; rewrite ln_1, Rmult_0_r, exp_0. field. lra. Qed.
  Definition pw (w : R) : R := Rpower w alpha.

  Lemma advance_i2_eq t rest j s sa : advance_i2 t (map (fun w => (w, pw w)) rest) j s sa =
    (map (fun w => (w, pw w)) (skipn (pfx t rest) rest), (j + pfx t rest)%nat, s + sumf (fun x => x) (firstn (pfx t rest) rest), sa + sumf pw (firstn (pfx t rest) rest)).
  Proof.
    revert j s sa. induction rest as [|x r IH]; intros j s sa; cbn [advance_i2 pfx map].
    - rewrite Nat.add_0_r. cbn. f_equal; [f_equal|]; lra.
    - destruct (Rge_dec x t); [|cbn [skipn firstn map]; rewrite Nat.add_0_r, !sumf_nil; f_equal; [f_equal|]; lra]. rewrite IH. cbn [skipn firstn]. rewrite !sumf_cons. f_equal; [f_equal; [f_equal; lia|lra]|lra].
  Qed.
  Definition gtw (Wx : R) (f : R -> R) (thr : R) (L : list R) (iw : nat * R) : R :=
    let '(i, w) := iw in let c := pfx (thr / w) L in f w * sumf f (firstn c L) / Wx - (if (i <=? c)%nat then f w * f w / Wx else 0).
  Definition gtn (thr : R) (L : list R) (iw : nat * R) : Z :=
    let '(i, w) := iw in let c := pfx (thr / w) L in (Z.of_nat c - (if (i <=? c)%nat then 1 else 0))%Z.
  Definition zsum {A} (f : A -> Z) (l : list A) : Z := fold_right Z.add 0%Z (map f l).
  Lemma general_loop_eq th Wa L is j num wt wat : (num < 2 ^ 64)%N ->
    StronglySorted (fun a b => th * W / snd b <= th * W / snd a) is ->
    Forall (fun iw => (j <= pfx (th * W / snd iw) L)%nat) is ->
    exists num', general_loop th W Wa (map (fun iw => (fst iw, (snd iw, pw (snd iw)))) is) (map (fun w => (w, pw w)) (skipn j L)) j
      (sumf (fun x => x) (firstn j L)) (sumf pw (firstn j L)) num wt wat =
      (num', wt + sumf (gtw W (fun x => x) (th * W) L) is, wat + sumf (gtw Wa pw (th * W) L) is) /\ (num' < 2 ^ 64)%N /\
      (Z.of_N num' mod 2 ^ 64 = (Z.of_N num + zsum (gtn (th * W) L) is) mod 2 ^ 64)%Z.
  Proof.
    intros Hnum Hs. revert j num wt wat Hnum. induction Hs as [|[i w] is Hs IH Hf]; intros j num wt wat Hnum Hj.
    - exists num. cbn. split; [f_equal; [f_equal|]; lra|]. split; [exact Hnum|]. now rewrite Z.add_0_r.
    - inversion_clear Hj as [|? ? Hj0 Hj']. cbn [snd] in Hj0. cbn [general_loop map fst snd]. rewrite advance_i2_eq.
      set (t := th * W / w) in *. set (c := pfx t L). rewrite (pfx_skip t L j Hj0), skipn_skipn'. fold c. replace (j + (c - j))%nat with c by (unfold c; lia).
      rewrite !sumf_firstn_skip by exact Hj0.
      assert (Hc : Forall (fun iw => (c <= pfx (th * W / snd iw) L)%nat) is).
      { eapply Forall_impl; [|exact Hf]. intros [i' w'] H. cbn [snd] in *. apply pfx_mono. exact H. }
      assert (Ew : gtw W (fun x => x) (th * W) L (i, w) = w * sumf (fun x => x) (firstn c L) / W - (if (i <=? c)%nat then w * w / W else 0)) by reflexivity.
      assert (Ea : gtw Wa pw (th * W) L (i, w) = pw w * sumf pw (firstn c L) / Wa - (if (i <=? c)%nat then pw w * pw w / Wa else 0)) by reflexivity.
      assert (En : zsum (gtn (th * W) L) ((i, w) :: is) = (Z.of_nat c - (if (i <=? c)%nat then 1 else 0) + zsum (gtn (th * W) L) is)%Z) by reflexivity.
      assert (Hb : forall m, (w64 m < 2 ^ 64)%N) by (intros m; unfold w64; rewrite N.land_ones; apply N.mod_lt; discriminate).
      assert (Hz : forall m, Z.of_N (w64 m) = (Z.of_N m mod 2 ^ 64)%Z) by (intros m; unfold w64; rewrite N.land_ones; now rewrite N2Z.inj_mod).
      rewrite En, !sumf_cons, Ew, Ea. clear En Ew Ea.
      destruct (i <=? c)%nat.
      + destruct (IH c (w64 (w64 (num + N.of_nat c) + (2 ^ 64 - 1))) (wt + w * sumf (fun x => x) (firstn c L) / W - w * w / W) (wat + pw w * sumf pw (firstn c L) / Wa - pw w * pw w / Wa) (Hb _) Hc) as (num' & E & B & M).
        exists num'. split; [rewrite E; f_equal; [f_equal|]; lra|]. split; [exact B|]. rewrite M, Hz, N2Z.inj_add, Hz, N2Z.inj_add, nat_N_Z.
        change (Z.of_N (2 ^ 64 - 1)) with (2 ^ 64 - 1)%Z. rewrite Zplus_mod_idemp_l, <- Zplus_assoc, Zplus_mod_idemp_l.
        replace (Z.of_N num + Z.of_nat c + (2 ^ 64 - 1 + zsum (gtn (th * W) L) is))%Z with (Z.of_N num + (Z.of_nat c - 1 + zsum (gtn (th * W) L) is) + 1 * 2 ^ 64)%Z by ring. apply Z_mod_plus_full.
      + destruct (IH c (w64 (num + N.of_nat c)) (wt + w * sumf (fun x => x) (firstn c L) / W) (wat + pw w * sumf pw (firstn c L) / Wa) (Hb _) Hc) as (num' & E & B & M).
        exists num'. split; [rewrite E; f_equal; [f_equal|]; lra|]. split; [exact B|]. rewrite M, Hz, N2Z.inj_add, nat_N_Z, Zplus_mod_idemp_l. f_equal. ring.
  Qed.
  Lemma zsum_bounds (f : nat * R -> Z) l b : (forall x, In x l -> (0 <= f x <= b)%Z) -> (0 <= zsum f l <= b * Z.of_nat (length l))%Z.
  Proof.
    induction l as [|x l IH]; intros H; [cbn; lia|]. change (zsum f (x :: l)) with (f x + zsum f l)%Z. cbn [length]. rewrite Nat2Z.inj_succ.
    pose proof (H x (or_introl eq_refl)). specialize (IH (fun y Hy => H y (or_intror Hy))). lia.
  Qed.
  Lemma zsum_perm (f : nat * R -> Z) a b : Permutation a b -> zsum f a = zsum f b.
  Proof. unfold zsum. induction 1; cbn in *; lia. Qed.
  Lemma zsum_IZR (f : nat * R -> Z) l : IZR (zsum f l) = sumf (fun x => IZR (f x)) l.
  Proof. induction l as [|x l IH]; [reflexivity|]. change (zsum f (x :: l)) with (f x + zsum f l)%Z. rewrite plus_IZR, IH. reflexivity. Qed.

  (** the cache *)
  Definition gen_inv (st : lazy * list R) : Prop := lazy_inv ws (fst st) /\ (length (snd st) <= lend (fst st))%nat /\ snd st = map pw (firstn (length (snd st)) (larr (fst st))).
  Lemma gen_inv_init : gen_inv (lazy_init ws, []).
  Proof. split; [now apply inv_init|]. cbn. split; [lia|reflexivity]. Qed.

  Lemma firstn_le_eq {A} a b (l l' : list A) : (a <= b)%nat -> firstn b l = firstn b l' -> firstn a l = firstn a l'.
  Proof. intros H E. rewrite <- (Nat.min_l a b H), <- !firstn_firstn, E. reflexivity. Qed.

  Lemma new_cache st lz' cache k : gen_inv (st, cache) -> extends st lz' -> lazy_inv ws lz' -> (k <= lend lz')%nat ->
    let L := firstn k (larr lz') in let cache' := cache ++ map (fun w => Rpower w alpha) (skipn (length cache) L) in
    combine L cache' = map (fun w => (w, pw w)) L /\ (length cache' <= lend lz')%nat /\ cache' = map pw (firstn (length cache') (larr lz')).
  Proof.
    intros (I & Lc & Ec) [EX1 EX2] I' Hk L cache'. cbn [fst snd] in *. pose proof (li_end _ _ I') as LE.
    assert (E : firstn (length cache) (larr st) = firstn (length cache) (larr lz')). { eapply firstn_le_eq; [exact Lc|]. symmetry; exact EX2. }
    assert (Ec' : cache = map pw (firstn (length cache) (larr lz'))) by congruence. clear Ec E.
    assert (LL : length L = k) by (apply firstn_length_le; lia).
    destruct (Nat.le_gt_cases (length cache) k) as [C|C].
    - assert (EC : cache' = map pw L).
      { unfold cache'. rewrite <- (firstn_skipn (length cache) L) at 2. rewrite map_app. f_equal. rewrite Ec' at 1. unfold L. rewrite firstn_firstn, Nat.min_l by exact C. reflexivity. }
      rewrite EC. split; [|split].
      + clear. induction L as [|x L IH]; cbn; [reflexivity|]. now rewrite IH.
      + rewrite map_length. lia.
      + rewrite map_length. unfold L. rewrite firstn_length_le by lia. reflexivity.
    - assert (EC : cache' = cache). { unfold cache'. rewrite skipn_all2 by lia. apply app_nil_r. }
      rewrite EC. split; [|split; [lia|exact Ec']]. rewrite Ec'. unfold L. clear -C. generalize (larr lz') as l. revert C. generalize (length cache) as m. intros m. revert m.
      induction k as [|k IH]; intros m C l; [reflexivity|]. destruct m as [|m]; [lia|]. destruct l as [|x l]; [reflexivity|]. cbn. now rewrite IH by lia.
  Qed.

  Lemma Rpower_div x y a : 0 < x -> 0 < y -> Rpower (x / y) a = Rpower x a / Rpower y a.
  Proof. intros Hx Hy. unfold Rdiv. rewrite <- Rpower_mult_distr; [|assumption|now apply Rinv_0_lt_compat]. f_equal. unfold Rpower. rewrite ln_Rinv by assumption. rewrite <- exp_Ropp. f_equal. ring. Qed.

  Theorem general_est d st c v st' : (d >= 1)%nat -> (N.of_nat (length ws) < 2 ^ 31)%N -> 0 < c -> gen_inv st -> general_f ws d alpha st c v st' -> gen_inv st' /\ est phi_gen ws (qgen d c) v.
  Proof.
    intros Hd Hlen Hc I (k & Hs & Hv). destruct st as [lz cache], st' as [lz' cache']. pose proof I as (I0 & _). cbn [fst snd] in *.
    pose proof W_pos as HW. pose proof n_pos as Hn. fold W in Hv, Hs. pose proof (max_from_in ws Hne (fun x Hx => valid_pos ws x V Hx)) as Hmi. pose proof (valid_pos ws _ V Hmi) as Hm.
    set (q := qgen d c) in *. set (C := Rpower c (1 / alpha)) in *. assert (HC : 0 < C) by apply exp_pos. assert (H2 : 0 < 2 ^ d) by (apply pow_lt; lra).
    assert (Eq : q = 2 ^ d * C / W) by reflexivity. assert (Hq : 0 < q) by (rewrite Eq; apply Rdiv_lt_0_compat; [apply Rmult_lt_0_compat|]; assumption).
    assert (Hid : 0 < INR d) by (apply lt_0_INR; lia).
    assert (Ert : exp (INR d * ln (1 / 2 / Rpower c (1 / alpha / INR d)) - ln (max_from 0 ws / W)) = 1 / q / max_from 0 ws).
    { rewrite Eq. unfold Rminus. rewrite exp_plus, exp_Ropp, exp_ln by (apply Rdiv_lt_0_compat; assumption).
      assert (E : exp (INR d * ln (1 / 2 / Rpower c (1 / alpha / INR d))) = 1 / (2 ^ d * C)).
      { change (Rpower (1 / 2 / Rpower c (1 / alpha / INR d)) (INR d) = 1 / (2 ^ d * C)). rewrite Rpower_div; [|lra|apply exp_pos]. rewrite Rpower_mult.
        replace (1 / alpha / INR d * INR d) with (1 / alpha) by (field; lra). fold C. rewrite Rpower_pow by lra. unfold Rdiv. rewrite Rmult_1_l, pow_inv by lra. field. lra. }
      rewrite E. field. repeat split; lra. }
    rewrite Ert in Hs. destruct (query_correct _ _ _ _ _ V I0 Hs) as (I' & Q & EX & Hk).
    destruct (new_cache lz lz' cache k I EX I' Hk) as (EC & Lc & Ecc).
    set (L := firstn k (larr lz')) in *.
    set (P2 := Rpower 2 (alpha * INR d)) in *. assert (HP2 : 0 < P2) by apply exp_pos.
    assert (Ez : forall x y, 0 < x -> 0 < y -> Rpower (q * (x * y)) alpha = c * P2 * (pw x * pw y / Rpower W alpha)).
    { intros x y Hx Hy. assert (0 < x * y) by nra. rewrite <- Rpower_mult_distr by assumption. rewrite <- (Rpower_mult_distr x y) by assumption.
      rewrite Eq, Rpower_div by (try assumption; apply Rmult_lt_0_compat; assumption). rewrite <- Rpower_mult_distr by assumption.
      unfold C. rewrite Rpower_mult. replace (1 / alpha * alpha) with 1 by (field; lra). rewrite Rpower_1 by assumption.
      rewrite <- (Rpower_pow d 2) by lra. rewrite Rpower_mult. rewrite (Rmult_comm (INR d)). fold P2. unfold pw. field. apply Rgt_not_eq, exp_pos. }
    set (Wa := Rpower W alpha) in *. assert (HWa : 0 < Wa) by apply exp_pos.
    set (A1 := 2 ^ d * C * (1 + 1 / (alpha - 1))). set (B1 := c * P2 / (alpha - 1)).
    assert (Ek : forall x y, 0 < x -> 0 < y -> kern phi_gen q x y = A1 * (x * y / W) - B1 * (pw x * pw y / Wa)).
    { intros x y Hx Hy. unfold kern, phi_gen. rewrite Ez by assumption. unfold A1, B1. rewrite Eq. field. repeat split; lra. }
    (* with_error *)
    assert (HO : C * ((W - sum_by (fun w => w * (w / W)) ws) * (1 + 1 / (alpha - 1)) * 2 ^ d) -
       c * (P2 / (alpha - 1) * (sum_by (fun w => Rpower w alpha) ws * sum_by (fun w => Rpower (w / W) alpha) ws - sum_by (fun w => Rpower w alpha * Rpower (w / W) alpha) ws)) = psum (kern phi_gen q) ws).
    { assert (PD : forall w, In w ws -> Rpower (w / W) alpha = pw w / Wa) by (intros w Hw; apply Rpower_div; [now apply (valid_pos ws)|assumption]).
      rewrite !sum_by_sumf. rewrite (sumf_ext (fun w => Rpower (w / W) alpha) (fun w => pw w * (/ Wa))) by (intros w Hw; rewrite PD by assumption; reflexivity).
      rewrite (sumf_ext (fun w => Rpower w alpha * Rpower (w / W) alpha) (fun w => (pw w * pw w) * (/ Wa))) by (intros w Hw; rewrite PD by assumption; unfold pw; field; lra).
      rewrite (sumf_ext (fun w => w * (w / W)) (fun w => (w * w) * (/ W))) by (intros; field; lra). rewrite !sumf_scal_r. change (sumf (fun w => Rpower w alpha) ws) with (sumf pw ws).
      unfold psum. rewrite (sumf_ext (fun x => kern phi_gen q x x) (fun x => (x * x) * (A1 / W) - (pw x * pw x) * (B1 / Wa))) by (intros x Hx; rewrite Ek by (now apply (valid_pos ws)); field; lra).
      rewrite (sumf_ext (fun x => sumf (kern phi_gen q x) ws) (fun x => x * (A1 / W * W) - pw x * (B1 / Wa * sumf pw ws))).
      - rewrite !sumf_minus, !sumf_scal_r. change (sumf (fun x => x) ws) with W. change (sumf (fun x => pw x) ws) with (sumf pw ws). unfold A1, B1. change (sum_by (fun w : R => Rpower w alpha) ws) with (sumf pw ws). field. repeat split; lra.
      - intros x Hx. rewrite (sumf_ext (kern phi_gen q x) (fun y => y * (A1 * x / W) - pw y * (B1 * pw x / Wa))) by (intros y Hy; rewrite Ek by (now apply (valid_pos ws)); field; lra).
        rewrite sumf_minus, !sumf_scal_r. change (sumf (fun x => x) ws) with W. field. lra. }
    rewrite HO in Hv. clear HO.
    pose proof (club_sum phi_gen phi_gen_1 ws V q k (larr lz') Hq Q) as CS. pose proof (club_pos ws V _ _ _ Q) as CP. fold L in CS, CP.
    assert (Lpos : forall x, In x L -> 0 < x) by (intros x Hx; now apply CP). pose proof (qo_sorted _ _ _ _ Q) as QS. fold L in QS.
    assert (Fin : INR (length ws) * v = psum (kern phi_gen q) ws - sumf (cterm (1 / q) (kern phi_gen q) L) (with_index L) /\ gen_inv (lz', cache')).
    2:{ destruct Fin as [Fin G]. split; [exact G|]. exists k, (larr lz'). split; [exact Q|]. fold L. rewrite Fin, CS. lra. }
    clear CS. destruct (Nat.eqb_spec k 0) as [K0|K0].
    { destruct Hv as [Hv ->]. split.
      - subst k. unfold L. cbn [firstn with_index length seq combine]. rewrite sumf_nil, Hv. field. lra.
      - split; [exact I'|]. destruct I as (_ & Lc0 & Ec0). destruct EX as [EX1 EX2]. cbn [fst snd] in *. split; [lia|]. rewrite Ec0 at 1. f_equal. eapply firstn_le_eq; [exact Lc0|]. symmetry; exact EX2. }
    set (nc := cache ++ map (fun w => Rpower w alpha) (skipn (length cache) L)) in *. rewrite EC in Hv.
    set (th := exp (ln (1 / 2) * INR d - ln c / alpha)) in *.
    assert (Eth : th * W = 1 / q).
    { unfold th, Rminus. rewrite exp_plus, exp_Ropp. replace (ln c / alpha) with (1 / alpha * ln c) by (field; lra). fold (Rpower c (1 / alpha)). fold C.
      replace (ln (1 / 2) * INR d) with (INR d * ln (1 / 2)) by ring. fold (Rpower (1 / 2) (INR d)). rewrite Rpower_pow by lra. unfold Rdiv at 1. rewrite Rmult_1_l, pow_inv by lra. rewrite Eq. field. repeat split; lra. }
    assert (Hidx : rev (combine (seq 0 (length (map (fun w => (w, pw w)) L))) (map (fun w => (w, pw w)) L)) = map (fun iw => (fst iw, (snd iw, pw (snd iw)))) (rev (with_index L))).
    { rewrite map_rev. f_equal. rewrite map_length. unfold with_index. generalize 0%nat. clear. induction L as [|x l IH]; intros s; cbn; [reflexivity|]. now rewrite IH. }
    rewrite Hidx in Hv.
    assert (RS : StronglySorted (fun a b : nat * R => th * W / snd b <= th * W / snd a) (rev (with_index L))).
    { rewrite Eth. apply rev_sorted; auto. apply Rdiv_lt_0_compat; lra. }
    destruct (general_loop_eq th Wa L (rev (with_index L)) 0 0 0 0 ltac:(reflexivity) RS) as (num' & EG & BN & MN); [apply Forall_forall; intros; lia|].
    cbn [skipn firstn] in EG. rewrite !sumf_nil in EG. rewrite EG in Hv. clear EG. destruct Hv as [Hv Hcc]. split.
    2:{ subst cache'. split; [exact I'|]. cbn [fst snd]. split; assumption. }
    rewrite Eth in *. rewrite !(sumf_perm _ (rev (with_index L)) (with_index L)) in Hv by (symmetry; apply Permutation_rev).
    rewrite (zsum_perm _ (rev (with_index L)) (with_index L)) in MN by (symmetry; apply Permutation_rev).
    (* num_terms *)
    assert (LLen : length L = k). { unfold L. apply firstn_length_le. pose proof (qo_k _ _ _ _ Q). pose proof (Permutation_length (qo_perm _ _ _ _ Q)). lia. }
    assert (Hnum : Z.of_N num' = zsum (gtn (1 / q) L) (with_index L)).
    { pose proof (zsum_bounds (gtn (1 / q) L) (with_index L) (Z.of_nat k)) as ZB.
      assert (forall x, In x (with_index L) -> (0 <= gtn (1 / q) L x <= Z.of_nat k)%Z).
      { intros [i w] Hin. apply in_with_index in Hin. cbn [gtn]. pose proof (pfx_le (1 / q / w) L) as PL. set (cc := pfx (1 / q / w) L) in *. split.
        - destruct (Nat.leb_spec i cc); [|lia]. assert (cc <> 0)%nat; [|lia]. intros E0. assert (i = 0)%nat by lia. subst i.
          assert (Hmax : w = max_from 0 ws).
          { assert (HmL : In (max_from 0 ws) L).
            { pose proof (Permutation_in _ (Permutation_sym (qo_perm _ _ _ _ Q)) Hmi) as HmA. rewrite <- (firstn_skipn k (larr lz')) in HmA. apply in_app_or in HmA as [HmA|HmA]; [exact HmA|].
              pose proof (qo_out _ _ _ _ Q) as QO. pose proof (qo_in _ _ _ _ Q) as QI. rewrite Forall_forall in QO, QI. specialize (QO _ HmA). fold L in QI. specialize (QI w (nth_error_In _ _ Hin)).
              destruct (max_from_ge 0 ws) as [_ G]. specialize (G w (proj1 (CP w (nth_error_In _ _ Hin)))). replace (max_from 0 ws) with w by lra. eapply nth_error_In; exact Hin. }
            destruct (max_from_ge 0 ws) as [_ G]. specialize (G w (proj1 (CP w (nth_error_In _ _ Hin)))).
            destruct L as [|y L0]; [discriminate|]. cbn in Hin. injection Hin as ->. inversion_clear QS as [|? ? ? Hf]. destruct HmL as [E|HmL]; [exact E|]. rewrite Forall_forall in Hf. specialize (Hf _ HmL). lra. }
          pose proof (qo_in _ _ _ _ Q) as QI. fold L in QI. rewrite Forall_forall in QI. specialize (QI w (nth_error_In _ _ Hin)). rewrite <- Hmax in QI.
          apply (pfx_nth _ _ _ _ QS Hin) in QI. fold cc in QI. lia.
        - destruct (i <=? cc)%nat; lia. }
      specialize (ZB H). assert (length (with_index L) = k). { unfold with_index. rewrite combine_length, seq_length, LLen. lia. }
      rewrite H0 in ZB. pose proof (qo_k _ _ _ _ Q) as Kn.
      rewrite Z.add_0_l in MN. rewrite Z.mod_small in MN by lia. rewrite Z.mod_small in MN; [exact MN|]. split; [lia|].
      assert (Z.of_nat k < 2 ^ 31)%Z by lia. apply Z.le_lt_trans with (Z.of_nat k * Z.of_nat k)%Z; [lia|]. apply Z.le_lt_trans with (2 ^ 31 * 2 ^ 31)%Z; [|reflexivity]. apply Z.mul_le_mono_nonneg; lia. }
    assert (HS : forall iw, In iw (with_index L) -> cterm (1 / q) (kern phi_gen q) L iw = A1 * gtw W (fun x => x) (1 / q) L iw - B1 * gtw Wa pw (1 / q) L iw - IZR (gtn (1 / q) L iw)).
    { intros [i w] Hin. apply in_with_index in Hin. assert (Hw : 0 < w) by (apply Lpos; eapply nth_error_In; exact Hin). cbn [cterm gtw gtn]. unfold ci. set (cc := pfx (1 / q / w) L).
      assert (E : sumf (fun y => kern phi_gen q w y - 1) (firstn cc L) = A1 * (w * sumf (fun x => x) (firstn cc L) / W) - B1 * (pw w * sumf pw (firstn cc L) / Wa) - INR cc).
      { rewrite (sumf_ext _ (fun y => y * (A1 * w / W) - pw y * (B1 * pw w / Wa) - 1)).
        - rewrite !sumf_minus, !sumf_scal_r, sumf_const, firstn_length_le by apply pfx_le. field. lra.
        - intros y Hy. rewrite Ek; [field; lra|exact Hw|]. apply Lpos. rewrite <- (firstn_skipn cc L). apply in_or_app. now left. }
      rewrite E. rewrite minus_IZR, <- INR_IZR_INZ. destruct (i <=? cc)%nat; [rewrite Ek by assumption|]; ring. }
    rewrite (sumf_ext _ _ _ HS). rewrite !sumf_minus, !sumf_scal, <- zsum_IZR, <- Hnum. rewrite Hv. clear HS.
    set (T1 := sumf (gtw W (fun x => x) (1 / q) L) (with_index L)). set (T2 := sumf (gtw Wa pw (1 / q) L) (with_index L)). rewrite !Rplus_0_l.
    assert (EL : c * INR d * 2 ^ d / (INR d - alpha * INR d) * (Rpower (1 / 2) (INR d - alpha * INR d) * T2 - Rpower c (1 / alpha - 1) * T1) = 2 ^ d * C / (alpha - 1) * T1 - B1 * T2).
    { assert (E3 : Rpower c (1 / alpha - 1) = C / c). { unfold Rminus. rewrite Rpower_plus, Rpower_Ropp, Rpower_1 by assumption. reflexivity. } rewrite E3. clear E3.
      assert (E2 : Rpower (1 / 2) (INR d - alpha * INR d) = P2 / 2 ^ d).
      { rewrite Rpower_div by lra. assert (E1 : forall z, Rpower 1 z = 1) by (intros; unfold Rpower; rewrite ln_1, Rmult_0_r, exp_0; reflexivity). rewrite E1.
        unfold Rminus. rewrite Rpower_plus, Rpower_Ropp, Rpower_pow by lra. fold P2. field. lra. }
      rewrite E2. unfold B1. replace (INR d - alpha * INR d) with (INR d * (1 - alpha)) by ring.
      assert (1 - alpha <> 0) by lra. assert (alpha - 1 <> 0) by lra. assert (E4 : 1 - alpha = - (alpha - 1)) by ring. rewrite E4. field. repeat split; try lra. }
    rewrite EL. unfold A1. field. lra.
  Qed.
  Theorem general_f_exists d st c : gen_inv st -> exists v st', general_f ws d alpha st c v st'.
  Proof.
    intros (I & _). unfold general_f. set (rt := exp (INR d * _ - _)).
    destruct (query_exists ws (fst st) rt I) as (k & st' & H).
    destruct (Nat.eq_dec k 0) as [K|K].
    - eexists _, (st', snd st). exists k. split; [exact H|]. cbn [fst snd]. rewrite K. cbn [Nat.eqb]. split; reflexivity.
    - match goal with |- exists v st', exists k', _ /\ _ => idtac end.
      set (L := firstn k (larr st')). set (cache := snd st ++ map (fun w => Rpower w alpha) (skipn (length (snd st)) L)).
      destruct (general_loop (exp (ln (1 / 2) * INR d - ln c / alpha)) (sum_by (fun w => w) ws) (Rpower (sum_by (fun w => w) ws) alpha) (rev (combine (seq 0 (length (combine L cache))) (combine L cache))) (combine L cache) 0 0 0 0 0 0) as [[num wt] wat] eqn:EG.
      eexists _, (st', cache). exists k. split; [exact H|]. cbn [fst snd]. destruct (Nat.eqb_spec k 0); [contradiction|]. fold L. fold cache. rewrite EG. split; reflexivity.
  Qed.
  Theorem threshold_f_exists d st c : lazy_inv ws st -> exists v st', threshold_f ws d st c v st'.
  Proof. intros I. destruct (query_exists ws st (sum_by (fun w => w) ws / (2 * c) ^ d / max_from 0 ws) I) as (k & st' & H). eexists _, st'. exists k. split; [exact H|reflexivity]. Qed.
End I.
