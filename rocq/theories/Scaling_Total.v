(** Total correctness of the search for both estimators, from the properties of the capped kernel. *)
From Coq Require Import Arith NArith ZArith List Bool Reals Lia Lra Psatz Sorting.Sorted Permutation.
From Flocq Require Import Core.
From Verif Require Import Base Scaling_Model Scaling_Lazy Scaling_Loops Scaling_Thr Scaling_Search Scaling_Inst.
Import ListNotations.
Local Open Scope R_scope.

Lemma continuity_pt_sumf {A} (F : A -> R -> R) l c : (forall a, In a l -> continuity_pt (F a) c) -> continuity_pt (fun x => sumf (fun a => F a x) l) c.
Proof.
  induction l as [|a l IH]; intros H.
  - apply continuity_pt_const. intros x y. reflexivity.
  - change (continuity_pt (plus_fct (F a) (fun x => sumf (fun a => F a x) l)) c). apply continuity_pt_plus; [apply H; now left|]. apply IH. intros; apply H; now right.
Qed.

Section T.
  Variables (phi : R -> R) (q : R -> R) (ws : list R) (desired : R).
  Hypothesis Hphi1 : phi 1 = 1.
  Hypothesis Hmono : forall y z, 0 < y <= z -> z <= 1 -> phi y <= phi z.
  Hypothesis Hpos : forall z, 0 < z <= 1 -> 0 < phi z.
  Hypothesis Hcont : forall z, 0 < z -> continuity_pt phi z.
  Hypothesis Hzero : forall e, 0 < e -> exists z, 0 < z <= 1 /\ phi z <= e.
  Hypothesis Hqpos : forall c, 0 < c -> 0 < q c.
  Hypothesis Hqmono : forall x y, 0 < x < y -> q x < q y.
  Hypothesis Hqcont : forall c, 0 < c -> continuity_pt q c.
  Hypothesis Hqsurj : forall y, 0 < y -> exists c, 0 < c /\ q c = y.
  Hypothesis V : valid_weights ws.
  Hypothesis Hne : ws <> [].
  Let n := INR (length ws).
  Let Hn : 0 < n := n_pos ws V Hne.
  Let deg c := deg_sum phi ws (q c).

  Lemma capped_min z : capped phi z = phi (Rmin z 1).
  Proof. unfold capped. destruct (Rge_dec z 1); [rewrite Rmin_right by lra; now rewrite Hphi1|rewrite Rmin_left by lra; reflexivity]. Qed.
  Lemma Rmin_cont z : continuity_pt (fun z => Rmin z 1) z.
  Proof.
    apply continuity_pt_locally_ext with (f := fun z => (z + 1 - Rabs (z - 1)) / 2) (a := 1); [lra| |].
    - intros y _. unfold Rmin, Rabs. destruct (Rle_dec y 1), (Rcase_abs (y - 1)); lra.
    - reg.
  Qed.
  Lemma capped_cont z : 0 < z -> continuity_pt (capped phi) z.
  Proof.
    intros Hz. apply continuity_pt_locally_ext with (f := comp phi (fun z => Rmin z 1)) (a := 1); [lra| |].
    - intros y _. unfold comp. now rewrite capped_min.
    - apply continuity_pt_comp; [apply Rmin_cont|]. apply Hcont. unfold Rmin. destruct (Rle_dec z 1); lra.
  Qed.
  Definition Afun (c : R) : R := all_sum phi ws (q c) / n.
  Lemma Afun_cont c : 0 < c -> continuity_pt Afun c.
  Proof.
    intros Hc. unfold Afun, Rdiv. apply continuity_pt_mult; [|apply continuity_pt_const; intros x y; reflexivity].
    unfold all_sum. apply (continuity_pt_sumf (fun x c => sumf (fun y => capped phi (q c * (x * y))) ws)). intros x Hx.
    apply (continuity_pt_sumf (fun y c => capped phi (q c * (x * y)))). intros y Hy.
    apply (continuity_pt_comp (fun c => q c * (x * y)) (capped phi)).
    - apply continuity_pt_mult; [now apply Hqcont|apply continuity_pt_const; intros a b; reflexivity].
    - apply capped_cont. apply (mul_pos_in ws V); auto.
  Qed.
  Definition val (c v : R) : Prop := est phi ws (q c) v.
  Lemma val_one_sided x y v v' : 0 < x < y -> val x v -> val y v' -> v' - v <= Afun y - Afun x.
  Proof.
    intros H H1 H2. pose proof (est_one_sided phi Hphi1 Hmono ws V Hne (q x) (q y) v v' (conj (Hqpos x ltac:(lra)) (Hqmono x y H)) H1 H2) as P.
    unfold Afun. apply Rmult_le_reg_l with n; [exact Hn|]. fold n in P. replace (n * (all_sum phi ws (q y) / n - all_sum phi ws (q x) / n)) with (all_sum phi ws (q y) - all_sum phi ws (q x)) by (field; lra). exact P.
  Qed.
  (** E(c) - 1/n < v <= E(c) *)
  Lemma val_range c v : 0 < c -> val c v -> deg c / n - 1 / n < v <= deg c / n.
  Proof.
    intros Hc H. destruct (est_delta phi Hphi1 Hmono Hpos ws V (q c) v (Hqpos c Hc) H) as (delta & E & Hd & _). fold n in E. fold (deg c) in E.
    assert (Ev : v = deg c / n - delta / n). { apply Rmult_eq_reg_l with n; [|lra]. rewrite E. field. lra. }
    assert (0 <= delta / n) by (apply Rmult_le_pos; [lra|left; now apply Rinv_0_lt_compat]). assert (delta / n < 1 / n) by (unfold Rdiv; apply Rmult_lt_compat_r; [now apply Rinv_0_lt_compat|lra]). lra.
  Qed.
  Lemma INR_psum_const a : psum (fun _ _ => a) ws = a * (n * (n - 1)).
  Proof. unfold psum. rewrite (sumf_ext (fun _ => sumf (fun _ => a) ws) (fun _ => a * n)) by (intros; apply sumf_const). rewrite !sumf_const. unfold n. ring. Qed.
  Lemma psum_le F G : (forall x y, In x ws -> In y ws -> F x y <= G x y) -> psum F ws <= psum G ws.
  Proof.
    intros H. rewrite <- !pair_sum_psum. unfold pair_sum. set (L := seq 0 (length ws)).
    assert (HL : forall u, In u L -> In (nth u ws 0) ws) by (intros u Hu; apply nth_In; apply in_seq in Hu; lia).
    change (sumf (fun u => sumf (fun v => if (u =? v)%nat then 0 else F (nth u ws 0) (nth v ws 0)) L) L <= sumf (fun u => sumf (fun v => if (u =? v)%nat then 0 else G (nth u ws 0) (nth v ws 0)) L) L).
    apply sumf_le. intros u Hu. apply sumf_le. intros v Hv. destruct (u =? v)%nat; [lra|]. apply H; auto.
  Qed.
  Lemma deg_le c : 0 < c -> deg c <= n * (n - 1).
  Proof.
    intros Hc. rewrite <- (Rmult_1_l (n * (n - 1))), <- INR_psum_const. apply psum_le. intros x y Hx Hy. apply (capped_range phi Hphi1 Hmono Hpos). apply (mul_pos_in ws V); auto.
  Qed.
  Lemma val_low : 0 < desired -> exists c0, 0 < c0 /\ forall c v, 0 < c <= c0 -> val c v -> v <= desired.
  Proof.
    intros Hd. destruct (Hzero (desired / n)) as (z & Hz & Hz').
    { apply Rdiv_lt_0_compat; assumption. }
    set (m := max_from 0 ws). assert (Hm : 0 < m). { apply (valid_pos ws _ V). apply max_from_in; [exact Hne|]. intros x Hx. now apply (valid_pos ws). }
    destruct (Hqsurj (z / (m * m))) as (c0 & Hc0 & E0); [apply Rdiv_lt_0_compat; nra|]. exists c0. split; [exact Hc0|]. intros c v Hc Hv.
    destruct (val_range c v ltac:(lra) Hv) as [_ Hv']. eapply Rle_trans; [exact Hv'|].
    assert (Hdeg : deg c <= desired / n * (n * (n - 1))).
    { rewrite <- INR_psum_const. apply psum_le. intros x y Hx Hy. apply Rle_trans with (capped phi z).
      - apply (capped_mono phi Hphi1 Hmono). split; [apply (mul_pos_in ws V); auto; apply Hqpos; lra|].
        destruct (max_from_ge 0 ws) as [_ G]. pose proof (G x Hx). pose proof (G y Hy). fold m in H, H0. pose proof (valid_pos ws x V Hx). pose proof (valid_pos ws y V Hy).
        assert (q c <= z / (m * m)). { rewrite <- E0. destruct (Rle_lt_or_eq_dec c c0 ltac:(lra)) as [L|L]; [left; apply Hqmono; lra|subst; lra]. }
        pose proof (Hqpos c ltac:(lra)). apply Rle_trans with (z / (m * m) * (m * m)); [|right; field; lra].
        apply Rmult_le_compat; try lra; [nra|apply Rmult_le_compat; lra].
      - rewrite capped_min, Rmin_left by lra. exact Hz'. }
    apply Rmult_le_reg_r with n; [exact Hn|]. unfold Rdiv at 1. rewrite Rmult_assoc, Rinv_l, Rmult_1_r by lra. eapply Rle_trans; [exact Hdeg|].
    replace (desired / n * (n * (n - 1))) with (desired * (n - 1)) by (field; lra). nra.
  Qed.
  Lemma val_high : desired <= n - 1 -> exists c1, 0 < c1 /\ forall c v, c1 <= c -> val c v -> desired <= v.
  Proof.
    intros Hd. assert (Hmin : exists m, 0 < m /\ forall x, In x ws -> m <= x). { exists dbl_min. split; [apply dbl_min_pos|]. intros x Hx. pose proof V as V'. unfold valid_weights in V'. rewrite Forall_forall in V'. now apply V'. }
    destruct Hmin as (m & Hm & HM). destruct (Hqsurj (1 / (m * m))) as (c1 & Hc1 & E1); [apply Rdiv_lt_0_compat; nra|]. exists c1. split; [exact Hc1|]. intros c v Hc Hv.
    assert (Hq1 : 1 / (m * m) <= q c). { rewrite <- E1. destruct (Rle_lt_or_eq_dec c1 c Hc) as [L|L]; [left; apply Hqmono; lra|subst; lra]. }
    assert (Hbig : forall x y, In x ws -> In y ws -> 1 <= q c * (x * y)).
    { intros x y Hx Hy. pose proof (HM x Hx). pose proof (HM y Hy). apply Rle_trans with (1 / (m * m) * (m * m)); [right; field; lra|]. apply Rmult_le_compat; try nra. left. apply Rdiv_lt_0_compat; nra. }
    destruct (est_delta phi Hphi1 Hmono Hpos ws V (q c) v (Hqpos c ltac:(lra)) Hv) as (delta & E & Hdl & [D0|(w & Hw & Hww & _)]); [|pose proof (Hbig w w Hw Hw); lra].
    assert (ED : deg_sum phi ws (q c) = 1 * (n * (n - 1))).
    { rewrite <- INR_psum_const. apply psum_ext. intros x y Hx Hy. unfold capped. destruct (Rge_dec (q c * (x * y)) 1) as [G|G]; [reflexivity|]. pose proof (Hbig x y Hx Hy). lra. }
    rewrite ED, D0 in E. fold n in E. assert (v = n - 1) by (apply Rmult_eq_reg_l with n; lra). lra.
  Qed.

  (** ** the search over any function that computes [val] *)
  Context {St : Type} (f : St -> R -> R -> St -> Prop) (Inv : St -> Prop).
  Hypothesis HI : forall st c v st', Inv st -> 0 < c -> f st c v st' -> Inv st' /\ val c v.
  Hypothesis HE : forall st c, Inv st -> 0 < c -> exists v st', f st c v st'.
  Theorem total_terminates st : Inv st -> 0 < desired <= n - 1 -> Acc (fun b a => search_step f desired default_accuracy a b) (InUp st 1 2).
  Proof.
    intros I Hd. apply (search_acc f desired default_accuracy Inv val Afun); auto; try lra.
    - unfold default_accuracy. lra.
    - apply val_one_sided.
    - apply Afun_cont.
    - apply val_low. lra.
    - apply val_high. lra.
  Qed.
  Theorem total_progress st a : Inv st -> search_run f desired default_accuracy (InUp st 1 2) a -> (exists st' r v, a = Done st' r v) \/ exists b, search_step f desired default_accuracy a b.
  Proof. intros I H. eapply (step_exists f desired default_accuracy Inv val HE). apply (run_ok f desired default_accuracy Inv val HI _ _ H). cbn. split; [exact I|lra]. Qed.
  Theorem total_result st st' r v : Inv st -> search f desired default_accuracy st 1 2 st' r v -> 0 < r /\ desired - default_accuracy <= deg r / n < desired + default_accuracy + 1 / n.
  Proof.
    intros I H. pose proof (run_ok f desired default_accuracy Inv val HI _ _ H) as (Hr & Hv & Hacc); [cbn; split; [exact I|lra]|]. split; [exact Hr|].
    pose proof (val_range r v Hr Hv). apply Rabs_le_inv in Hacc. lra.
  Qed.
  Theorem total_diverges st a : Inv st -> n - 1 < desired -> search_run f desired default_accuracy (InUp st 1 2) a -> exists st' lo hi, a = InUp st' lo hi.
  Proof.
    intros I Hd H. eapply (never_done f desired default_accuracy Inv val HI); [|exact H|exact I|lra]. intros c v Hc Hv. destruct (val_range c v Hc Hv) as [_ P]. pose proof (deg_le c Hc) as D.
    assert (deg c / n <= n - 1). { apply Rmult_le_reg_r with n; [exact Hn|]. unfold Rdiv. rewrite Rmult_assoc, Rinv_l by lra. lra. } lra.
  Qed.
End T.

(** ** the kernels *)
Lemma phi_gen_deriv alpha z : 0 < z -> alpha <> 1 -> derivable_pt_lim (phi_gen alpha) z (alpha / (alpha - 1) * (1 - Rpower z (alpha - 1))).
Proof.
  intros Hz Ha. unfold phi_gen.
  replace (alpha / (alpha - 1) * (1 - Rpower z (alpha - 1))) with ((1 * (1 + 1 / (alpha - 1)) + z * 0) - (alpha * Rpower z (alpha - 1)) * / (alpha - 1)) by (field; lra).
  apply (derivable_pt_lim_minus (fun z => z * (1 + 1 / (alpha - 1))) (fun z => Rpower z alpha / (alpha - 1))).
  - apply (derivable_pt_lim_mult (fun z => z) (fun _ => 1 + 1 / (alpha - 1))); [apply derivable_pt_lim_id|apply derivable_pt_lim_const].
  - unfold Rdiv. replace (alpha * Rpower z (alpha - 1) * / (alpha - 1)) with (alpha * Rpower z (alpha - 1) * / (alpha - 1) + Rpower z alpha * 0) by ring.
    apply (derivable_pt_lim_mult (fun z => Rpower z alpha) (fun _ => / (alpha - 1))); [now apply derivable_pt_lim_power|apply derivable_pt_lim_const].
Qed.
Lemma Rpower_le1 z a : 0 < z <= 1 -> 0 <= a -> Rpower z a <= 1.
Proof.
  intros Hz Ha. unfold Rpower. apply Rle_trans with (exp 0); [|rewrite exp_0; lra].
  assert (ln z <= 0). { destruct (Rle_lt_or_eq_dec z 1 ltac:(lra)) as [L|L]; [left; rewrite <- ln_1; apply ln_increasing; lra|subst; rewrite ln_1; lra]. }
  assert (a * ln z <= 0) by nra. destruct (Rle_lt_or_eq_dec _ _ H0) as [L|L]; [left; now apply exp_increasing|rewrite L; lra].
Qed.
Lemma Rpower_ge1 z a : 0 < z <= 1 -> a <= 0 -> 1 <= Rpower z a.
Proof.
  intros Hz Ha. unfold Rpower. apply Rle_trans with (exp 0); [rewrite exp_0; lra|].
  assert (ln z <= 0). { destruct (Rle_lt_or_eq_dec z 1 ltac:(lra)) as [L|L]; [left; rewrite <- ln_1; apply ln_increasing; lra|subst; rewrite ln_1; lra]. }
  assert (0 <= a * ln z) by nra. destruct (Rle_lt_or_eq_dec _ _ H0) as [L|L]; [left; now apply exp_increasing|rewrite <- L; lra].
Qed.
Lemma phi_gen_mono alpha y z : 0 < alpha -> alpha <> 1 -> 0 < y <= z -> z <= 1 -> phi_gen alpha y <= phi_gen alpha z.
Proof.
  intros H0 H1 Hy Hz. destruct (Rle_lt_or_eq_dec y z ltac:(lra)) as [L|L]; [|subst; lra].
  destruct (MVT_cor2 (phi_gen alpha) (fun z => alpha / (alpha - 1) * (1 - Rpower z (alpha - 1))) y z L) as (c & E & Hc).
  - intros c Hc. apply phi_gen_deriv; lra.
  - assert (0 <= alpha / (alpha - 1) * (1 - Rpower c (alpha - 1))); [|nra].
    destruct (Rlt_le_dec 1 alpha) as [A|A].
    + pose proof (Rpower_le1 c (alpha - 1) ltac:(lra) ltac:(lra)). apply Rmult_le_pos; [|lra]. left. apply Rdiv_lt_0_compat; lra.
    + pose proof (Rpower_ge1 c (alpha - 1) ltac:(lra) ltac:(lra)). replace (alpha / (alpha - 1) * (1 - Rpower c (alpha - 1))) with (alpha / (1 - alpha) * (Rpower c (alpha - 1) - 1)) by (field; split; lra).
      apply Rmult_le_pos; [|lra]. left. apply Rdiv_lt_0_compat; lra.
Qed.
Lemma phi_gen_pos alpha z : 0 < alpha -> alpha <> 1 -> 0 < z <= 1 -> 0 < phi_gen alpha z.
Proof.
  intros H0 H1 Hz. assert (E : phi_gen alpha z = z * ((alpha - Rpower z (alpha - 1)) / (alpha - 1))).
  { unfold phi_gen. replace (Rpower z alpha) with (z * Rpower z (alpha - 1)); [field; lra|]. rewrite <- (Rpower_1 z) at 1 by lra. rewrite <- Rpower_plus. f_equal. ring. }
  rewrite E. apply Rmult_lt_0_compat; [lra|]. destruct (Rlt_le_dec 1 alpha) as [A|A].
  - pose proof (Rpower_le1 z (alpha - 1) Hz ltac:(lra)). apply Rdiv_lt_0_compat; lra.
  - pose proof (Rpower_ge1 z (alpha - 1) Hz ltac:(lra)). replace ((alpha - Rpower z (alpha - 1)) / (alpha - 1)) with ((Rpower z (alpha - 1) - alpha) / (1 - alpha)) by (field; lra). apply Rdiv_lt_0_compat; lra.
Qed.
Lemma phi_gen_cont alpha z : alpha <> 1 -> 0 < z -> continuity_pt (phi_gen alpha) z.
Proof. intros H1 Hz. apply derivable_continuous_pt. eexists. apply phi_gen_deriv; assumption. Qed.
Lemma phi_gen_zero alpha e : 0 < alpha -> alpha <> 1 -> 0 < e -> exists z, 0 < z <= 1 /\ phi_gen alpha z <= e.
Proof.
  intros H0 H1 He. destruct (Rlt_le_dec 1 alpha) as [A|A].
  - exists (Rmin 1 (e * (alpha - 1) / alpha)). assert (P : 0 < e * (alpha - 1) / alpha) by (apply Rdiv_lt_0_compat; nra). pose proof (Rmin_l 1 (e * (alpha - 1) / alpha)). pose proof (Rmin_r 1 (e * (alpha - 1) / alpha)).
    assert (Q : 0 < Rmin 1 (e * (alpha - 1) / alpha)) by (apply Rmin_glb_lt; lra). set (z := Rmin 1 (e * (alpha - 1) / alpha)) in *. split; [lra|].
    unfold phi_gen. assert (0 < Rpower z alpha / (alpha - 1)) by (apply Rdiv_lt_0_compat; [apply exp_pos|lra]).
    assert (Q4 : z * (1 + 1 / (alpha - 1)) <= e * (alpha - 1) / alpha * (1 + 1 / (alpha - 1))). { apply Rmult_le_compat_r; [|lra]. assert (0 < 1 / (alpha - 1)) by (apply Rdiv_lt_0_compat; lra). lra. }
    replace (e * (alpha - 1) / alpha * (1 + 1 / (alpha - 1))) with e in Q4 by (field; repeat split; lra). lra.
  - assert (P : 0 < e * (1 - alpha)) by nra. exists (Rmin 1 (Rpower (e * (1 - alpha)) (1 / alpha))). assert (Q : 0 < Rmin 1 (Rpower (e * (1 - alpha)) (1 / alpha))) by (apply Rmin_glb_lt; [lra|apply exp_pos]).
    pose proof (Rmin_l 1 (Rpower (e * (1 - alpha)) (1 / alpha))). pose proof (Rmin_r 1 (Rpower (e * (1 - alpha)) (1 / alpha))). set (z := Rmin 1 (Rpower (e * (1 - alpha)) (1 / alpha))) in *. split; [lra|].
    assert (Hz : Rpower z alpha <= e * (1 - alpha)).
    { apply Rle_trans with (Rpower (Rpower (e * (1 - alpha)) (1 / alpha)) alpha); [apply Rle_Rpower_l; lra|]. rewrite Rpower_mult. replace (1 / alpha * alpha) with 1 by (field; lra). rewrite Rpower_1; lra. }
    unfold phi_gen. replace (z * (1 + 1 / (alpha - 1)) - Rpower z alpha / (alpha - 1)) with (Rpower z alpha / (1 - alpha) - z * (alpha / (1 - alpha))) by (field; lra).
    assert (Q4 : Rpower z alpha / (1 - alpha) <= e * (1 - alpha) / (1 - alpha)) by (unfold Rdiv; apply Rmult_le_compat_r; [left; apply Rinv_0_lt_compat; lra|exact Hz]).
    replace (e * (1 - alpha) / (1 - alpha)) with e in Q4 by (field; lra). assert (0 < alpha / (1 - alpha)) by (apply Rdiv_lt_0_compat; lra). nra.
Qed.

Section Q.
  Variable ws : list R.
  Hypothesis V : valid_weights ws.
  Hypothesis Hne : ws <> [].
  Let HW := W_pos ws V Hne.
  Lemma qthr_pos d c : 0 < c -> 0 < qthr ws d c.
  Proof. intros Hc. unfold qthr. apply Rdiv_lt_0_compat; [apply pow_lt; lra|exact HW]. Qed.
  Lemma qthr_mono d x y : (d >= 1)%nat -> 0 < x < y -> qthr ws d x < qthr ws d y.
  Proof. intros Hd H. unfold qthr, Rdiv. apply Rmult_lt_compat_r; [now apply Rinv_0_lt_compat|]. destruct d as [|d]; [lia|]. rewrite <- !Rpower_pow by lra. unfold Rpower. apply exp_increasing. apply Rmult_lt_compat_l; [apply lt_0_INR; lia|]. apply ln_increasing; lra. Qed.
  Lemma qthr_cont d c : continuity_pt (qthr ws d) c.
  Proof. unfold qthr. apply derivable_continuous_pt. reg. Qed.
  Lemma qthr_surj d y : (d >= 1)%nat -> 0 < y -> exists c, 0 < c /\ qthr ws d c = y.
  Proof.
    intros Hd Hy. exists (Rpower (y * sum_by (fun w => w) ws) (/ INR d) / 2). assert (P : 0 < Rpower (y * sum_by (fun w => w) ws) (/ INR d)) by apply exp_pos. split; [lra|].
    unfold qthr. replace (2 * (Rpower (y * sum_by (fun w => w) ws) (/ INR d) / 2)) with (Rpower (y * sum_by (fun w => w) ws) (/ INR d)) by field.
    rewrite <- Rpower_pow by assumption. rewrite Rpower_mult, Rinv_l by (apply not_0_INR; lia). rewrite Rpower_1 by (apply Rmult_lt_0_compat; assumption). field. apply Rgt_not_eq. exact HW.
  Qed.
  Variable alpha : R.
  Hypothesis Ha0 : 0 < alpha.
  Lemma qgen_pos d c : 0 < qgen ws alpha d c.
  Proof. unfold qgen. apply Rdiv_lt_0_compat; [|exact HW]. apply Rmult_lt_0_compat; [apply pow_lt; lra|apply exp_pos]. Qed.
  Lemma qgen_mono d x y : 0 < x < y -> qgen ws alpha d x < qgen ws alpha d y.
  Proof.
    intros H. unfold qgen, Rdiv. apply Rmult_lt_compat_r; [now apply Rinv_0_lt_compat|]. apply Rmult_lt_compat_l; [apply pow_lt; lra|]. unfold Rpower. apply exp_increasing.
    apply Rmult_lt_compat_l; [rewrite Rmult_1_l; now apply Rinv_0_lt_compat|]. apply ln_increasing; lra.
  Qed.
  Lemma qgen_cont d c : 0 < c -> continuity_pt (qgen ws alpha d) c.
  Proof.
    intros Hc. unfold qgen, Rdiv. apply continuity_pt_mult; [|apply continuity_pt_const; intros x y; reflexivity]. apply continuity_pt_mult; [apply continuity_pt_const; intros x y; reflexivity|].
    apply derivable_continuous_pt. eexists. now apply derivable_pt_lim_power.
  Qed.
  Lemma qgen_surj d y : 0 < y -> exists c, 0 < c /\ qgen ws alpha d c = y.
  Proof.
    intros Hy. assert (H2 : 0 < 2 ^ d) by (apply pow_lt; lra). exists (Rpower (y * sum_by (fun w => w) ws / 2 ^ d) alpha). split; [apply exp_pos|].
    unfold qgen. rewrite Rpower_mult. replace (alpha * (1 / alpha)) with 1 by (field; lra). rewrite Rpower_1 by (apply Rdiv_lt_0_compat; [apply Rmult_lt_0_compat|]; assumption). pose proof HW. field. lra.
  Qed.
End Q.
