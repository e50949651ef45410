(** Expected values over tapes, the geometric skipping lemma. *)
From Coq Require Import Arith NArith ZArith List Bool Reals Lra Lia Permutation.
From Coquelicot Require Import Coquelicot.
From Flocq Require Import Core.
From Verif Require Import Base Tree_Model Prob_Spec.
Import ListNotations.
Local Open Scope R_scope.

Lemma val_range u : 0 <= val u < 1. Proof. exact (proj2_sig u). Qed.
Definition mk_draw x (H : 0 <= x < 1) : unit_draw := exist _ x H.
Lemma tcons_eta t : forall n, tcons (t 0%nat) (ttail t) n = t n. Proof. intros [|n]; reflexivity. Qed.

Lemma RInt_01_ext (g1 g2 : R -> R) v : (forall u, 0 <= u < 1 -> g1 u = g2 u) -> is_RInt g1 0 1 v -> is_RInt g2 0 1 v.
Proof. intros H. apply (is_RInt_ext (V := R_NormedModule)). intros x. rewrite Rmin_left, Rmax_right by lra. intros Hx. apply H. lra. Qed.
Lemma RInt_const01 (c : R) : is_RInt (fun _ => c) 0 1 c.
Proof. refine (eq_ind _ (fun z => is_RInt (fun _ => c) 0 1 z) (is_RInt_const (V := R_NormedModule) 0 1 c) c _). unfold scal; cbn; unfold mult; cbn; lra. Qed.

Lemma expects_ext f1 f2 v : (forall t, f1 t = f2 t) -> expects f1 v -> expects f2 v.
Proof.
  intros H E. revert f2 H. induction E as [f v H0|f g v H1 IH HI]; intros f2 H.
  - apply ex_value. intros t. now rewrite <- H.
  - apply (ex_draw _ g); [|exact HI]. intros u. apply IH. intros t. apply H.
Qed.
Lemma expects_const_unique f v w : (forall t, f t = v) -> expects f w -> w = v.
Proof.
  intros H E. revert v H. induction E as [f w H0|f g w H1 IH HI]; intros v H.
  - rewrite <- (H0 (fun _ => zero_draw)). apply H.
  - assert (K : is_RInt (fun _ : R => v) 0 1 w).
    { apply (RInt_01_ext g); [|exact HI]. intros u Hu. apply (IH (mk_draw u Hu)). intros t. apply H. }
    apply (is_RInt_unique (V := R_CompleteNormedModule)) in K. rewrite <- K. apply (is_RInt_unique (V := R_CompleteNormedModule)). apply RInt_const01.
Qed.
(** the expected value is unique *)
Theorem expects_unique f v w : expects f v -> expects f w -> v = w.
Proof.
  intros E. revert w. induction E as [f v H0|f g v H1 IH HI]; intros w E'.
  - symmetry. eapply expects_const_unique; eauto.
  - inversion E' as [f' w' H0|f' g' w' H1' HI']; subst.
    + eapply expects_const_unique; [exact H0|]. eapply ex_draw; eauto.
    + assert (K : is_RInt g' 0 1 v). { apply (RInt_01_ext g); [|exact HI]. intros u Hu. apply (IH (mk_draw u Hu)). apply H1'. }
      apply (is_RInt_unique (V := R_CompleteNormedModule)) in K. apply (is_RInt_unique (V := R_CompleteNormedModule)) in HI'. congruence.
Qed.
Lemma expects_n_ext n : forall f1 f2 v, (forall ts, length ts = n -> f1 ts = f2 ts) -> expects_n n f1 v -> expects_n n f2 v.
Proof.
  induction n as [|n IH]; intros f1 f2 v H; cbn [expects_n]; [intros <-; symmetry; now apply H|]. intros (g & H1 & H2). exists g. split; [|exact H2].
  intros t. eapply IH; [|apply H1]. intros ts L. apply H. cbn. now rewrite L.
Qed.
Theorem expects_n_unique n : forall f v w, expects_n n f v -> expects_n n f w -> v = w.
Proof.
  induction n as [|n IH]; intros f v w; cbn [expects_n]; [congruence|]. intros (g & H1 & H2) (g' & H1' & H2'). eapply expects_unique; [exact H2|].
  eapply expects_ext; [|exact H2']. intros t. eapply IH; eauto.
Qed.
Lemma expects_n_const n c : expects_n n (fun _ => c) c.
Proof. induction n as [|n IH]; cbn [expects_n]; [reflexivity|]. exists (fun _ => c). split; [intros; exact IH|now apply ex_value]. Qed.

(** revealing one draw *)
Lemma expects_draw f g v : (forall u, expects (fun t => f (tcons u t)) (g (val u))) -> is_RInt g 0 1 v -> expects f v.
Proof. exact (ex_draw f g v). Qed.
(** a coin with success probability s *)
Lemma RInt_coin s A B : 0 <= s <= 1 -> is_RInt (fun u => if Rltb u s then A else B) 0 1 (s * A + (1 - s) * B).
Proof.
  intros Hs. replace (s * A + (1 - s) * B) with (plus (scal (s - 0) A) (scal (1 - s) B)) by (unfold plus, scal; cbn; unfold mult; cbn; lra).
  apply (is_RInt_Chasles (V := R_NormedModule)) with s.
  - apply (is_RInt_ext (V := R_NormedModule) (fun _ => A)); [|apply (is_RInt_const (V := R_NormedModule))].
    intros u. rewrite Rmin_left, Rmax_right by lra. intros Hu. now rewrite (proj2 (Rltb_true u s)) by lra.
  - apply (is_RInt_ext (V := R_NormedModule) (fun _ => B)); [|apply (is_RInt_const (V := R_NormedModule))].
    intros u. rewrite Rmin_left, Rmax_right by lra. intros Hu. now rewrite (proj2 (Rltb_false u s)) by lra.
Qed.

(** ** the geometric distribution *)
Definition sumf (f : nat -> R) (m : nat) : R := fold_right Rplus 0 (map f (seq 0 m)).
Lemma sumf_S f m : sumf f (S m) = sumf f m + f m.
Proof.
  unfold sumf. rewrite seq_S, map_app, fold_right_app. cbn [map fold_right]. rewrite Nat.add_0_l, Rplus_0_r. generalize (map f (seq 0 m)) as l. induction l as [|a l IHl]; cbn [fold_right]; lra.
Qed.
Lemma sumf_shift f m : sumf f (S m) = f 0%nat + sumf (fun k => f (S k)) m.
Proof. unfold sumf. cbn [seq map fold_right]. now rewrite <- seq_shift, map_map. Qed.
Lemma ln1p_neg p : 0 < p < 1 -> ln (1 - p) < 0.
Proof. intros H. rewrite <- ln_1. apply ln_increasing; lra. Qed.
Lemma pow_exp_ln x k : 0 < x -> x ^ k = exp (INR k * ln x).
Proof. intros H. rewrite <- Rpower_pow by exact H. reflexivity. Qed.
(** k failures or more: 1 - u <= (1-p)^k *)
Lemma geo_ge p u k : 0 < p < 1 -> 0 <= u < 1 -> (k < 2 ^ 62)%N -> ((k <= geo_of p u)%N <-> 1 - u <= (1 - p) ^ N.to_nat k).
Proof.
  intros Hp Hu Hk. pose proof (ln1p_neg p Hp) as L. unfold geo_of.
  assert (K1 : (2 ^ 62 = 4611686018427387904)%N) by reflexivity. assert (K2 : (2 ^ 63 = 9223372036854775808)%N) by reflexivity.
  assert (Q : 0 <= ln (1 - u) / ln (1 - p)).
  { assert (ln (1 - u) <= 0) by (rewrite <- ln_1; destruct (proj1 Hu); [left; apply ln_increasing; lra|subst; right; f_equal; lra]).
    replace (ln (1 - u) / ln (1 - p)) with (- ln (1 - u) / - ln (1 - p)) by (field; lra). apply Rmult_le_pos; [lra|]. left. apply Rinv_0_lt_compat. lra. }
  assert (F : (0 <= Zfloor (ln (1 - u) / ln (1 - p)))%Z) by (apply Zfloor_lub; exact Q).
  transitivity (INR (N.to_nat k) <= ln (1 - u) / ln (1 - p)).
  - rewrite INR_IZR_INZ. assert (E : Z.of_nat (N.to_nat k) = Z.of_N k) by lia. rewrite E. split.
    + intros H. apply Rle_trans with (IZR (Zfloor (ln (1 - u) / ln (1 - p)))); [apply IZR_le; lia|apply Zfloor_lb].
    + intros H. apply Zfloor_lub in H. lia.
  - rewrite pow_exp_ln by lra. rewrite <- (exp_ln (1 - u)) at 2 by lra. split; intros H.
    + assert (M : ln (1 - u) <= INR (N.to_nat k) * ln (1 - p)).
      { apply Rmult_le_compat_neg_l with (r := ln (1 - p)) in H; [|lra]. replace (ln (1 - p) * (ln (1 - u) / ln (1 - p))) with (ln (1 - u)) in H by (field; lra). lra. }
      destruct M as [M|M]; [left; now apply exp_increasing|right; now rewrite M].
    + assert (M : ln (1 - u) <= INR (N.to_nat k) * ln (1 - p)).
      { destruct H as [H|H]; [left; now apply exp_lt_inv|right; now apply exp_inv]. }
      apply Rmult_le_reg_r with (- ln (1 - p)); [lra|]. replace (ln (1 - u) / ln (1 - p) * - ln (1 - p)) with (- ln (1 - u)) by (field; lra). lra.
Qed.
Lemma pow_range x k : 0 < x < 1 -> 0 < x ^ k <= 1.
Proof. intros H. split; [apply pow_lt; lra|]. rewrite <- (pow1 k). apply pow_incr. lra. Qed.
Lemma RInt_geo p (V : N -> R) (m : nat) : 0 < p < 1 -> (N.of_nat m + 1 < 2 ^ 62)%N -> (forall k, (N.of_nat m <= k)%N -> V k = V (N.of_nat m)) ->
  is_RInt (fun u => V (geo_of p u)) 0 1 (sumf (fun k => p * (1 - p) ^ k * V (N.of_nat k)) m + (1 - p) ^ m * V (N.of_nat m)).
Proof.
  intros Hp Hm HV. assert (PR : forall k, 0 < (1 - p) ^ k <= 1) by (intros; apply pow_range; lra).
  assert (A : forall k, (k <= m)%nat -> is_RInt (fun u => V (geo_of p u)) 0 (1 - (1 - p) ^ k) (sumf (fun k => p * (1 - p) ^ k * V (N.of_nat k)) k)).
  { induction k as [|k IH]; intros Hk.
    - cbn [pow]. replace (1 - 1) with 0 by lra. apply (is_RInt_point (V := R_NormedModule)).
    - rewrite sumf_S. apply (is_RInt_Chasles (V := R_NormedModule)) with (1 - (1 - p) ^ k); [apply IH; lia|].
      replace (p * (1 - p) ^ k * V (N.of_nat k)) with (scal ((1 - (1 - p) ^ S k) - (1 - (1 - p) ^ k)) (V (N.of_nat k))) by (unfold scal; cbn; unfold mult; cbn; ring).
      pose proof (PR k) as P1. pose proof (PR (S k)) as P2. assert (P3 : (1 - p) ^ S k <= (1 - p) ^ k) by (cbn [pow]; nra).
      apply (is_RInt_ext (V := R_NormedModule) (fun _ => V (N.of_nat k))); [|apply (is_RInt_const (V := R_NormedModule))].
      intros u. rewrite Rmin_left, Rmax_right by lra. intros Hu. f_equal.
      assert (G1 : (N.of_nat k <= geo_of p u)%N) by (apply geo_ge; [lra|lra|lia|rewrite Nat2N.id; lra]).
      assert (G2 : ~ (N.of_nat (S k) <= geo_of p u)%N) by (rewrite geo_ge; [rewrite Nat2N.id; lra|lra|lra|lia]). lia. }
  apply (is_RInt_Chasles (V := R_NormedModule)) with (1 - (1 - p) ^ m); [now apply A|].
  replace ((1 - p) ^ m * V (N.of_nat m)) with (scal (1 - (1 - (1 - p) ^ m)) (V (N.of_nat m))) by (unfold scal; cbn; unfold mult; cbn; ring).
  pose proof (PR m) as P1. apply (is_RInt_ext (V := R_NormedModule) (fun _ => V (N.of_nat m))); [|apply (is_RInt_const (V := R_NormedModule))].
  intros u. rewrite Rmin_left, Rmax_right by lra. intros Hu. symmetry. apply HV. apply geo_ge; [lra|lra|lia|rewrite Nat2N.id; lra].
Qed.

(** ** products *)
Lemma prodR_cons {A} (a : A) l f : prodR (a :: l) f = f a * prodR l f. Proof. reflexivity. Qed.
Lemma prodR_app {A} (l1 l2 : list A) f : prodR (l1 ++ l2) f = prodR l1 f * prodR l2 f.
Proof. induction l1 as [|a l1 IH]; cbn [app]; [unfold prodR at 2; cbn; ring|]. rewrite !prodR_cons, IH. ring. Qed.
Lemma prodR_ext {A} (l : list A) f g : (forall x, In x l -> f x = g x) -> prodR l f = prodR l g.
Proof. induction l as [|a l IH]; intros H; [reflexivity|]. rewrite !prodR_cons, (H a (or_introl eq_refl)), IH; [reflexivity|]. intros x Hx. apply H. now right. Qed.
Lemma prodR_perm {A} (l l' : list A) f : Permutation l l' -> prodR l f = prodR l' f.
Proof. induction 1; rewrite ?prodR_cons; try congruence. ring. Qed.
Lemma prodR_map {A B} (h : A -> B) l f : prodR (map h l) f = prodR l (fun x => f (h x)).
Proof. induction l as [|a l IH]; [reflexivity|]. cbn [map]. now rewrite !prodR_cons, IH. Qed.
Lemma prodR_flat_map {A B} (h : A -> list B) l f : prodR (flat_map h l) f = prodR l (fun x => prodR (h x) f).
Proof. induction l as [|a l IH]; [reflexivity|]. cbn [flat_map]. now rewrite prodR_app, prodR_cons, IH. Qed.
Lemma prodR_1 {A} (l : list A) f : (forall x, In x l -> f x = 1) -> prodR l f = 1.
Proof. intros H. rewrite (prodR_ext l f (fun _ => 1)) by exact H. clear. induction l as [|a l IH]; [reflexivity|]. rewrite prodR_cons, IH. lra. Qed.

(** ** skipping: a block of [num] positions, position q accepted with probability s q when it is selected *)
Section Skip.
  Variables (p : R) (num : nat) (s : nat -> R) (pr : nat -> nat * nat) (phi : nat -> bool -> R).
  Variable loop : nat -> N -> tape -> option (list (nat * nat) * tape).
  Hypotheses (Hp : 0 < p < 1) (Hnum : (N.of_nat num + 1 < 2 ^ 62)%N) (Hs : forall q, (q < num)%nat -> 0 <= s q <= 1)
    (Hpr : forall q q', (q < num)%nat -> (q' < num)%nat -> pr q = pr q' -> q = q').
  Hypothesis loop_end : forall fuel r t, (N.of_nat num <= r)%N -> loop fuel r t = Some ([], t).
  Hypothesis loop_step : forall fuel q t, (q < num)%nat -> loop (S fuel) (N.of_nat q) t =
    match loop fuel (w64 (N.of_nat q + w64 (1 + geo_of p (val (t 1%nat)))))%N (fun n => t (S (S n))) with
    | Some (hits, t') => Some ((if Rltb (val (t 0%nat)) (s q) then [pr q] else []) ++ hits, t')
    | None => None
    end.
  (** weight of a set of hits, from position r on *)
  Definition wt (r : nat) (hits : list (nat * nat)) : R := prodR (seq r (num - r)) (fun q => phi q (memb (pr q) hits)).
  Definition edge_e (q : nat) : R := p * s q * phi q true + (1 - p * s q) * phi q false.
  Definition est (r : nat) : R := prodR (seq r (num - r)) edge_e.
  Definition from (r : nat) (hits : list (nat * nat)) : Prop := forall h, In h hits -> exists q, (r <= q < num)%nat /\ h = pr q.
  Lemma memb_In e l : memb e l = true <-> In e l.
  Proof.
    unfold memb. rewrite existsb_exists. split.
    - intros (x & I & E). apply andb_true_iff in E as [E1 E2]. apply Nat.eqb_eq in E1, E2. destruct x, e. cbn in *. now subst.
    - intros I. exists e. split; [exact I|]. now rewrite !Nat.eqb_refl.
  Qed.
  Lemma memb_false e l : ~ In e l -> memb e l = false.
  Proof. intros H. destruct (memb e l) eqn:E; [|reflexivity]. apply memb_In in E. contradiction. Qed.
  Lemma est_S r : (r < num)%nat -> est r = edge_e r * est (S r).
  Proof. intros H. unfold est. replace (num - r)%nat with (S (num - S r)) by lia. reflexivity. Qed.
  Lemma est_end r : (num <= r)%nat -> est r = 1.
  Proof. intros H. unfold est. now replace (num - r)%nat with 0%nat by lia. Qed.
  Lemma wt_end r hits : (num <= r)%nat -> wt r hits = 1.
  Proof. intros H. unfold wt. now replace (num - r)%nat with 0%nat by lia. Qed.
  (** no hits before r' *)
  Lemma wt_skip r k hits : (r + k <= num)%nat -> from (r + k) hits -> wt r hits = prodR (seq r k) (fun q => phi q false) * wt (r + k) hits.
  Proof.
    intros H F. unfold wt. replace (num - r)%nat with (k + (num - (r + k)))%nat by lia. rewrite seq_app, prodR_app. f_equal.
    apply prodR_ext. intros q Hq. apply in_seq in Hq. f_equal. apply memb_false. intros I. destruct (F _ I) as (q' & Q1 & Q2). apply Hpr in Q2; lia.
  Qed.
  Lemma wt_hit r hits (b : bool) : (r < num)%nat -> from (S r) hits -> wt r ((if b then [pr r] else []) ++ hits) = phi r b * wt (S r) hits.
  Proof.
    intros H F. unfold wt. replace (num - r)%nat with (S (num - S r)) by lia. cbn [seq]. rewrite prodR_cons. f_equal.
    - f_equal. destruct b; cbn [app].
      + apply memb_In. now left.
      + apply memb_false. intros I. destruct (F _ I) as (q' & Q1 & Q2). apply Hpr in Q2; lia.
    - apply prodR_ext. intros q Hq. apply in_seq in Hq. f_equal. destruct b; [|reflexivity]. cbn [app].
      destruct (memb (pr q) hits) eqn:E.
      + apply memb_In. apply memb_In in E. now right.
      + apply memb_false. intros [I|I]; [apply Hpr in I; lia|]. apply memb_In in I. congruence.
  Qed.
  Definition K (h : list (nat * nat) -> tape -> R) (o : option (list (nat * nat) * tape)) : R := match o with Some (hits, t) => h hits t | None => 0 end.
  Lemma from_app q r hits (b : bool) : (q <= r < num)%nat -> from (S r) hits -> from q ((if b then [pr r] else []) ++ hits).
  Proof. intros H F x I. apply in_app_or in I as [I|I]; [destruct b; [|destruct I]; destruct I as [<-|[]]; exists r; split; [lia|reflexivity]|]. destruct (F x I) as (q' & Q1 & Q2). exists q'. split; [lia|exact Q2]. Qed.
  Lemma w64_id x : (x < 2 ^ 64)%N -> w64 x = x.
  Proof. intros H. unfold w64. rewrite N.land_ones. now apply N.mod_small. Qed.
  (** the telescoping identity *)
  Definition nohit (r k : nat) : R := prodR (seq r k) (fun q => phi q false).
  Definition sel (q : nat) : R := s q * phi q true + (1 - s q) * phi q false.
  Lemma sumf_scale c f m : sumf (fun k => c * f k) m = c * sumf f m.
  Proof. unfold sumf. induction (seq 0 m) as [|a l IHl]; cbn [map fold_right]; [lra|]. rewrite IHl. ring. Qed.
  Lemma sumf_ext f g m : (forall k, (k < m)%nat -> f k = g k) -> sumf f m = sumf g m.
  Proof. intros H. unfold sumf. f_equal. apply map_ext_in. intros k Hk. apply in_seq in Hk. apply H. lia. Qed.
  Lemma telescope : forall m r, m = (num - r)%nat -> (r <= num)%nat ->
    sumf (fun k => p * (1 - p) ^ k * (nohit r k * (sel (r + k) * est (S (r + k))))) m + (1 - p) ^ m * nohit r m = est r.
  Proof.
    induction m as [|m IH]; intros r Em Hr.
    - rewrite est_end by lia. unfold sumf, nohit, prodR. cbn [seq map fold_right pow]. ring.
    - rewrite sumf_shift, (est_S r) by lia. specialize (IH (S r) ltac:(lia) ltac:(lia)).
      rewrite (sumf_ext _ (fun k => (1 - p) * phi r false * (p * (1 - p) ^ k * (nohit (S r) k * (sel (S r + k) * est (S (S r + k))))))).
      2:{ intros k Hk. replace (r + S k)%nat with (S r + k)%nat by lia. unfold nohit. cbn [seq pow]. rewrite prodR_cons. ring. }
      rewrite sumf_scale. replace (nohit r (S m)) with (phi r false * nohit (S r) m) by reflexivity.
      replace (nohit r 0) with 1 by reflexivity. rewrite Nat.add_0_r. cbn [pow].
      transitivity (p * sel r * est (S r) + (1 - p) * phi r false * est (S r)); [|unfold edge_e, sel; ring]. rewrite <- IH at 3. ring.
  Qed.
  Lemma skip_law : forall d r fuel c (h : list (nat * nat) -> tape -> R), (num - r <= d)%nat -> (r <= num)%nat -> (num <= r + fuel)%nat ->
    (forall hits, from r hits -> expects (h hits) (c * wt r hits)) ->
    expects (fun t => K h (loop fuel (w64 (N.of_nat r + geo_of p (val (t 0%nat)))) (ttail t))) (c * est r).
  Proof.
    assert (K1 : (2 ^ 62 = 4611686018427387904)%N) by reflexivity. assert (K2 : (2 ^ 63 = 9223372036854775808)%N) by reflexivity. assert (K3 : (2 ^ 64 = 18446744073709551616)%N) by reflexivity.
    assert (GL : forall u, (geo_of p u < 2 ^ 63)%N) by (intros u; unfold geo_of; lia).
    induction d as [d IH] using lt_wf_ind. intros r fuel c h Hd Hr Hf Hh.
    set (V := fun k : N => if (N.of_nat (r + N.to_nat k) <? N.of_nat num)%N then c * (nohit r (N.to_nat k) * (sel (r + N.to_nat k) * est (S (r + N.to_nat k)))) else c * nohit r (num - r)).
    apply ex_draw with (g := fun u => V (geo_of p u)).
    - intros u. cbn [tcons]. assert (G := GL (val u)). set (k := geo_of p (val u)) in *. rewrite (w64_id (N.of_nat r + k)) by lia. unfold V. destruct (N.ltb_spec (N.of_nat (r + N.to_nat k)) (N.of_nat num)) as [L|L].
      + set (q := (r + N.to_nat k)%nat) in *. replace (N.of_nat r + k)%N with (N.of_nat q) by lia. destruct fuel as [|f]; [lia|].
        apply expects_ext with (fun t => match loop f (w64 (N.of_nat q + w64 (1 + geo_of p (val (t 1%nat)))))%N (fun n => t (S (S n))) with
          | Some (hits, t') => h ((if Rltb (val (t 0%nat)) (s q) then [pr q] else []) ++ hits) t' | None => 0 end).
        { intros t. change (ttail (tcons u t)) with t. rewrite loop_step by lia. unfold K. destruct (loop f _ _) as [[hits t']|]; reflexivity. }
        apply ex_draw with (g := fun x => if Rltb x (s q) then c * nohit r (N.to_nat k) * phi q true * est (S q) else c * nohit r (N.to_nat k) * phi q false * est (S q)).
        * intros u'. cbn [tcons]. set (b := Rltb (val u') (s q)).
          replace (if b then c * nohit r (N.to_nat k) * phi q true * est (S q) else c * nohit r (N.to_nat k) * phi q false * est (S q)) with (c * nohit r (N.to_nat k) * phi q b * est (S q)) by (destruct b; reflexivity).
          apply expects_ext with (fun t => K (fun hits => h ((if b then [pr q] else []) ++ hits)) (loop f (w64 (N.of_nat (S q) + geo_of p (val (t 0%nat)))) (ttail t))).
          { intros t. unfold K. assert (G' := GL (val (t 0%nat))). rewrite (w64_id (1 + geo_of p (val (t 0%nat)))) by lia.
            replace (N.of_nat q + (1 + geo_of p (val (t 0%nat))))%N with (N.of_nat (S q) + geo_of p (val (t 0%nat)))%N by lia. reflexivity. }
          apply (IH (num - S q)%nat); [lia|lia|lia|lia|]. intros hits F.
          replace (c * nohit r (N.to_nat k) * phi q b * wt (S q) hits) with (c * wt r ((if b then [pr q] else []) ++ hits)); [apply Hh; apply from_app; [lia|exact F]|].
          rewrite (wt_skip r (N.to_nat k)); [|lia|apply from_app; [fold q; lia|exact F]]. fold q. rewrite wt_hit by (auto; lia). unfold nohit. ring.
        * replace (c * (nohit r (N.to_nat k) * (sel q * est (S q)))) with (s q * (c * nohit r (N.to_nat k) * phi q true * est (S q)) + (1 - s q) * (c * nohit r (N.to_nat k) * phi q false * est (S q))) by (unfold sel; ring).
          apply RInt_coin. apply Hs. lia.
      + apply expects_ext with (h []).
        { intros t. rewrite loop_end by lia. reflexivity. }
        replace (c * nohit r (num - r)) with (c * wt r []); [apply Hh; intros x []|]. rewrite (wt_skip r (num - r)); [|lia|intros x []]. rewrite wt_end by lia. unfold nohit. ring.
    - rewrite <- (telescope (num - r) r eq_refl Hr).
      replace (c * _) with (sumf (fun k => p * (1 - p) ^ k * V (N.of_nat k)) (num - r) + (1 - p) ^ (num - r) * V (N.of_nat (num - r))).
      + apply RInt_geo; [exact Hp|lia|]. intros k Hk. unfold V. destruct (N.ltb_spec (N.of_nat (r + N.to_nat k)) (N.of_nat num)); [lia|]. destruct (N.ltb_spec (N.of_nat (r + N.to_nat (N.of_nat (num - r)))) (N.of_nat num)); [lia|reflexivity].
      + rewrite Rmult_plus_distr_l, <- sumf_scale. f_equal.
        * apply sumf_ext. intros k Hk. unfold V. rewrite Nat2N.id. destruct (N.ltb_spec (N.of_nat (r + k)) (N.of_nat num)); [ring|lia].
        * unfold V. rewrite Nat2N.id. destruct (N.ltb_spec (N.of_nat (r + (num - r))) (N.of_nat num)); [lia|ring].
  Qed.
End Skip.
