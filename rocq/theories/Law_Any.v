(** The law of the whole graph: the mean of an arbitrary function of the graph, and how much it changes with the probabilities of the pairs. *)
From Coq Require Import Arith NArith ZArith List Bool Reals Lra Lia Permutation.
From Coquelicot Require Import Coquelicot.
From Verif Require Import Base Girg_Num Prob_Spec Prob Prob_Events Prob_Law Draws_Law Draws_Bound.
Import ListNotations.
Local Open Scope R_scope.

(** a graph on the nodes 0..n-1 as the list of its edges u < v in the order of [all_pairs] *)
Definition graph_of (n : nat) (edges : list (nat * nat)) : list (nat * nat) := filter (fun uv => joinedb edges (fst uv) (snd uv)) (all_pairs n).
(** the mean of f(G) for the random graph G that contains each pair of the list independently with probability p: condition on the first pair *)
Fixpoint indep_mean (L : list (nat * nat)) (p : nat -> nat -> R) (f : list (nat * nat) -> R) : R :=
  match L with
  | [] => f []
  | uv :: L => p (fst uv) (snd uv) * indep_mean L p (fun G => f (uv :: G)) + (1 - p (fst uv) (snd uv)) * indep_mean L p f
  end.

(** ** means of sums *)
Lemma expects_add f v : expects f v -> forall g w, expects g w -> expects (fun t => f t + g t) (v + w).
Proof.
  induction 1 as [f v E|f f' v Hf IH HI]; intros g w Hg.
  - apply (expects_ext (fun t => v + g t)); [intros t; now rewrite E|]. now apply expects_plus.
  - destruct Hg as [g w E|g g' w Hg HJ].
    + rewrite Rplus_comm. apply (expects_ext (fun t => w + f t)); [intros t; rewrite E; apply Rplus_comm|]. apply expects_plus. eapply ex_draw; eauto.
    + apply ex_draw with (g := fun x => f' x + g' x); [intros u; exact (IH u _ _ (Hg u))|]. exact (is_RInt_plus (V := R_NormedModule) _ _ 0 1 _ _ HI HJ).
Qed.
Lemma expects_n_add n : forall f g v w, expects_n n f v -> expects_n n g w -> expects_n n (fun t => f t + g t) (v + w).
Proof.
  induction n as [|n IH]; intros f g v w; cbn [expects_n]; [intros -> ->; reflexivity|]. intros (f' & F1 & F2) (g' & G1 & G2). exists (fun t => f' t + g' t). split; [intros t; apply IH; auto|]. now apply expects_add.
Qed.

(** ** from products to arbitrary functions *)
Section Any.
  Variables (k n : nat) (out : list tape -> option (list (nat * nat))) (q : nat -> nat -> R).
  Hypothesis LAW : forall phi, expects_n k (fun tapes => match out tapes with
      | Some edges => prodR (all_pairs n) (fun uv => phi (fst uv) (snd uv) (joinedb edges (fst uv) (snd uv)))
      | None => 0 end)
    (prodR (all_pairs n) (fun uv => q (fst uv) (snd uv) * phi (fst uv) (snd uv) true + (1 - q (fst uv) (snd uv)) * phi (fst uv) (snd uv) false)).
  Lemma any_prefix : forall L2 L1 f, all_pairs n = L1 ++ L2 -> forall phi, expects_n k (fun tapes => match out tapes with
      | Some edges => prodR L1 (fun uv => phi (fst uv) (snd uv) (joinedb edges (fst uv) (snd uv))) * f (filter (fun uv => joinedb edges (fst uv) (snd uv)) L2)
      | None => 0 end)
    (prodR L1 (fun uv => q (fst uv) (snd uv) * phi (fst uv) (snd uv) true + (1 - q (fst uv) (snd uv)) * phi (fst uv) (snd uv) false) * indep_mean L2 q f).
  Proof.
    induction L2 as [|[u v] L2 IH]; intros L1 f E phi.
    - rewrite app_nil_r in E. cbn [filter indep_mean]. rewrite <- E, Rmult_comm. eapply expects_n_ext; [|apply (expects_n_scal k (f [])); apply LAW]. intros tapes _. cbv beta. destruct (out tapes); ring.
    - assert (E' : all_pairs n = (L1 ++ [(u, v)]) ++ L2) by (now rewrite <- app_assoc).
      assert (NI : ~ In (u, v) L1).
      { pose proof (all_pairs_NoDup n) as ND. rewrite E in ND. apply NoDup_remove_2 in ND. intros I. apply ND, in_or_app. now left. }
      set (at1 := fun b0 : bool => fun x y (b : bool) => if (x =? u)%nat && (y =? v)%nat then (if Bool.eqb b b0 then 1 else 0) else phi x y b).
      assert (NE : forall uv b0 b, In uv L1 -> at1 b0 (fst uv) (snd uv) b = phi (fst uv) (snd uv) b).
      { intros [x y] b0 b I. unfold at1. cbn [fst snd]. destruct (Nat.eqb_spec x u) as [->|]; [|reflexivity]. destruct (Nat.eqb_spec y v) as [->|]; [|reflexivity]. contradiction. }
      assert (AT : forall b0 b, at1 b0 u v b = if Bool.eqb b b0 then 1 else 0) by (intros b0 b; unfold at1; now rewrite !Nat.eqb_refl).
      pose proof (IH (L1 ++ [(u, v)]) (fun G => f ((u, v) :: G)) E' (at1 true)) as H1. pose proof (IH (L1 ++ [(u, v)]) f E' (at1 false)) as H0.
      pose proof (expects_n_add k _ _ _ _ H1 H0) as HS. clear H1 H0. cbv beta in HS.
      match type of HS with expects_n _ _ ?v' => match goal with |- expects_n _ _ ?w => replace w with v' end end.
      + eapply expects_n_ext; [|exact HS]. intros tapes _. cbv beta. destruct (out tapes) as [edges|]; [|ring]. rewrite !prodR_app, !prodR_cons. cbn [fst snd]. rewrite !AT.
        rewrite (prodR_ext L1 (fun uv => at1 true (fst uv) (snd uv) (joinedb edges (fst uv) (snd uv))) (fun uv => phi (fst uv) (snd uv) (joinedb edges (fst uv) (snd uv)))) by (intros uv I; now apply NE).
        rewrite (prodR_ext L1 (fun uv => at1 false (fst uv) (snd uv) (joinedb edges (fst uv) (snd uv))) (fun uv => phi (fst uv) (snd uv) (joinedb edges (fst uv) (snd uv)))) by (intros uv I; now apply NE).
        cbn [filter fst snd]. unfold prodR at 2 4. cbn [fold_right]. destruct (joinedb edges u v); cbn [Bool.eqb]; ring.
      + rewrite !prodR_app, !prodR_cons. cbn [fst snd indep_mean]. rewrite !AT. cbn [Bool.eqb]. unfold prodR at 2 4. cbn [fold_right].
        rewrite (prodR_ext L1 (fun uv => q (fst uv) (snd uv) * at1 true (fst uv) (snd uv) true + (1 - q (fst uv) (snd uv)) * at1 true (fst uv) (snd uv) false) (fun uv => q (fst uv) (snd uv) * phi (fst uv) (snd uv) true + (1 - q (fst uv) (snd uv)) * phi (fst uv) (snd uv) false)) by (intros uv I; now rewrite !NE).
        rewrite (prodR_ext L1 (fun uv => q (fst uv) (snd uv) * at1 false (fst uv) (snd uv) true + (1 - q (fst uv) (snd uv)) * at1 false (fst uv) (snd uv) false) (fun uv => q (fst uv) (snd uv) * phi (fst uv) (snd uv) true + (1 - q (fst uv) (snd uv)) * phi (fst uv) (snd uv) false)) by (intros uv I; now rewrite !NE).
        ring.
  Qed.
  Theorem any_law f : expects_n k (fun tapes => match out tapes with Some edges => f (graph_of n edges) | None => 0 end) (indep_mean (all_pairs n) q f).
  Proof.
    pose proof (any_prefix (all_pairs n) [] f eq_refl (fun _ _ _ => 1)) as H. unfold prodR in H. cbn [fold_right] in H. rewrite Rmult_1_l in H. eapply expects_n_ext; [|exact H]. intros tapes _. cbv beta. unfold graph_of. destruct (out tapes); [ring|reflexivity].
  Qed.
End Any.

(** ** properties of the mean *)
Section Mean.
  Variables (p q : nat -> nat -> R).
  Lemma indep_mean_range L : (forall u v, In (u, v) L -> 0 <= p u v <= 1) -> forall f a b, (forall G, a <= f G <= b) -> a <= indep_mean L p f <= b.
  Proof.
    induction L as [|[u v] L IH]; intros HP f a b Hf; [apply Hf|]. cbn [indep_mean fst snd]. pose proof (HP u v (or_introl eq_refl)) as P1. assert (HP' : forall x y, In (x, y) L -> 0 <= p x y <= 1) by (intros; apply HP; now right).
    pose proof (IH HP' (fun G => f ((u, v) :: G)) a b (fun G => Hf _)) as I1. pose proof (IH HP' f a b Hf) as I0. set (x := indep_mean L p (fun G => f ((u, v) :: G))) in *. set (y := indep_mean L p f) in *. set (s := p u v) in *.
    assert (0 <= s * (x - a)) by (apply Rmult_le_pos; lra). assert (0 <= s * (b - x)) by (apply Rmult_le_pos; lra). assert (0 <= (1 - s) * (y - a)) by (apply Rmult_le_pos; lra). assert (0 <= (1 - s) * (b - y)) by (apply Rmult_le_pos; lra). split; lra.
  Qed.
  Lemma indep_mean_close L : (forall u v, In (u, v) L -> 0 <= p u v <= 1 /\ 0 <= q u v <= 1) -> forall f, (forall G, 0 <= f G <= 1) ->
    Rabs (indep_mean L p f - indep_mean L q f) <= sumR (map (fun uv => Rabs (p (fst uv) (snd uv) - q (fst uv) (snd uv))) L).
  Proof.
    induction L as [|[u v] L IH]; intros HP f Hf; [cbn [indep_mean map]; replace (f [] - f []) with 0 by ring; rewrite Rabs_R0; unfold sumR; cbn; lra|]. cbn [indep_mean map fst snd]. destruct (HP u v (or_introl eq_refl)) as [P1 Q1].
    assert (HP' : forall x y, In (x, y) L -> 0 <= p x y <= 1 /\ 0 <= q x y <= 1) by (intros; apply HP; now right).
    pose proof (IH HP' (fun G => f ((u, v) :: G)) (fun G => Hf _)) as I1. pose proof (IH HP' f Hf) as I0. pose proof (indep_mean_range L (fun x y I => proj1 (HP' x y I)) (fun G => f ((u, v) :: G)) 0 1 (fun G => Hf _)) as R1. pose proof (indep_mean_range L (fun x y I => proj1 (HP' x y I)) f 0 1 Hf) as R0.
    unfold sumR in *. cbn [fold_right]. set (sm := fold_right Rplus 0 _) in *. set (x := indep_mean L p (fun G => f ((u, v) :: G))) in *. set (x' := indep_mean L q (fun G => f ((u, v) :: G))) in *. set (y := indep_mean L p f) in *. set (y' := indep_mean L q f) in *. set (s := p u v) in *. set (s' := q u v) in *.
    replace (s * x + (1 - s) * y - (s' * x' + (1 - s') * y')) with ((s - s') * (x - y) + (s' * (x - x') + (1 - s') * (y - y'))) by ring.
    eapply Rle_trans; [apply Rabs_triang|]. apply Rplus_le_compat.
    - rewrite Rabs_mult. rewrite <- (Rmult_1_r (Rabs (s - s'))) at 2. apply Rmult_le_compat_l; [apply Rabs_pos|]. apply Rabs_le. lra.
    - eapply Rle_trans; [apply Rabs_triang|]. rewrite !Rabs_mult, (Rabs_pos_eq s'), (Rabs_pos_eq (1 - s')) by lra. assert (0 <= s' * (sm - Rabs (x - x'))) by (apply Rmult_le_pos; lra). assert (0 <= (1 - s') * (sm - Rabs (y - y'))) by (apply Rmult_le_pos; lra). lra.
  Qed.
  Lemma indep_mean_count L : forall c, indep_mean L p (fun G => c + INR (length G)) = c + sumR (map (fun uv => p (fst uv) (snd uv)) L).
  Proof.
    induction L as [|[u v] L IH]; intros c; [reflexivity|]. cbn [indep_mean map fst snd].
    replace (indep_mean L p (fun G => c + INR (length ((u, v) :: G)))) with (indep_mean L p (fun G => (c + 1) + INR (length G))).
    - rewrite !IH. unfold sumR. cbn [fold_right]. ring.
    - assert (EX : forall L f g, (forall G, f G = g G) -> indep_mean L p f = indep_mean L p g).
      { clear. induction L as [|uv L IH]; intros f g H; [apply H|]. cbn [indep_mean]. rewrite (IH (fun G => f (uv :: G)) (fun G => g (uv :: G))), (IH f g); auto. }
      apply EX. intros G. cbn [length]. rewrite S_INR. ring.
  Qed.
End Mean.
(** the edges of a simple graph are counted by its pairs *)
Lemma graph_count n edges : NoDup edges -> (forall u v, In (u, v) edges -> (u < n)%nat /\ (v < n)%nat /\ u <> v) -> (forall u v, In (u, v) edges -> ~ In (v, u) edges) -> length (graph_of n edges) = length edges.
Proof.
  intros ND RG AN. rewrite <- (map_length norm edges). apply Permutation_length, NoDup_Permutation.
  - apply NoDup_filter, all_pairs_NoDup.
  - apply NoDup_map_in; [|exact ND]. intros [a b] [c d] I1 I2 E. unfold norm in E. cbn [fst snd] in E. destruct (Nat.ltb_spec a b), (Nat.ltb_spec c d); injection E as E1 E2; subst; try reflexivity; exfalso; eapply AN; eauto.
  - intros [u v]. unfold graph_of. rewrite filter_In, all_pairs_In, joinedb_In. cbn [fst snd]. rewrite in_map_iff. split.
    + intros [H [I|I]]; eexists; (split; [|exact I]); unfold norm; cbn [fst snd]; [now rewrite (proj2 (Nat.ltb_lt u v)) by lia|]. destruct (Nat.ltb_spec v u); [lia|reflexivity].
    + intros ([a b] & E & I). destruct (RG a b I) as (A1 & A2 & A3). unfold norm in E. cbn [fst snd] in E. destruct (Nat.ltb_spec a b); injection E as -> ->; (split; [lia|auto]).
Qed.
