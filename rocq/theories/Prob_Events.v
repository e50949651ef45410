(** From decided pairs to the law of the graph: shared by both generators. *)
From Coq Require Import Arith NArith ZArith List Bool Reals Lra Lia Permutation.
From Coquelicot Require Import Coquelicot.
From Coq Require Import FinFun.
From Verif Require Import Base Sched IntSort_Proofs Cover Tree_Model Tree_Run Girg_Proofs Prob_Spec Prob.
Import ListNotations.
Local Open Scope R_scope.

(** the weight of a list of events under phi *)
Definition ev_wt1 (phi : nat -> nat -> bool -> R) (e : event) : R :=
  match e with
  | EPair u v hit => phi u v hit
  | EBlock us vs hits => prodR (list_prod us vs) (fun uv => phi (fst uv) (snd uv) (memb uv hits))
  end.
Definition ev_wt (phi : nat -> nat -> bool -> R) (es : list event) : R := prodR es (ev_wt1 phi).
Lemma ev_wt_app phi a b : ev_wt phi (a ++ b) = ev_wt phi a * ev_wt phi b. Proof. apply prodR_app. Qed.
(** the mean of phi for one pair *)
Definition bern (phi : nat -> nat -> bool -> R) (q : R) (u v : nat) : R := q * phi u v true + (1 - q) * phi u v false.

Lemma NoDup_app_in {A} (l m : list A) : NoDup l -> NoDup m -> (forall x, In x l -> ~ In x m) -> NoDup (l ++ m).
Proof.
  intros Nl Nm H. induction Nl as [|a l N1 N2 IH]; cbn [app]; [exact Nm|]. constructor.
  - rewrite in_app_iff. intros [I|I]; [contradiction|]. exact (H a (or_introl eq_refl) I).
  - apply IH. intros x I. apply H. now right.
Qed.
Lemma NoDup_map_in {A B} (f : A -> B) l : (forall x y, In x l -> In y l -> f x = f y -> x = y) -> NoDup l -> NoDup (map f l).
Proof.
  intros H N. induction N as [|a l N1 N2 IH]; cbn [map]; constructor.
  - intros I. apply in_map_iff in I as (x & E & I). apply N1. rewrite (H a x); auto; [now left|now right].
  - apply IH. intros x y Ix Iy. apply H; now right.
Qed.
(** ** blocks *)
Section Block.
  Variables (us vs : list nat).
  Hypotheses (Nu : NoDup us) (Nv : NoDup vs).
  Definition bpos (q : nat) : nat * nat := (nth (q mod length us) us 0%nat, nth (q / length us) vs 0%nat).
  Lemma bpos_inj q q' : (q < length us * length vs)%nat -> (q' < length us * length vs)%nat -> bpos q = bpos q' -> q = q'.
  Proof.
    intros H H' E. assert (L : length us <> 0%nat) by lia. unfold bpos in E. injection E as E1 E2.
    apply (proj1 (NoDup_nth us 0%nat)) in E1; [|exact Nu| |]; try (apply Nat.mod_upper_bound; exact L).
    apply (proj1 (NoDup_nth vs 0%nat)) in E2; [|exact Nv| |]; try (apply Nat.div_lt_upper_bound; lia).
    rewrite (Nat.div_mod q (length us) L), (Nat.div_mod q' (length us) L). now rewrite E1, E2.
  Qed.
  Lemma bpos_perm : Permutation (map bpos (seq 0 (length us * length vs))) (list_prod us vs).
  Proof.
    apply NoDup_Permutation.
    - apply NoDup_map_in; [|apply seq_NoDup]. intros q q' H H'. apply in_seq in H, H'. apply bpos_inj; lia.
    - now apply NoDup_list_prod.
    - intros [x y]. rewrite in_map_iff, in_prod_iff. split.
      + intros (q & E & H). apply in_seq in H. unfold bpos in E. injection E as <- <-. assert (L : length us <> 0%nat) by lia.
        split; apply nth_In; [now apply Nat.mod_upper_bound|apply Nat.div_lt_upper_bound; lia].
      + intros [Hx Hy]. apply (In_nth _ _ 0%nat) in Hx as (i & Hi & <-). apply (In_nth _ _ 0%nat) in Hy as (j & Hj & <-).
        exists (j * length us + i)%nat. unfold bpos. split; [|apply in_seq; nia].
        rewrite Nat.add_comm, Nat.mod_add, Nat.mod_small, Nat.div_add, Nat.div_small by lia. reflexivity.
  Qed.
End Block.

(** the law of a block that is sampled by skipping *)
Lemma block_law p us vs (pe : nat -> nat -> R) phi loop :
  0 < p < 1 -> (N.of_nat (length us * length vs) + 1 < 2 ^ 62)%N -> NoDup us -> NoDup vs ->
  (forall u v, In u us -> In v vs -> 0 <= pe u v <= p) ->
  (forall fuel r t, (N.of_nat (length us * length vs) <= r)%N -> loop fuel r t = Some ([], t)) ->
  (forall fuel q t, (q < length us * length vs)%nat -> loop (S fuel) (N.of_nat q) t =
    match loop fuel (w64 (N.of_nat q + w64 (1 + geo_of p (val (t 1%nat)))))%N (fun n => t (S (S n))) with
    | Some (hits, t') => Some ((if Rltb (p * val (t 0%nat)) (pe (fst (bpos us vs q)) (snd (bpos us vs q))) then [bpos us vs q] else []) ++ hits, t')
    | None => None
    end) ->
  forall c (h : list (nat * nat) -> tape -> R), (forall hits, expects (h hits) (c * ev_wt1 phi (EBlock us vs hits))) ->
  expects (fun t => K h (loop (length us * length vs)%nat (geo_of p (val (t 0%nat))) (ttail t)))
    (c * prodR (list_prod us vs) (fun uv => bern phi (pe (fst uv) (snd uv)) (fst uv) (snd uv))).
Proof.
  intros Hp Hnum Nu Nv Hpe Lend Lstep c h Hh. set (num := (length us * length vs)%nat) in *.
  set (s := fun q => pe (fst (bpos us vs q)) (snd (bpos us vs q)) / p).
  assert (Hin : forall q, (q < num)%nat -> In (fst (bpos us vs q)) us /\ In (snd (bpos us vs q)) vs).
  { intros q Hq. assert (I : In (bpos us vs q) (list_prod us vs)). { apply (Permutation_in _ (bpos_perm us vs Nu Nv)). apply in_map. apply in_seq. fold num. lia. }
    destruct (bpos us vs q). now apply in_prod_iff in I. }
  assert (Hs : forall q, (q < num)%nat -> 0 <= s q <= 1).
  { intros q Hq. destruct (Hin q Hq) as [I1 I2]. specialize (Hpe _ _ I1 I2). unfold s. split; [apply Rmult_le_pos; [lra|left; apply Rinv_0_lt_compat; lra]|].
    apply Rmult_le_reg_r with p; [lra|]. unfold Rdiv. rewrite Rmult_assoc, Rinv_l by lra. lra. }
  assert (Lstep' : forall fuel q t, (q < num)%nat -> loop (S fuel) (N.of_nat q) t =
    match loop fuel (w64 (N.of_nat q + w64 (1 + geo_of p (val (t 1%nat)))))%N (fun n => t (S (S n))) with
    | Some (hits, t') => Some ((if Rltb (val (t 0%nat)) (s q) then [bpos us vs q] else []) ++ hits, t')
    | None => None
    end).
  { intros fuel q t Hq. rewrite Lstep by exact Hq. destruct (loop fuel _ _) as [[hits t']|]; [|reflexivity].
    assert (E : Rltb (p * val (t 0%nat)) (pe (fst (bpos us vs q)) (snd (bpos us vs q))) = Rltb (val (t 0%nat)) (s q)); [|now rewrite E].
    unfold s. set (x := val (t 0%nat)). set (y := pe _ _). assert (Q : y = y / p * p) by (field; lra). destruct (Rltb x (y / p)) eqn:B.
    - apply Rltb_true in B. apply Rltb_true. nra.
    - apply Rltb_false in B. apply Rltb_false. nra. }
  pose proof (skip_law p num s (bpos us vs) (fun q b => phi (fst (bpos us vs q)) (snd (bpos us vs q)) b) loop Hp Hnum Hs
    (fun q q' H H' => bpos_inj us vs Nu Nv q q' H H') Lend Lstep' num 0%nat num c h ltac:(lia) ltac:(lia) ltac:(lia)) as SL.
  replace (c * prodR (list_prod us vs) _) with (c * est p num s (fun q b => phi (fst (bpos us vs q)) (snd (bpos us vs q)) b) 0).
  - eapply expects_ext; [|apply SL].
    + intros t. cbn beta. f_equal. rewrite w64_id; [reflexivity|]. unfold geo_of. assert (K2 : (2 ^ 63 = 9223372036854775808)%N) by reflexivity. assert (K3 : (2 ^ 64 = 18446744073709551616)%N) by reflexivity. lia.
    + intros hits _. replace (wt num (bpos us vs) _ 0 hits) with (ev_wt1 phi (EBlock us vs hits)); [apply Hh|]. cbn [ev_wt1]. unfold wt.
      rewrite Nat.sub_0_r, <- (prodR_perm _ _ _ (bpos_perm us vs Nu Nv)), prodR_map. fold num. reflexivity.
  - f_equal. unfold est. rewrite Nat.sub_0_r, <- (prodR_perm _ _ _ (bpos_perm us vs Nu Nv)), prodR_map. fold num. apply prodR_ext. intros q _. unfold edge_e, bern, s.
    set (y := pe _ _). replace (p * (y / p)) with y by (field; lra). reflexivity.
Qed.

(** ** from events to the graph *)
Definition ev_ok (e : event) : Prop := forall x, In x (event_edges e) -> In x (event_pairs e).
Definition norm (uv : nat * nat) : nat * nat := if (fst uv <? snd uv)%nat then uv else (snd uv, fst uv).
(** phi is given for pairs u < v *)
Definition sym (phi : nat -> nat -> bool -> R) (u v : nat) (b : bool) : R := if (u <? v)%nat then phi u v b else phi v u b.
Lemma all_pairs_In n u v : In (u, v) (all_pairs n) <-> (u < v < n)%nat.
Proof.
  unfold all_pairs. rewrite in_flat_map. split.
  - intros (x & Hx & H). apply in_map_iff in H as (y & E & Hy). injection E as <- <-. apply in_seq in Hx, Hy. lia.
  - intros H. exists v. split; [apply in_seq; lia|]. apply in_map_iff. exists u. split; [reflexivity|apply in_seq; lia].
Qed.
Lemma all_pairs_NoDup n : NoDup (all_pairs n).
Proof.
  unfold all_pairs. assert (G : forall l, NoDup l -> NoDup (flat_map (fun v => map (fun u => (u, v)) (seq 0 v)) l)); [|apply G, seq_NoDup].
  induction l as [|v l IH]; intros H; [constructor|]. inversion H as [|? ? N1 N2]; subst. cbn [flat_map]. apply NoDup_app_in; [|now apply IH|].
  - apply FinFun.Injective_map_NoDup; [intros a b E; now injection E|apply seq_NoDup].
  - intros [a b] H1 H2. apply in_map_iff in H1 as (x & E & _). injection E as <- <-. apply in_flat_map in H2 as (w & Hw & H2). apply in_map_iff in H2 as (y & E & _). injection E as _ <-. contradiction.
Qed.
Lemma norm_perm (L : list (nat * nat)) n :
  (forall u v, In (u, v) L -> (u < n)%nat /\ (v < n)%nat /\ u <> v) -> (forall u v, (u < n)%nat -> (v < n)%nat -> u <> v -> cnt2 L u v = 1%nat) ->
  Permutation (map norm L) (all_pairs n).
Proof.
  intros HR HC. apply (Permutation_count_occ pair_dec). intros [u v].
  assert (CN : forall M, (forall a b, In (a, b) M -> a <> b) -> cnt (map norm M) (u, v) = if (u <? v)%nat then cnt2 M u v else 0%nat).
  { induction M as [|[a b] M IH]; intros HM; [now destruct (u <? v)%nat|]. assert (Hab : a <> b) by (apply HM; now left). specialize (IH ltac:(intros x y I; apply HM; now right)).
    cbn [map]. unfold norm at 1. cbn [fst snd]. unfold cnt2 in *. cbn [count_occ]. destruct (Nat.ltb_spec a b), (Nat.ltb_spec u v);
      repeat match goal with |- context [pair_dec ?x ?y] => destruct (pair_dec x y) as [?E|?E] end; rewrite ?IH; try lia; try (injection E as ? ?); try (injection E0 as ? ?); try (injection E1 as ? ?); try lia; try congruence. }
  rewrite CN by (intros a b I; now apply HR in I). destruct (Nat.ltb_spec u v) as [L1|L1].
  - destruct (Nat.lt_ge_cases v n) as [L2|L2].
    + rewrite HC by lia. symmetry. apply NoDup_count_occ'; [apply all_pairs_NoDup|]. apply all_pairs_In. lia.
    + rewrite (proj1 (count_occ_not_In pair_dec (all_pairs n) (u, v))) by (rewrite all_pairs_In; lia). unfold cnt2.
      rewrite !(proj1 (count_occ_not_In pair_dec L _)); [reflexivity| |]; intros I; apply HR in I; lia.
  - symmetry. apply count_occ_not_In. rewrite all_pairs_In. lia.
Qed.
Lemma prodR_norm (L : list (nat * nat)) n (f : nat -> nat -> R) :
  (forall u v, In (u, v) L -> (u < n)%nat /\ (v < n)%nat /\ u <> v) -> (forall u v, (u < n)%nat -> (v < n)%nat -> u <> v -> cnt2 L u v = 1%nat) ->
  (forall u v, f u v = f v u) -> prodR L (fun uv => f (fst uv) (snd uv)) = prodR (all_pairs n) (fun uv => f (fst uv) (snd uv)).
Proof.
  intros HR HC Hf. rewrite <- (prodR_perm _ _ _ (norm_perm L n HR HC)), prodR_map. apply prodR_ext. intros [u v] _. unfold norm. cbn [fst snd]. destruct (u <? v)%nat; cbn [fst snd]; auto.
Qed.
Lemma sym_comm phi u v b : u <> v -> sym phi u v b = sym phi v u b.
Proof. intros H. unfold sym. destruct (Nat.ltb_spec u v), (Nat.ltb_spec v u); try lia; reflexivity. Qed.
Lemma joinedb_comm edges u v : joinedb edges u v = joinedb edges v u. Proof. unfold joinedb. apply orb_comm. Qed.
Lemma joinedb_In edges u v : joinedb edges u v = true <-> In (u, v) edges \/ In (v, u) edges.
Proof. unfold joinedb. rewrite orb_true_iff, !memb_In. reflexivity. Qed.
Lemma cnt_In L x : (1 <= cnt L x)%nat <-> In x L. Proof. symmetry. rewrite (count_occ_In pair_dec). lia. Qed.
Lemma in_edges_pairs es x : List.Forall ev_ok es -> In x (flat_map event_edges es) -> In x (flat_map event_pairs es).
Proof. intros F I. apply in_flat_map in I as (e & He & I). apply in_flat_map. exists e. split; [exact He|]. rewrite List.Forall_forall in F. now apply F. Qed.
Lemma ev_wt_joined phi es : List.Forall ev_ok es ->
  (forall u v, In (u, v) (flat_map event_pairs es) -> u <> v /\ cnt2 (flat_map event_pairs es) u v = 1%nat) ->
  ev_wt phi es = prodR (flat_map event_pairs es) (fun uv => phi (fst uv) (snd uv) (joinedb (flat_map event_edges es) (fst uv) (snd uv))).
Proof.
  intros F HC. unfold ev_wt. rewrite prodR_flat_map. apply prodR_ext. intros e He. apply in_split in He as (es1 & es2 & ->).
  assert (Fe : ev_ok e) by (rewrite List.Forall_forall in F; apply F, in_or_app; right; now left).
  assert (F' : List.Forall ev_ok (es1 ++ es2)).
  { apply List.Forall_forall. intros x I. rewrite List.Forall_forall in F. apply F. apply in_app_or in I. apply in_or_app. destruct I; [now left|right; now right]. }
  assert (JE : forall u v, In (u, v) (event_pairs e) -> joinedb (flat_map event_edges (es1 ++ e :: es2)) u v = memb (u, v) (event_edges e)).
  { intros u v I. assert (Hc : cnt2 (flat_map event_pairs (es1 ++ e :: es2)) u v = 1%nat) by (apply HC; rewrite flat_map_app; cbn [flat_map]; apply in_or_app; right; apply in_or_app; now left).
    rewrite flat_map_app in Hc. cbn [flat_map] in Hc. rewrite !cnt2_app in Hc. assert (C1 := I). apply cnt_In in C1. unfold cnt2 in Hc.
    assert (NO : forall x, (x = (u, v) \/ x = (v, u)) -> ~ In x (flat_map event_edges (es1 ++ es2))).
    { intros x Hx Ix. apply in_edges_pairs in Ix; [|exact F']. rewrite flat_map_app in Ix. apply in_app_or in Ix. destruct Hx as [->| ->]; destruct Ix as [Ix|Ix]; apply cnt_In in Ix; lia. }
    assert (NV : ~ In (v, u) (event_edges e)). { intros Ix. apply Fe in Ix. apply cnt_In in Ix. lia. }
    assert (Spl : forall x, In x (flat_map event_edges (es1 ++ e :: es2)) <-> In x (event_edges e) \/ In x (flat_map event_edges (es1 ++ es2))).
    { intros x. rewrite !flat_map_app. cbn [flat_map]. rewrite !in_app_iff. tauto. }
    destruct (memb (u, v) (event_edges e)) eqn:B.
    - apply joinedb_In. left. apply Spl. left. now apply memb_In.
    - destruct (joinedb _ u v) eqn:J; [|reflexivity]. exfalso. apply joinedb_In in J. rewrite !Spl in J. destruct J as [[J|J]|[J|J]].
      + apply memb_In in J. congruence.
      + now apply (NO (u, v)); auto.
      + contradiction.
      + now apply (NO (v, u)); auto. }
  destruct e as [u v hit|us vs hits]; cbn [ev_wt1 event_pairs].
  - rewrite prodR_cons. cbn [fst snd]. rewrite JE by now left. cbn [event_edges]. unfold prodR. cbn [fold_right].
    destruct hit; cbn; [rewrite !Nat.eqb_refl; cbn|]; ring.
  - apply prodR_ext. intros [u v] I. cbn [fst snd]. now rewrite JE.
Qed.
Theorem graph_weight phi es n : List.Forall ev_ok es ->
  (forall u v, In (u, v) (flat_map event_pairs es) -> (u < n)%nat /\ (v < n)%nat /\ u <> v) ->
  (forall u v, (u < n)%nat -> (v < n)%nat -> u <> v -> cnt2 (flat_map event_pairs es) u v = 1%nat) ->
  prodR (all_pairs n) (fun uv => phi (fst uv) (snd uv) (joinedb (flat_map event_edges es) (fst uv) (snd uv))) = ev_wt (sym phi) es.
Proof.
  intros F HR HC. rewrite (ev_wt_joined (sym phi) es F).
  2:{ intros u v I. destruct (HR u v I) as (H1 & H2 & H3). split; [exact H3|now apply HC]. }
  rewrite <- (prodR_perm _ _ _ (norm_perm _ n HR HC)), prodR_map. apply prodR_ext. intros [u v] I. unfold norm, sym. cbn [fst snd].
  destruct (u <? v)%nat; cbn [fst snd]; [reflexivity|]. now rewrite joinedb_comm.
Qed.
