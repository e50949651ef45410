(** The parallel part of the hyperbolic generator: how the calls are split among threads and tasks, and every execution of the threads. *)
From Coq Require Import Arith NArith ZArith List Bool Reals Permutation Lia Lra.
From Verif Require Import Base Sched Bits_Model Bits_Proofs Coord_Model Coord_Proofs Coord_Geo IntSort_Model IntSort_Proofs Prefix_Model
  Tree_Model Cover Tree_Proofs Tree_Build Tree_Plan Tree_Run Hyp_Model Hyp_Math Hyp_Angle Hyp_Levels Hyp_Build Hyp_Run.
Import ListNotations.
Local Open Scope nat_scope.

(** ** Round robin *)
Lemma my_calls_app nt xs : forall s ys,
  my_calls nt s (xs ++ ys) =
  (fst (my_calls nt s xs) ++ fst (my_calls nt (snd (my_calls nt s xs)) ys), snd (my_calls nt (snd (my_calls nt s xs)) ys)).
Proof.
  induction xs as [|c xs IH]; intros s ys; cbn [app my_calls fst snd].
  - now destruct (my_calls nt s ys).
  - destruct (my_turn nt s) as [m s1]. rewrite IH. destruct (my_calls nt s1 xs) as [r s2]. cbn [fst snd]. now rewrite app_assoc.
Qed.
Definition nxt (nt s : nat) : nat := if S s =? nt then 0 else S s.
Lemma nxt_perm nt ss : 0 < nt -> Permutation ss (seq 0 nt) -> Permutation (map (nxt nt) ss) (seq 0 nt).
Proof.
  intros Hn H. rewrite (Permutation_map (nxt nt) H). destruct nt as [|k]; [lia|].
  assert (E : map (nxt (S k)) (seq 0 (S k)) = map (nxt (S k)) (seq 0 k) ++ [0]).
  { rewrite seq_S, map_app. cbn [plus map]. unfold nxt at 2. now rewrite Nat.eqb_refl. }
  rewrite E, Permutation_app_comm. cbn [app]. change (seq 0 (S k)) with (0 :: seq 1 k). apply perm_skip.
  rewrite <- seq_shift. erewrite map_ext_in; [reflexivity|]. intros a Ha. apply in_seq in Ha. unfold nxt.
  destruct (Nat.eqb_spec (S a) (S k)); [lia|reflexivity].
Qed.
Lemma flat_map_split {A B} (f g : A -> list B) l : Permutation (flat_map (fun x => f x ++ g x) l) (flat_map f l ++ flat_map g l).
Proof.
  induction l as [|a l IH]; cbn [flat_map]; [reflexivity|]. rewrite IH, <- !app_assoc. apply Permutation_app_head.
  rewrite !app_assoc. apply Permutation_app_tail, Permutation_app_comm.
Qed.
Lemma flat_map_single {A B} (p : A -> bool) (b : B) (l : list A) : length (filter p l) = 1 -> flat_map (fun x => if p x then [b] else []) l = [b].
Proof.
  intros H. assert (E : forall l, flat_map (fun x => if p x then [b] else []) l = repeat b (length (filter p l))).
  { clear. induction l as [|x l IH]; cbn [flat_map filter]; [reflexivity|]. destruct (p x); cbn [app length repeat]; now rewrite IH. }
  now rewrite E, H.
Qed.
Theorem round_robin nt xs : 0 < nt -> forall ss, Permutation ss (seq 0 nt) ->
  Permutation (flat_map (fun s => fst (my_calls nt s xs)) ss) xs.
Proof.
  intros Hn. induction xs as [|c xs IH]; intros ss Hss; cbn [my_calls].
  - clear. induction ss; cbn; auto.
  - rewrite (flat_map_ext _ (fun s => (if S s =? nt then [c] else []) ++ fst (my_calls nt (nxt nt s) xs))).
    2: { intros s. unfold my_turn, nxt. destruct (S s =? nt); destruct (my_calls nt _ xs); reflexivity. }
    rewrite flat_map_split. rewrite (flat_map_single (fun s => S s =? nt) c).
    + cbn [app]. apply perm_skip.
      assert (E : flat_map (fun s => fst (my_calls nt (nxt nt s) xs)) ss = flat_map (fun s => fst (my_calls nt s xs)) (map (nxt nt) ss)).
      { rewrite !flat_map_concat_map, map_map. reflexivity. }
      rewrite E. apply IH. now apply nxt_perm.
    + assert (P : length (filter (fun s => S s =? nt) ss) = length (filter (fun s => S s =? nt) (seq 0 nt))).
      { clear - Hss. induction Hss; cbn [filter]; auto; repeat (destruct (S _ =? nt); cbn [length]); try lia; congruence. }
      rewrite P. destruct nt as [|k]; [lia|]. rewrite seq_S, filter_app, app_length. cbn [plus filter]. rewrite Nat.eqb_refl. cbn [length].
      rewrite (filter_none (fun s => S s =? S k) (seq 0 k)); [reflexivity|]. intros a Ha. apply in_seq in Ha. apply Nat.eqb_neq. lia.
Qed.
(** the same distribution, call by call *)
Fixpoint every (nt tid k : nat) (xs : list call) : list call :=
  match xs with [] => [] | c :: r => (if (tid + k + 1) mod nt =? 0 then [c] else []) ++ every nt tid (S k) r end.
Lemma my_calls_every nt tid xs : 0 < nt -> forall s k, s < nt -> (tid + k) mod nt = s -> fst (my_calls nt s xs) = every nt tid k xs.
Proof.
  intros Hn. induction xs as [|c xs IH]; intros s k Hs Hk; cbn [my_calls every]; [reflexivity|]. unfold my_turn.
  assert (E : (tid + S k) mod nt = if S s =? nt then 0 else S s).
  { replace (tid + S k) with (tid + k + 1) by lia. rewrite Nat.add_mod, Hk by lia. destruct (Nat.eqb_spec (S s) nt) as [E|E].
    - destruct (Nat.eq_dec nt 1) as [->|]; [now rewrite !Nat.mod_1_r|]. rewrite (Nat.mod_small 1) by lia. replace (s + 1) with nt by lia. now apply Nat.mod_same; lia.
    - rewrite (Nat.mod_small 1) by lia. rewrite Nat.mod_small by lia. lia. }
  replace (tid + k + 1) with (tid + S k) by lia. rewrite E. destruct (Nat.eqb_spec (S s) nt) as [Es|Es].
  - specialize (IH 0 (S k) ltac:(lia) E). destruct (my_calls nt 0 xs). cbn [fst] in *. now rewrite IH.
  - specialize (IH (S s) (S k) ltac:(lia) E). destruct (my_calls nt (S s) xs). cbn [fst] in *. now rewrite IH.
Qed.

(** ** The number of tasks *)
Section Count.
  Local Open Scope N_scope.
  Lemma cp_self l A : l < 31 -> in_lv l A -> hchild_pairs A A = [(2 * A + 1, 2 * A + 1); (2 * A + 1, 2 * A + 2); (2 * A + 2, 2 * A + 2)].
  Proof. intros Hl HA. unfold hchild_pairs. destruct (hfirstChild_eq l A Hl HA) as (E1 & E2 & _). rewrite E2, E1, N.eqb_refl. reflexivity. Qed.
  Lemma cp_ne l A B : l < 31 -> in_lv l A -> in_lv l B -> A <> B ->
    hchild_pairs A B = [(2 * A + 1, 2 * B + 1); (2 * A + 1, 2 * B + 2); (2 * A + 2, 2 * B + 2); (2 * A + 2, 2 * B + 1)].
  Proof.
    intros Hl HA HB HN. unfold hchild_pairs. destruct (hfirstChild_eq l A Hl HA) as (E1 & E2 & _). destruct (hfirstChild_eq l B Hl HB) as (E3 & E4 & _).
    rewrite E2, E4, E1, E3. destruct (N.eqb_spec A B); [contradiction|]. reflexivity.
  Qed.
  Lemma kid1 l A : in_lv l A -> in_lv (l + 1) (2 * A + 1).
  Proof. intros H. apply (hkids_in_lv l A); [exact H|left; reflexivity]. Qed.
  Lemma kid2 l A : in_lv l A -> in_lv (l + 1) (2 * A + 2).
  Proof. intros H. apply (hkids_in_lv l A); [exact H|right; left; reflexivity]. Qed.
  Lemma hcreate_far fpl f A B l : l < 31 -> in_lv l A -> in_lv l B -> 2 <= ring l A B -> hcreate fpl f A B l = Some [].
  Proof.
    intros Hl HA HB Hr. destruct f; cbn [hcreate]; rewrite (htouching_eq l A B ltac:(lia) HA HB); cbn [obind];
      (destruct (N.leb_spec (ring l A B) 1); [lia|reflexivity]).
  Qed.
  Lemma nb_kids p A B d : 4 <= p -> d = N.max A B - N.min A B -> d < p -> N.min d (p - d) = 1 ->
    let r a b := N.min (N.max a b - N.min a b) (2 * p - (N.max a b - N.min a b)) in
    2 <= r (2 * A + 1) (2 * B + 1) /\ 2 <= r (2 * A + 2) (2 * B + 2) /\
    ((r (2 * A + 1) (2 * B + 2) = 1 /\ 2 * A + 1 <> 2 * B + 2 /\ 2 <= r (2 * A + 2) (2 * B + 1)) \/
     (r (2 * A + 2) (2 * B + 1) = 1 /\ 2 * A + 2 <> 2 * B + 1 /\ 2 <= r (2 * A + 1) (2 * B + 2))).
  Proof.
    intros Hp Hd Hdp Hm r.
    assert (R1 : forall a b, a <= b -> r a b = N.min (b - a) (2 * p - (b - a))) by (intros a b H; unfold r; rewrite (N.max_r a b), (N.min_l a b) by exact H; reflexivity).
    assert (R2 : forall a b, b <= a -> r a b = N.min (a - b) (2 * p - (a - b))) by (intros a b H; unfold r; rewrite (N.max_l a b), (N.min_r a b) by exact H; reflexivity).
    clearbody r.
    assert (C : (A <= B /\ d = B - A) \/ (B <= A /\ d = A - B)) by lia. clear Hd.
    assert (D : d = 1 \/ d = p - 1) by lia. clear Hm.
    destruct C as [[C ->]|[C ->]], D as [D|D].
    - assert (B = A + 1) by lia. subst B. rewrite !R1 by lia. split; [lia|]. split; [lia|]. right. lia.
    - assert (B = A + p - 1) by lia. subst B. rewrite !R1 by lia. split; [lia|]. split; [lia|]. left. lia.
    - assert (A = B + 1) by lia. subst A. rewrite !R2 by lia. split; [lia|]. split; [lia|]. left. lia.
    - assert (A = B + p - 1) by lia. subst A. rewrite !R2 by lia. split; [lia|]. split; [lia|]. right. lia.
  Qed.
  Lemma hcreate_nb fpl : fpl < 31 -> forall k f l A B, (k <= f)%nat -> 2 <= l -> l + 1 + N.of_nat k = fpl -> in_lv l A -> in_lv l B -> ring l A B = 1 -> A <> B ->
    exists ts, hcreate fpl f A B l = Some ts /\ length ts = 4%nat.
  Proof.
    intros H31. induction k as [|k IH]; intros f l A B Hf Hl Hk HA HB Hr HN;
      assert (Hl31 : l < 31) by lia; pose proof (cp_ne l A B Hl31 HA HB HN) as Ecp.
    - exists (hchild_pairs A B). split; [|rewrite Ecp; reflexivity].
      destruct f; cbn [hcreate]; rewrite (htouching_eq l A B ltac:(lia) HA HB), Hr; cbn [obind N.leb N.compare negb]; change (1 <=? 1) with true; cbn [negb];
        (destruct (N.eqb_spec (l + 1) fpl); [reflexivity|lia]).
    - destruct f as [|f]; [lia|]. cbn [hcreate]. rewrite (htouching_eq l A B ltac:(lia) HA HB), Hr. cbn [obind]. change (1 <=? 1) with true. cbn [negb].
      destruct (N.eqb_spec (l + 1) fpl); [lia|]. rewrite Ecp. cbn [omap fst snd].
      assert (P : 4 <= 2 ^ l) by (apply (pow2_lt 2 l Hl)).
      assert (E : 2 ^ (l + 1) = 2 * 2 ^ l) by (rewrite N.pow_add_r; change (2 ^ 1) with 2; lia).
      pose proof (kid1 l A HA) as A1. pose proof (kid2 l A HA) as A2. pose proof (kid1 l B HB) as B1. pose proof (kid2 l B HB) as B2.
      pose proof (cell_diff_lt l A B HA HB) as Hd.
      destruct (nb_kids (2 ^ l) A B (cell_diff A B) P eq_refl Hd Hr) as (K1 & K2 & C). cbn zeta in K1, K2, C. rewrite <- E in K1, K2, C.
      fold (cell_diff (2 * A + 1) (2 * B + 1)) in K1. fold (cell_diff (2 * A + 2) (2 * B + 2)) in K2.
      fold (cell_diff (2 * A + 1) (2 * B + 2)) in C. fold (cell_diff (2 * A + 2) (2 * B + 1)) in C.
      fold (ring (l + 1) (2 * A + 1) (2 * B + 1)) in K1. fold (ring (l + 1) (2 * A + 2) (2 * B + 2)) in K2.
      fold (ring (l + 1) (2 * A + 1) (2 * B + 2)) in C. fold (ring (l + 1) (2 * A + 2) (2 * B + 1)) in C.
      rewrite (hcreate_far fpl f (2 * A + 1) (2 * B + 1)); [|lia|exact A1|exact B1|exact K1].
      rewrite (hcreate_far fpl f (2 * A + 2) (2 * B + 2)); [|lia|exact A2|exact B2|exact K2].
      destruct C as [(C1 & C2 & C3)|(C1 & C2 & C3)].
      + destruct (IH f (l + 1) (2 * A + 1) (2 * B + 2) ltac:(lia) ltac:(lia) ltac:(lia) A1 B2 C1 C2) as (ts & -> & Hts).
        rewrite (hcreate_far fpl f (2 * A + 2) (2 * B + 1)); [|lia|exact A2|exact B1|exact C3].
        cbn [obind concat app]. eexists. split; [reflexivity|]. now rewrite app_nil_r.
      + destruct (IH f (l + 1) (2 * A + 2) (2 * B + 1) ltac:(lia) ltac:(lia) ltac:(lia) A2 B1 C1 C2) as (ts & -> & Hts).
        rewrite (hcreate_far fpl f (2 * A + 1) (2 * B + 2)); [|lia|exact A1|exact B2|exact C3].
        cbn [obind concat app]. eexists. split; [reflexivity|]. now rewrite app_nil_r.
  Qed.
  Lemma hcreate_self fpl : fpl < 31 -> forall k f l A, (k <= f)%nat -> 1 <= l -> l + 1 + N.of_nat k = fpl -> in_lv l A ->
    exists ts, hcreate fpl f A A l = Some ts /\ (length ts + 4 = 7 * 2 ^ k)%nat.
  Proof.
    intros H31. induction k as [|k IH]; intros f l A Hf Hl Hk HA; assert (Hl31 : l < 31) by lia; pose proof (cp_self l A Hl31 HA) as Ecp.
    - exists (hchild_pairs A A). split; [|rewrite Ecp; reflexivity].
      destruct f; cbn [hcreate]; rewrite htouching_self; cbn [obind negb]; (destruct (N.eqb_spec (l + 1) fpl); [reflexivity|lia]).
    - destruct f as [|f]; [lia|]. cbn [hcreate]. rewrite htouching_self; cbn [obind negb].
      destruct (N.eqb_spec (l + 1) fpl); [lia|]. rewrite Ecp. cbn [omap fst snd].
      pose proof (kid1 l A HA) as A1. pose proof (kid2 l A HA) as A2.
      assert (P : 2 <= 2 ^ l) by (apply (pow2_lt 1 l Hl)).
      assert (E : 2 ^ (l + 1) = 2 * 2 ^ l) by (rewrite N.pow_add_r; change (2 ^ 1) with 2; lia).
      destruct (IH f (l + 1) (2 * A + 1) ltac:(lia) ltac:(lia) ltac:(lia) A1) as (t1 & -> & H1).
      destruct (IH f (l + 1) (2 * A + 2) ltac:(lia) ltac:(lia) ltac:(lia) A2) as (t2 & -> & H2).
      destruct (hcreate_nb fpl H31 k f (l + 1) (2 * A + 1) (2 * A + 2) ltac:(lia) ltac:(lia) ltac:(lia) A1 A2) as (t3 & -> & H3).
      { unfold ring, cell_diff. rewrite E. lia. }
      { lia. }
      cbn [obind concat]. eexists. split; [reflexivity|]. rewrite !app_length. cbn [length]. rewrite Nat.pow_succ_r'. lia.
  Qed.
  Lemma hcreate_12 fpl : fpl < 31 -> forall k f, (k <= f)%nat -> 2 + N.of_nat k = fpl ->
    exists ts, hcreate fpl f 1 2 1 = Some ts /\ (length ts = if k =? 0 then 4 else 8)%nat.
  Proof.
    intros H31 k f Hf Hk.
    assert (L1 : in_lv 1 1) by (unfold in_lv, hfc; cbn; lia). assert (L2 : in_lv 1 2) by (unfold in_lv, hfc; cbn; lia).
    assert (Ecp : hchild_pairs 1 2 = [(3, 5); (3, 6); (4, 6); (4, 5)]) by reflexivity.
    assert (Et : htouching 1 2 1 = Some true) by reflexivity.
    destruct k as [|k].
    - exists (hchild_pairs 1 2). split; [|rewrite Ecp; reflexivity].
      destruct f; cbn [hcreate]; rewrite Et; cbn [obind negb]; (destruct (N.eqb_spec (1 + 1) fpl); [reflexivity|lia]).
    - destruct f as [|f]; [lia|]. cbn [hcreate]. rewrite Et. cbn [obind negb]. destruct (N.eqb_spec (1 + 1) fpl); [lia|].
      rewrite Ecp. cbn [omap fst snd]. change (1 + 1) with 2.
      assert (L : forall x, 3 <= x <= 6 -> in_lv 2 x) by (intros x Hx; unfold in_lv, hfc; cbn; lia).
      rewrite (hcreate_far fpl f 3 5); [|lia|apply L; lia|apply L; lia|cbn; lia].
      rewrite (hcreate_far fpl f 4 6); [|lia|apply L; lia|apply L; lia|cbn; lia].
      destruct (hcreate_nb fpl H31 k f 2 3 6 ltac:(lia) ltac:(lia) ltac:(lia) ltac:(apply L; lia) ltac:(apply L; lia) eq_refl ltac:(lia)) as (t1 & -> & H1).
      destruct (hcreate_nb fpl H31 k f 2 4 5 ltac:(lia) ltac:(lia) ltac:(lia) ltac:(apply L; lia) ltac:(apply L; lia) eq_refl ltac:(lia)) as (t2 & -> & H2).
      cbn [obind concat app]. eexists. split; [reflexivity|]. rewrite app_nil_r, app_length, H1, H2. reflexivity.
  Qed.
  Theorem task_count fpl nt : 2 <= fpl -> num_tasks fpl = Some nt ->
    exists ts, hcreate fpl (N.to_nat fpl) 0 0 0 = Some ts /\ N.of_nat (length ts) = nt.
  Proof.
    intros H2 Hn.
    assert (H31 : fpl < 31).
    { destruct (N.lt_ge_cases fpl 31) as [|H]; [assumption|]. exfalso. unfold num_tasks in Hn.
      destruct (N.eqb_spec fpl 2); [lia|]. destruct (N.eqb_spec fpl 0); [lia|].
      pose proof (pow2_lt 31 fpl H) as P. change (2 ^ 31) with 2147483648 in *. destruct (N.ltb_spec (2 * 2 ^ fpl + 3 * 2 ^ (fpl - 1)) 2147483648); [lia|discriminate]. }
    set (k := N.to_nat (fpl - 2)). assert (Hk : 2 + N.of_nat k = fpl) by (unfold k; lia).
    assert (Ef : N.to_nat fpl = S (S k)) by (unfold k; lia). rewrite Ef. generalize (Nat.le_succ_diag_r k). generalize (S k) as f. intros f Hf.
    assert (L0 : in_lv 0 0) by (unfold in_lv, hfc; cbn; lia).
    assert (L1 : in_lv 1 1) by (unfold in_lv, hfc; cbn; lia). assert (L2 : in_lv 1 2) by (unfold in_lv, hfc; cbn; lia).
    cbn [hcreate]. rewrite htouching_self. cbn [obind negb]. destruct (N.eqb_spec (0 + 1) fpl); [lia|].
    change (hchild_pairs 0 0) with [(1, 1); (1, 2); (2, 2)]. cbn [omap fst snd]. change (0 + 1) with 1.
    destruct (hcreate_self fpl H31 k f 1 1 ltac:(lia) ltac:(lia) ltac:(lia) L1) as (t1 & E1 & H1).
    destruct (hcreate_self fpl H31 k f 1 2 ltac:(lia) ltac:(lia) ltac:(lia) L2) as (t3 & E3 & H3).
    destruct (hcreate_12 fpl H31 k f ltac:(lia) Hk) as (t2 & E4 & H4).
    rewrite E1, E4, E3. cbn [obind concat]. eexists. split; [reflexivity|]. rewrite !app_length. cbn [length].
    unfold num_tasks in Hn. destruct (N.eqb_spec fpl 2) as [E|E].
    - assert (k = 0%nat) by lia. subst k. rewrite H in *. cbn in *. injection Hn as <-. lia.
    - destruct (N.eqb_spec fpl 0); [lia|]. destruct (_ <? _) in Hn; [|discriminate]. assert (En : nt = 2 * 2 ^ fpl + 3 * 2 ^ (fpl - 1)) by congruence. clear Hn. rewrite En.
      assert (K : k <> 0%nat) by lia. rewrite (proj2 (Nat.eqb_neq k 0) K) in H4.
      assert (P1 : 2 ^ (fpl - 1) = 2 * 2 ^ N.of_nat k) by (replace (fpl - 1) with (1 + N.of_nat k) by lia; rewrite N.pow_add_r; reflexivity).
      assert (P2 : 2 ^ fpl = 2 * 2 ^ (fpl - 1)) by (replace fpl with (1 + (fpl - 1)) at 1 by lia; rewrite N.pow_add_r; reflexivity).
      assert (P3 : N.of_nat (2 ^ k) = 2 ^ N.of_nat k).
      { clear. induction k as [|k IH]; [reflexivity|]. rewrite Nat.pow_succ_r', Nat2N.inj_mul, IH, (Nat2N.inj_succ k), N.pow_succ_r'. reflexivity. }
      rewrite P2, P1, <- P3. lia.
  Qed.
End Count.

(** ** The calls of both phases *)
Section Phases.
  Local Open Scope N_scope.
  Variables (radii angles : list R) (T Rd : R).
  Hypotheses (DI : disc_input radii angles Rd).
  Variables (t : htree) (ord : list nat) (TS : htree_spec radii angles T Rd t ord).
  Notation levels := (h_levels t).
  Notation seqplan := (hseqplan Rd t).
  Notation plan := (hplan Rd t).

  Lemma hcreate_eq fpl : fpl < levels -> forall k f A B l, l < fpl -> k = N.to_nat (levels - 1 - l) -> (N.to_nat (fpl - l) <= f)%nat -> in_lv l A -> in_lv l B ->
    hcreate fpl f A B l = Some (snd (seqplan fpl k A B l)).
  Proof.
    intros Hfp. induction k as [|k IH]; intros f A B l Hl Hk Hf HA HB; [lia|]. destruct f as [|f]; [lia|].
    cbn [hcreate]. rewrite (htouching_Some radii angles T Rd DI t ord TS A B l ltac:(lia) HA HB). cbn [obind].
    unfold hseqplan. cbn [gseq]. destruct (htouchb A B l); cbn [negb]; [|reflexivity].
    destruct (N.eqb_spec (l + 1) fpl) as [E|E].
    - cbn [snd]. rewrite map_map. cbn [snd]. f_equal. generalize (hchild_pairs A B). intros L. induction L as [|x L IHL]; [reflexivity|]. cbn. now rewrite <- IHL.
    - rewrite (omap_map _ (fun ab => snd (seqplan fpl k (fst ab) (snd ab) (l + 1)))).
      + cbn [obind snd]. rewrite map_map. reflexivity.
      + intros ab Hab. destruct (hchild_lv radii angles T Rd DI t ord TS A B l ab ltac:(lia) HA HB Hab). apply IH; auto; lia.
  Qed.
  Lemma hsample_eq fpl nt : fpl < levels -> forall k f A B l s, l < fpl -> k = N.to_nat (levels - 1 - l) -> (N.to_nat (fpl - l) <= f)%nat -> in_lv l A -> in_lv l B ->
    hsample t fpl nt f A B l s = Some (my_calls nt s (fst (seqplan fpl k A B l))).
  Proof.
    intros Hfp. induction k as [|k IH]; intros f A B l s Hl Hk Hf HA HB; [lia|]. destruct f as [|f]; [lia|].
    cbn [hsample]. rewrite (htouching_Some radii angles T Rd DI t ord TS A B l ltac:(lia) HA HB). cbn [obind].
    unfold hseqplan. cbn [gseq]. rewrite (far_eq radii angles T Rd DI t ord TS). rewrite (near_eq radii angles T Rd DI t ord TS).
    destruct (htouchb A B l); cbn [negb]; [|reflexivity].
    destruct (N.eqb_spec l (levels - 1)); [lia|].
    destruct (my_calls nt s (gnear (h_layers t) (base Rd) A B l)) as [cs s1] eqn:Ecs.
    destruct (N.eqb_spec (l + 1) fpl) as [E|E].
    - cbn [fst]. rewrite map_map. cbn [fst]. f_equal. rewrite <- Ecs. f_equal.
      rewrite <- (app_nil_r (gnear _ _ A B l)) at 1. f_equal. generalize (hchild_pairs A B). intros L. induction L as [|x L IHL]; [reflexivity|]. cbn. exact IHL.
    - assert (G : forall L s, (forall ab, In ab L -> In ab (hchild_pairs A B)) ->
        (fix children (abs : list (N * N)) (s : nat) : option (list call * nat) :=
           match abs with
           | [] => Some ([], s)
           | ab :: r => do (c1, s') <- hsample t fpl nt f (fst ab) (snd ab) (l + 1) s;
                        do (c2, s'') <- children r s';
                        Some (c1 ++ c2, s'')
           end) L s = Some (my_calls nt s (concat (map (fun ab => fst (seqplan fpl k (fst ab) (snd ab) (l + 1))) L)))).
      { induction L as [|ab L IHL]; intros s' HL; [reflexivity|].
        destruct (hchild_lv radii angles T Rd DI t ord TS A B l ab ltac:(lia) HA HB (HL _ (or_introl eq_refl))) as [Ha Hb].
        rewrite (IH f (fst ab) (snd ab) (l + 1) s') by (auto; lia). cbn [obind map concat]. rewrite my_calls_app.
        destruct (my_calls nt s' (fst (seqplan fpl k (fst ab) (snd ab) (l + 1)))) as [c1 s2]. cbn [fst snd obind].
        rewrite IHL by (intros x Hx; apply HL; now right). destruct (my_calls nt s2 _) as [c2 s3]. reflexivity. }
      rewrite G by auto. cbn [fst]. rewrite my_calls_app, Ecs. cbn [fst snd]. rewrite map_map. unfold hseqplan.
      destruct (my_calls nt s1 _) as [c2 s2]. reflexivity.
  Qed.
  Lemma hphases fpl : fpl < levels -> 0 < fpl ->
    Permutation (plan (N.to_nat (levels - 1)) 0 0 0)
      (fst (seqplan fpl (N.to_nat (levels - 1)) 0 0 0) ++
       flat_map (fun ab => plan (N.to_nat (levels - 1 - fpl)) (fst ab) (snd ab) fpl) (snd (seqplan fpl (N.to_nat (levels - 1)) 0 0 0))).
  Proof.
    intros H1 H2. apply gseq_partition; [rewrite N.sub_0_r; reflexivity|lia|lia].
  Qed.
  (** the tasks are pairs of cells of level first_parallel_level *)
  Lemma tasks_lv fpl : fpl < levels -> forall k A B l, l < fpl -> in_lv l A -> in_lv l B ->
    forall ab, In ab (snd (seqplan fpl k A B l)) -> in_lv fpl (fst ab) /\ in_lv fpl (snd ab).
  Proof.
    intros Hfp. induction k as [|k IH]; intros A B l Hl HA HB ab; unfold hseqplan; cbn [gseq]; destruct (htouchb A B l); cbn [negb snd]; try (intros []; fail).
    rewrite map_map. rewrite in_concat. intros (x & Hx & Hab). apply in_map_iff in Hx as (y & <- & Hy).
    destruct (hchild_lv radii angles T Rd DI t ord TS A B l y ltac:(lia) HA HB Hy) as [H1 H2].
    destruct (N.eqb_spec (l + 1) fpl) as [<-|E]; cbn [snd] in Hab.
    - destruct Hab as [<-|[]]. split; assumption.
    - apply (IH (fst y) (snd y) (l + 1)); auto. lia.
  Qed.
End Phases.
