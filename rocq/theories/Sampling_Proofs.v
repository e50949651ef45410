From Coq Require Import Arith NArith ZArith List Bool Reals Lia Lra Permutation.
From Verif Require Import Base Sched Tree_Model Sampling_Model.
Import ListNotations.
Local Open Scope nat_scope.

(** the first k results of a step function *)
Fixpoint rows {GT A} (step : GT -> A * GT) (k : nat) (g : GT) : list A :=
  match k with O => [] | S k' => let (a, g') := step g in a :: rows step k' g' end.

Lemma rows_length {GT A} (step : GT -> A * GT) k g : length (rows step k g) = k.
Proof. revert g. induction k as [|k IH]; intros g; cbn; [reflexivity|]. destruct (step g). cbn. now rewrite IH. Qed.
Lemma loop_writes_eq {GT A} (step : GT -> A * GT) idx g : loop_writes step idx g = combine idx (rows step (length idx) g).
Proof. revert g. induction idx as [|i r IH]; intros g; cbn; [reflexivity|]. destruct (step g). cbn. now rewrite IH. Qed.

Lemma combine_app {A B} (a a' : list A) (b b' : list B) : length a = length b -> combine (a ++ a') (b ++ b') = combine a b ++ combine a' b'.
Proof. revert b. induction a as [|x a IH]; intros [|y b] H; cbn in *; try discriminate; [reflexivity|]. now rewrite IH by lia. Qed.

Lemma concat_loops {GT A} (step : GT -> A * GT) blocks gens : length blocks = length gens ->
  concat (map (fun bg => loop_writes step (fst bg) (snd bg)) (combine blocks gens)) =
  combine (concat blocks) (concat (map (fun bg => rows step (length (fst bg)) (snd bg)) (combine blocks gens))).
Proof.
  revert gens. induction blocks as [|b bs IH]; intros [|g gs] H; cbn in *; try discriminate; [reflexivity|].
  rewrite IH by lia. rewrite loop_writes_eq, combine_app; [reflexivity|]. now rewrite rows_length.
Qed.
Lemma concat_rows_length {GT A} (step : GT -> A * GT) (blocks : list (list nat)) gens : length blocks = length gens ->
  length (concat (map (fun bg => rows step (length (fst bg)) (snd bg)) (combine blocks gens))) = length (concat blocks).
Proof.
  revert gens. induction blocks as [|b bs IH]; intros [|g gs] H; cbn in *; try discriminate; [reflexivity|].
  rewrite !app_length, rows_length, IH by lia. reflexivity.
Qed.
Lemma combine_seq_nth {A} (l : list A) s i x : In (i, x) (combine (seq s (length l)) l) -> s <= i /\ nth_error l (i - s) = Some x.
Proof.
  revert s. induction l as [|a l IH]; intros s H; [destruct H|]. cbn in H. destruct H as [[= <- <-]|H].
  - split; [lia|]. now rewrite Nat.sub_diag.
  - destruct (IH (S s) H) as [H1 H2]. split; [lia|]. replace (i - s) with (S (i - S s)) by lia. exact H2.
Qed.

(** the loop fills the array with the concatenated results of the threads, for every interleaving *)
Definition chunks {GT A} (step : GT -> A * GT) (team n : nat) (gens : list GT) : list A :=
  concat (map (fun bg => rows step (length (fst bg)) (snd bg)) (combine (static_split (seq 0 n) team) gens)).
Lemma chunks_length {GT A} (step : GT -> A * GT) team n gens : team <> 0 -> length gens = team -> length (chunks step team n gens) = n.
Proof.
  intros Ht Hg. unfold chunks. rewrite concat_rows_length.
  - rewrite static_split_concat by exact Ht. apply seq_length.
  - unfold static_split. rewrite map_length, seq_length. auto.
Qed.
Theorem filled_iff {GT A} (step : GT -> A * GT) init team n gens o : team <> 0 -> length gens = team ->
  filled step init team n gens o <-> o = Some (chunks step team n gens).
Proof.
  intros Ht Hg. assert (HL : length (static_split (seq 0 n) team) = length gens). { unfold static_split. now rewrite map_length, seq_length. }
  pose proof (chunks_length step team n gens Ht Hg) as HC.
  assert (HW : forall tr, interleaving (map (fun bg => loop_writes step (fst bg) (snd bg)) (combine (static_split (seq 0 n) team) gens)) tr ->
    apply_writes tr (repeat init n) = Some (chunks step team n gens)).
  { intros tr Htr. pose proof (interleaving_Permutation _ _ Htr) as HP. rewrite concat_loops in HP by exact HL.
    rewrite static_split_concat in HP by exact Ht. fold (chunks step team n gens) in HP.
    apply apply_writes_total.
    - now rewrite repeat_length.
    - intros i x Hin. apply (Permutation_in _ HP) in Hin. rewrite <- HC in Hin at 1. apply combine_seq_nth in Hin as [_ Hin]. now rewrite Nat.sub_0_r in Hin.
    - intros i Hi. apply (Permutation_in (l := map fst (combine (seq 0 n) (chunks step team n gens)))).
      + apply Permutation_map. now symmetry.
      + rewrite HC in Hi. assert (HF : forall {X Y} (a : list X) (b : list Y), length a = length b -> map fst (combine a b) = a).
        { induction a as [|y a IHa]; intros [|z b] Hab; cbn in *; try discriminate; [reflexivity|]. now rewrite IHa by lia. }
        rewrite HF by (rewrite seq_length; lia). apply in_seq. lia. }
  unfold filled. split.
  - intros (tr & Htr & ->). now apply HW.
  - intros ->. eexists. split; [apply interleaving_concat|]. symmetry. apply HW, interleaving_concat.
Qed.

Lemma gens_length rg seed team gens : gens_ok rg seed team gens -> length gens = team.
Proof.
  unfold gens_ok. destruct (0 <=? seed)%Z; [intros ->; now rewrite map_length, seq_length|]. intros (ss & <- & ->). now rewrite map_length.
Qed.

Lemma in_rows {GT A} (step : GT -> A * GT) k g x : In x (rows step k g) -> exists g', x = fst (step g').
Proof.
  revert g. induction k as [|k IH]; intros g H; cbn in H; [destruct H|]. destruct (step g) as [a g'] eqn:E. destruct H as [<-|H]; [exists g; now rewrite E|eauto].
Qed.
Lemma in_chunks {GT A} (step : GT -> A * GT) team n gens x : In x (chunks step team n gens) -> exists g', x = fst (step g').
Proof.
  unfold chunks. rewrite in_concat. intros (l & Hl & Hx). apply in_map_iff in Hl as (bg & <- & _). now apply in_rows in Hx.
Qed.
Lemma rows_map {GT A B} (step : GT -> A * GT) (f : A -> B) k g : rows (fun g => let (a, g') := step g in (f a, g')) k g = map f (rows step k g).
Proof. revert g. induction k as [|k IH]; intros g; cbn; [reflexivity|]. destruct (step g). cbn. now rewrite IH. Qed.
Lemma rows_ext {GT A} (s1 s2 : GT -> A * GT) k g : (forall g, s1 g = s2 g) -> rows s1 k g = rows s2 k g.
Proof. intros H. revert g. induction k as [|k IH]; intros g; cbn; [reflexivity|]. rewrite H. destruct (s2 g). now rewrite IH. Qed.

(** positions: d draws per point, in order *)
Fixpoint advance {GT A} (step : GT -> A * GT) (k : nat) (g : GT) : GT :=
  match k with O => g | S k' => advance step k' (snd (step g)) end.
Lemma rows_add {GT A} (step : GT -> A * GT) a b g : rows step (a + b) g = rows step a g ++ rows step b (advance step a g).
Proof. revert g. induction a as [|a IH]; intros g; cbn; [reflexivity|]. destruct (step g) eqn:E. cbn. now rewrite IH. Qed.
Lemma position_step_eq rg d g : position_step rg d g = (rows (u01 rg) d g, advance (u01 rg) d g).
Proof. revert g. induction d as [|d IH]; intros g; cbn; [reflexivity|]. destruct (u01 rg g) eqn:E. cbn. now rewrite IH. Qed.
Lemma rows_positions rg d k g : concat (rows (position_step rg d) k g) = rows (u01 rg) (k * d) g.
Proof.
  revert g. induction k as [|k IH]; intros g; [reflexivity|]. cbn [rows]. rewrite position_step_eq. cbn [concat Nat.mul]. rewrite IH. symmetry. apply rows_add.
Qed.
