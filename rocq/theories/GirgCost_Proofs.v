(** The work of the recursion: proofs. *)
From Coq Require Import Arith NArith ZArith List Bool Reals Permutation Lia Lra Psatz.
From Flocq Require Import Core.
From Verif Require Import Base Sched Bits_Model Bits_Proofs Coord_Model Coord_Proofs Coord_Geo Tree_Model Cover Tree_Proofs Tree_Plan GirgCost_Model.
Import ListNotations.
Local Open Scope N_scope.

Lemma omap_comp {A B C} (f : A -> option B) (g : A -> option C) (h : B -> C) L :
  (forall x, g x = do y <- f x; Some (h y)) -> omap g L = do r <- omap f L; Some (map h r).
Proof.
  intros H. induction L as [|a L IH]; [reflexivity|]. cbn [omap]. rewrite H, IH. destruct (f a); [|reflexivity]. cbn [obind]. destruct (omap f L); reflexivity.
Qed.
Lemma concat_map_flat {A B} (f : A -> list B) L : concat (map (flat_map f) L) = flat_map f (concat L).
Proof. induction L as [|a L IH]; [reflexivity|]. cbn [map concat]. now rewrite flat_map_app, IH. Qed.

(** ** the recorded invocations make the calls of Tree_Model *)
Section Calls.
  Variables (cfg : config) (D : N) (P : tparams) (alpha : alphaT).
  Notation vc := (vis_calls cfg D P alpha).
  Lemma visits_calls : forall fuel A B l, visit cfg D P alpha fuel A B l = do vs <- visits cfg D P fuel A B l; Some (flat_map vc vs).
  Proof.
    induction fuel as [|f IH]; intros A B l; cbn [visit visits]; destruct (touching cfg D A B l) as [[]|] eqn:T; cbn [obind negb]; try reflexivity;
      try (cbn [flat_map vis_calls]; rewrite T, app_nil_r; reflexivity); destruct (l =? p_levels P - 1); cbn [obind flat_map vis_calls]; try (rewrite T, ?app_nil_r; reflexivity); try reflexivity.
    rewrite (omap_comp (fun ab => visits cfg D P f (fst ab) (snd ab) (l + 1)) _ (flat_map vc)) by (intros ab; apply IH).
    destruct (omap _ _) as [rs|]; [|reflexivity]. cbn [obind flat_map vis_calls]. now rewrite T, concat_map_flat.
  Qed.
  Lemma seq_visits_calls fpl : forall fuel A B l, seq_start cfg D P alpha fpl fuel A B l = do x <- seq_visits cfg D P fpl fuel A B l; Some (flat_map vc (fst x), snd x).
  Proof.
    induction fuel as [|f IH]; intros A B l; cbn [seq_start seq_visits]; destruct (touching cfg D A B l) as [[]|] eqn:T; cbn [obind negb]; try reflexivity;
      try (cbn [flat_map vis_calls fst snd]; rewrite T, app_nil_r; reflexivity); destruct (l =? p_levels P - 1); cbn [obind flat_map vis_calls fst snd]; try (rewrite T, ?app_nil_r; reflexivity); try reflexivity.
    rewrite (omap_comp (fun ab => if l + 1 =? fpl then Some ([], [ab]) else seq_visits cfg D P fpl f (fst ab) (snd ab) (l + 1)) _ (fun x => (flat_map vc (fst x), snd x))).
    2:{ intros ab. destruct (l + 1 =? fpl); [reflexivity|]. apply IH. }
    destruct (omap _ _) as [rs|]; [|reflexivity]. cbn [obind flat_map vis_calls fst snd]. rewrite T, !map_map. cbn [fst snd]. f_equal. f_equal. f_equal. rewrite <- concat_map_flat, map_map. reflexivity.
  Qed.
  Lemma par_visits_calls fpl pushes team : par_calls cfg D P alpha fpl pushes team = do vs <- par_visits cfg D P fpl pushes team; Some (map (flat_map vc) vs).
  Proof.
    unfold par_calls, par_visits. destruct (numCellsInLevel D fpl) as [cells|]; [|reflexivity]. cbn [obind]. destruct (firstCellOfLevel D fpl) as [first|]; [|reflexivity]. cbn [obind].
    destruct (negb _); [reflexivity|]. apply omap_comp. intros blk.
    rewrite (omap_comp (fun i => omap (fun ab => visits cfg D P (N.to_nat (p_levels P)) (first + N.of_nat i) (snd ab) fpl) (filter (fun ab => fst ab =? first + N.of_nat i) pushes)) _ (map (flat_map vc))).
    2:{ intros i. apply omap_comp. intros ab. apply visits_calls. }
    destruct (omap _ blk) as [rs|]; [|reflexivity]. cbn [obind]. f_equal. rewrite <- concat_map_flat. f_equal. symmetry. apply concat_map.
  Qed.
  Theorem thread_visits_calls E omp team : thread_calls E cfg D P alpha omp team = do x <- thread_visits E cfg D P omp team; Some (map (flat_map vc) (fst x)).
  Proof.
    unfold thread_calls, thread_visits. destruct (omp =? 1)%nat.
    - rewrite visits_calls. destruct (visits _ _ _ _ _ _ _); reflexivity.
    - destruct (first_parallel_level E D omp) as [fpl|]; [|reflexivity]. cbn [obind]. rewrite seq_visits_calls. destruct (seq_visits _ _ _ _ _ _ _ _) as [[vs pushes]|]; [|reflexivity]. cbn [obind fst snd].
      rewrite par_visits_calls. destruct (par_visits _ _ _ _ _ _) as [par|]; [|reflexivity]. cbn [obind fst]. f_equal. destruct par as [|p0 r]; cbn [map flat_map]; [reflexivity|]. now rewrite flat_map_app.
  Qed.
End Calls.

(** ** every invocation is made exactly once, whatever the number of threads *)
Section Plan.
  Variables (cfg : config) (D : N) (P : tparams).
  Notation c := (p_c P).
  Hypotheses (HD : dim_ok D) (Hc : (c <= 30)%Z) (Hlev : p_levels P = base_level D c 0 0 + 1).
  Notation tb := (touchb cfg D).
  Fixpoint vplan (k : nat) (A B l : N) : list vis :=
    (A, B, l) :: if tb A B l then match k with O => [] | S k' => flat_map (fun ab => vplan k' (fst ab) (snd ab) (l + 1)) (child_pairs D A B) end else [].
  Fixpoint sqplan (fpl : N) (k : nat) (A B l : N) : list vis * list (N * N) :=
    if tb A B l then match k with
      | O => ([(A, B, l)], [])
      | S k' => let rs := map (fun ab => if l + 1 =? fpl then ([], [ab]) else sqplan fpl k' (fst ab) (snd ab) (l + 1)) (child_pairs D A B) in
                ((A, B, l) :: concat (map fst rs), concat (map snd rs))
      end else ([(A, B, l)], []).
  Notation cpin := (child_pairs_In D P HD Hc Hlev).
  Notation tsome := (touching_Some cfg D P HD Hc Hlev).
  Lemma visits_eq : forall k fuel A B l, l < p_levels P -> k = N.to_nat (p_levels P - 1 - l) -> (k <= fuel)%nat ->
    in_level D l A -> in_level D l B -> visits cfg D P fuel A B l = Some (vplan k A B l).
  Proof.
    induction k as [|k IH]; intros fuel A B l Hl Hk Hf HA HB; destruct fuel as [|f]; try lia; cbn [visits vplan]; rewrite tsome by assumption; cbn [obind]; destruct (tb A B l); cbn [negb]; try reflexivity.
    - destruct (N.eqb_spec l (p_levels P - 1)); [reflexivity|lia].
    - destruct (N.eqb_spec l (p_levels P - 1)); [reflexivity|lia].
    - destruct (N.eqb_spec l (p_levels P - 1)); [lia|]. rewrite (omap_map _ (fun ab => vplan k (fst ab) (snd ab) (l + 1))).
      + cbn [obind]. now rewrite flat_map_concat_map.
      + intros ab Hab. destruct (cpin A B l ab ltac:(lia) HA HB Hab). apply IH; auto; lia.
  Qed.
  Lemma seq_visits_eq fpl : forall k fuel A B l, l < p_levels P -> k = N.to_nat (p_levels P - 1 - l) -> (k <= fuel)%nat ->
    in_level D l A -> in_level D l B -> seq_visits cfg D P fpl fuel A B l = Some (sqplan fpl k A B l).
  Proof.
    induction k as [|k IH]; intros fuel A B l Hl Hk Hf HA HB; destruct fuel as [|f]; try lia; cbn [seq_visits sqplan]; rewrite tsome by assumption; cbn [obind]; destruct (tb A B l); cbn [negb]; try reflexivity.
    - destruct (N.eqb_spec l (p_levels P - 1)); [reflexivity|lia].
    - destruct (N.eqb_spec l (p_levels P - 1)); [reflexivity|lia].
    - destruct (N.eqb_spec l (p_levels P - 1)); [lia|]. rewrite (omap_map _ (fun ab => if l + 1 =? fpl then ([], [ab]) else sqplan fpl k (fst ab) (snd ab) (l + 1))).
      + reflexivity.
      + intros ab Hab. destruct (cpin A B l ab ltac:(lia) HA HB Hab). destruct (N.eqb_spec (l + 1) fpl); [reflexivity|]. apply IH; auto; lia.
  Qed.
  Lemma sq_pushes fpl : forall k A B l, l < p_levels P -> k = N.to_nat (p_levels P - 1 - l) -> l < fpl ->
    in_level D l A -> in_level D l B -> forall ab, In ab (snd (sqplan fpl k A B l)) -> in_level D fpl (fst ab) /\ in_level D fpl (snd ab) /\ fpl < p_levels P.
  Proof.
    induction k as [|k IH]; intros A B l Hl Hk Hfp HA HB ab; cbn [sqplan]; destruct (tb A B l); cbn [negb snd]; try (intros []; fail).
    rewrite map_map, <- flat_map_concat_map. intros H. apply in_flat_map in H as (xy & Hxy & H).
    destruct (cpin A B l xy ltac:(lia) HA HB Hxy) as [Hx Hy].
    destruct (N.eqb_spec (l + 1) fpl) as [E|E].
    - cbn [snd] in H. destruct H as [<-|[]]. rewrite <- E. repeat split; auto; try apply Hx; try apply Hy. lia.
    - revert H. apply IH; auto; lia.
  Qed.
  Lemma sq_partition fpl : forall k A B l, k = N.to_nat (p_levels P - 1 - l) -> l < fpl -> l < p_levels P ->
    Permutation (vplan k A B l) (fst (sqplan fpl k A B l) ++ flat_map (fun ab => vplan (N.to_nat (p_levels P - 1 - fpl)) (fst ab) (snd ab) fpl) (snd (sqplan fpl k A B l))).
  Proof.
    induction k as [|k IH]; intros A B l Hk Hf Hl; cbn [vplan sqplan]; destruct (tb A B l); cbn [fst snd flat_map app]; try reflexivity.
    constructor. set (body := fun ab : N * N => vplan (N.to_nat (p_levels P - 1 - fpl)) (fst ab) (snd ab) fpl).
    assert (Q : forall L, Permutation (flat_map (fun ab => vplan k (fst ab) (snd ab) (l + 1)) L)
      (concat (map fst (map (fun ab => if l + 1 =? fpl then ([], [ab]) else sqplan fpl k (fst ab) (snd ab) (l + 1)) L)) ++
       flat_map body (concat (map snd (map (fun ab => if l + 1 =? fpl then ([], [ab]) else sqplan fpl k (fst ab) (snd ab) (l + 1)) L))))).
    { induction L as [|ab L IHL]; [reflexivity|]. cbn [flat_map map concat]. rewrite flat_map_app, IHL.
      assert (PP : Permutation (vplan k (fst ab) (snd ab) (l + 1)) (fst (if l + 1 =? fpl then ([], [ab]) else sqplan fpl k (fst ab) (snd ab) (l + 1)) ++
        flat_map body (snd (if l + 1 =? fpl then ([], [ab]) else sqplan fpl k (fst ab) (snd ab) (l + 1))))).
      { destruct (N.eqb_spec (l + 1) fpl) as [E|E]; [|apply IH; lia]. cbn [fst snd flat_map app]. rewrite app_nil_r. unfold body. rewrite <- E. replace (N.to_nat (p_levels P - 1 - (l + 1))) with k by lia. reflexivity. }
      rewrite PP. rewrite <- !app_assoc. apply Permutation_app_head. apply Permutation_app_swap_app. }
    apply Q.
  Qed.
  Lemma par_visits_eq fpl pushes team : team <> O -> D * fpl < 32 ->
    (forall ab, In ab pushes -> in_level D fpl (fst ab) /\ in_level D fpl (snd ab) /\ fpl < p_levels P) ->
    exists par, par_visits cfg D P fpl pushes team = Some par /\ length par = team /\
      Permutation (concat par) (flat_map (fun ab => vplan (N.to_nat (p_levels P - 1 - fpl)) (fst ab) (snd ab) fpl) pushes).
  Proof.
    intros Ht Hf Hp. unfold par_visits. rewrite numCellsInLevel_Some by exact Hf. cbn [obind].
    rewrite firstCellOfLevel_Some by exact Hf. cbn [obind]. set (cells := 2 ^ (D * fpl)) in *. set (first := fc D fpl) in *.
    assert (Hr : forall ab, In ab pushes -> first <= fst ab < first + cells).
    { intros ab H. destruct (Hp ab H) as ([H1 H2] & _). rewrite fc_succ in H2 by exact HD. fold cells in H2. fold first in H1, H2. lia. }
    assert (Hb : forallb (fun ab => (first <=? fst ab) && (fst ab <? first + cells)) pushes = true).
    { apply forallb_forall. intros ab H. specialize (Hr ab H). apply andb_true_intro. split; [apply N.leb_le|apply N.ltb_lt]; lia. }
    rewrite Hb. cbn [negb].
    set (body := fun ab : N * N => vplan (N.to_nat (p_levels P - 1 - fpl)) (fst ab) (snd ab) fpl).
    set (mine := fun i => filter (fun ab : N * N => fst ab =? first + N.of_nat i) pushes).
    rewrite (omap_map _ (fun blk => concat (concat (map (fun i => map body (mine i)) blk)))).
    2:{ intros blk _. rewrite (omap_map _ (fun i => map body (mine i))); [reflexivity|]. intros i _.
        apply omap_map. intros ab Hab. unfold mine in Hab. apply filter_In in Hab as [Hab E]. apply N.eqb_eq in E. rewrite <- E.
        destruct (Hp ab Hab) as (H1 & H2 & H3). apply visits_eq; auto. lia. }
    eexists. split; [reflexivity|]. split. { rewrite map_length. unfold static_split. now rewrite map_length, seq_length. }
    assert (E1 : concat (map (fun blk => concat (concat (map (fun i => map body (mine i)) blk))) (static_split (seq 0 (N.to_nat cells)) team))
      = flat_map (fun i => flat_map body (mine i)) (seq 0 (N.to_nat cells))).
    { rewrite <- (static_split_concat (seq 0 (N.to_nat cells)) team Ht) at 2. generalize (static_split (seq 0 (N.to_nat cells)) team) as L.
      induction L as [|blk L IH]; cbn [map concat]; auto. rewrite flat_map_app, IH. f_equal. clear.
      induction blk as [|i blk IH]; cbn [map concat flat_map]; auto. rewrite concat_app, IH. f_equal. symmetry. apply flat_map_concat_map. }
    rewrite E1. clear E1.
    assert (E2 : forall L, flat_map (fun i => flat_map body (mine i)) L = flat_map body (flat_map mine L)).
    { clear. induction L as [|i L IH]; cbn [flat_map]; auto. now rewrite IH, flat_map_app. }
    rewrite E2. apply flat_map_perm_list.
    pose proof (group_perm (fun ab : N * N => N.to_nat (fst ab - first)) pushes (N.to_nat cells) 0) as G.
    etransitivity; [|apply G; intros ab Hab; specialize (Hr ab Hab); lia].
    apply flat_map_Permutation. intros i _. unfold mine.
    assert (E3 : filter (fun ab => fst ab =? first + N.of_nat i) pushes = filter (fun x => (N.to_nat (fst x - first) =? i)%nat) pushes).
    { apply filter_ext_in. intros ab Hab. specialize (Hr ab Hab).
      destruct (N.eqb_spec (fst ab) (first + N.of_nat i)), (Nat.eqb_spec (N.to_nat (fst ab - first)) i); auto; lia. }
    now rewrite E3.
  Qed.
  Theorem thread_visits_ok E omp team : fpl_ok D E omp -> (1 <= team <= omp)%nat ->
    exists vs pushes, thread_visits E cfg D P omp team = Some (vs, pushes) /\ Permutation (concat vs) (vplan (N.to_nat (p_levels P - 1)) 0 0 0) /\
      (pushes = [] \/ exists fpl, first_parallel_level E D omp = Some fpl /\ 0 < fpl /\ D * fpl < 32 /\ pushes = snd (sqplan fpl (N.to_nat (p_levels P - 1)) 0 0 0)).
  Proof.
    intros Hf Ht. unfold thread_visits. pose proof (root_level D P HD) as HR.
    destruct (Nat.eqb_spec omp 1) as [E1|E1].
    - rewrite (visits_eq (N.to_nat (p_levels P - 1))) by (auto; lia). cbn [obind]. eexists _, _. split; [reflexivity|].
      split; [|now left]. cbn [concat]. rewrite app_nil_r. reflexivity.
    - destruct Hf as [Hf|(fpl & Ef & Hp & Hb)]; [contradiction|]. rewrite Ef. cbn [obind].
      rewrite (seq_visits_eq fpl (N.to_nat (p_levels P - 1))) by (auto; lia). cbn [obind].
      destruct (sqplan fpl (N.to_nat (p_levels P - 1)) 0 0 0) as [vs0 pu] eqn:ES. pose proof (sq_partition fpl (N.to_nat (p_levels P - 1)) 0 0 0 ltac:(lia) ltac:(lia) ltac:(lia)) as SP. rewrite ES in SP. cbn [fst snd] in SP.
      destruct (par_visits_eq fpl pu team ltac:(lia) Hb) as (par & Epar & Lpar & Hpar).
      { replace pu with (snd (sqplan fpl (N.to_nat (p_levels P - 1)) 0 0 0)) by now rewrite ES. apply sq_pushes; auto; lia. }
      rewrite Epar. cbn [obind]. eexists _, _. split; [reflexivity|]. split.
      + rewrite SP, <- Hpar. destruct par as [|p0 r]; [cbn in Lpar; lia|]. cbn [concat]. now rewrite <- app_assoc.
      + right. exists fpl. rewrite ES. repeat split; auto.
  Qed.
End Plan.
