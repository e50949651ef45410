(** generate and generateEdges of hypergirgs on a correctly built tree: what the runs of all threads decide together. *)
From Coq Require Import Arith NArith ZArith List Bool Reals Permutation Lia Lra.
From Flocq Require Import Core.
From Verif Require Import Base Sched Bits_Model Bits_Proofs Coord_Model Coord_Proofs Coord_Geo IntSort_Model IntSort_Proofs Prop_IntSort Prefix_Model
  Tree_Model Cover Tree_Proofs Tree_Build Tree_Plan Tree_Run Girg_Model Girg_Proofs Girg_Num Hyp_Model Hyp_Math Hyp_Angle Hyp_Levels Hyp_Build Hyp_Run Hyp_Sched Hyp_Threads.
Import ListNotations.
Local Open Scope nat_scope.

Lemma omap_exists {A B} (f : A -> option B) (P : A -> B -> Prop) L : (forall x, In x L -> exists y, f x = Some y /\ P x y) ->
  exists ys, omap f L = Some ys /\ Forall2 P L ys.
Proof.
  induction L as [|a L IH]; intros H; [exists []; auto|]. destruct (H a (or_introl eq_refl)) as (y & E & HP).
  destruct IH as (ys & Es & F); [intros; apply H; now right|]. exists (y :: ys). cbn [omap]. rewrite E. cbn [obind]. rewrite Es. auto.
Qed.
Lemma omap_concat {A B C} (f : A -> option B) (g : C -> list A) L yss : omap (fun c => omap f (g c)) L = Some yss -> omap f (flat_map g L) = Some (concat yss).
Proof.
  revert yss. induction L as [|c L IH]; intros yss; cbn [omap flat_map].
  - intros [= <-]. reflexivity.
  - destruct (omap f (g c)) as [ys|] eqn:E1; [|discriminate]. cbn [obind]. destruct (omap (fun c => omap f (g c)) L) as [zss|] eqn:E2; [|discriminate].
    cbn [obind]. intros [= <-]. cbn [concat]. specialize (IH _ eq_refl). revert ys E1. generalize (g c). induction l as [|a l IHl]; intros ys; cbn [omap app].
    + intros [= <-]. exact IH.
    + destruct (f a); [|discriminate]. cbn [obind]. destruct (omap f l) as [y'|]; [|discriminate]. cbn [obind]. intros [= <-].
      rewrite (IHl y' eq_refl). reflexivity.
Qed.
Lemma omap_length {A B} (f : A -> option B) L ys : omap f L = Some ys -> length ys = length L.
Proof.
  revert ys. induction L as [|a L IH]; intros ys; cbn [omap]; [intros [= <-]; reflexivity|]. destruct (f a); [|discriminate]. cbn [obind].
  destruct (omap f L); [|discriminate]. cbn [obind]. intros [= <-]. cbn [length]. f_equal. now apply IH.
Qed.
Lemma omap_perm {A B} (f : A -> option B) L L' ys ys' : Permutation L L' -> omap f L = Some ys -> omap f L' = Some ys' -> Permutation ys ys'.
Proof.
  intros H. revert ys ys'. induction H as [|x L L' H IH|x y L|L L' L'' H1 IH1 H2 IH2]; intros ys ys'; cbn [omap].
  - intros [= <-] [= <-]. constructor.
  - destruct (f x); [|discriminate]. cbn [obind]. destruct (omap f L); [|discriminate]. destruct (omap f L'); [|discriminate]. cbn [obind].
    intros [= <-] [= <-]. constructor. now apply IH.
  - destruct (f x); [|destruct (f y); discriminate]. destruct (f y); [|discriminate]. cbn [obind]. destruct (omap f L); [|discriminate]. cbn [obind].
    intros [= <-] [= <-]. constructor.
  - intros E1 E2. destruct (omap f L') as [zs|] eqn:E3.
    + rewrite (IH1 _ _ E1 eq_refl). now apply IH2.
    + exfalso. assert (D : forall L L', Permutation L L' -> omap f L = None -> omap f L' = None).
      { clear. induction 1 as [|x L L' H IH|x y L|L L' L'' H1 IH1 H2 IH2]; cbn [omap]; auto.
        - destruct (f x); auto. cbn [obind]. destruct (omap f L); [discriminate|]. intros _. now rewrite IH.
        - destruct (f x), (f y); auto; cbn [obind]; destruct (omap f L); auto; discriminate. }
      rewrite (D _ _ (Permutation_sym H1) E3) in E1. discriminate.
Qed.

(** ** the first parallel level *)
Lemma fpl_defined nt : 2 <= nt <= N.to_nat (2 ^ 17) ->
  exists fpl, hfirst_parallel_level nt = Some fpl /\ (2 <= fpl <= 18)%N /\ (IZR (Z.of_N fpl) < log2R (INR (2 * nt)) + 1 /\ log2R (INR (2 * nt)) <= IZR (Z.of_N fpl))%R.
Proof.
  intros H. assert (HTN : (2 <= N.of_nat nt <= 2 ^ 17)%N) by lia. change (2 ^ 17)%N with 131072%N in HTN.
  assert (HI : (4 <= INR (2 * nt) <= 262144)%R). { rewrite INR_IZR_INZ. split; apply IZR_le; lia. }
  assert (L1 : (IZR 2 <= log2R (INR (2 * nt)))%R). { apply log2R_ge_iff; [lra|]. change (b2 2) with 4%R. lra. }
  assert (L2 : (log2R (INR (2 * nt)) <= IZR 18)%R). { rewrite <- (log2R_b2 18). apply log2R_le; [lra|]. change (b2 18) with 262144%R. lra. }
  unfold hfirst_parallel_level. set (x := log2R (INR (2 * nt))) in *. pose proof (Zceil_ub x) as C1.
  assert (C2 : (IZR (Zceil x) < x + 1)%R).
  { unfold Zceil. rewrite opp_IZR. pose proof (Zfloor_ub (- x)). lra. }
  assert (Z1 : (2 <= Zceil x)%Z) by (apply le_IZR; lra). assert (Z2 : (Zceil x <= 18)%Z) by (apply Zceil_glb; lra).
  rewrite double_to_int_small; [|apply IZR_le; lia|apply IZR_lt; lia]. cbn [obind]. rewrite Zfloor_IZR.
  destruct (Z.ltb_spec (Zceil x) 0); [lia|]. exists (Z.to_N (Zceil x)). split; [reflexivity|]. rewrite Z2N.id by lia. split; [lia|]. split; assumption.
Qed.
Lemma num_tasks_defined fpl : (2 <= fpl <= 18)%N -> exists k, num_tasks fpl = Some k.
Proof.
  intros H. unfold num_tasks. destruct (N.eqb_spec fpl 2); [eauto|]. destruct (N.eqb_spec fpl 0); [lia|].
  pose proof (pow2_lt fpl 18 (proj2 H)) as P1. pose proof (pow2_lt (fpl - 1) 18 ltac:(lia)) as P2. change (2 ^ 18)%N with 262144%N in *.
  change (2 ^ 31)%N with 2147483648%N. destruct (N.ltb_spec (2 * 2 ^ fpl + 3 * 2 ^ (fpl - 1)) 2147483648); [eauto|lia].
Qed.

Section Gen.
  Variables (radii angles : list R) (T Rd : R).
  Hypotheses (DI : disc_input radii angles Rd).
  Variables (t : htree) (ord : list nat) (TS : htree_spec radii angles T Rd t ord).
  Variables (hg : hrng) (GG : good_rng (hb hg)) (nd : bool).
  Variables (part : list (N * N) -> list (N * N)) (HP : is_partition task_eq part).
  Notation n := (length radii).
  Notation levels := (h_levels t).
  Notation seqplan := (hseqplan Rd t).
  Notation plan := (hplan Rd t).
  Notation plan0 := (hplan Rd t (N.to_nat (levels - 1)) 0%N 0%N 0%N).
  Notation keep := (hkeep T nd).
  Notation cpairs := (hcall_pairs radii angles Rd ord).
  Notation decided := (hdecided radii angles T Rd (hb hg)).
  Notation hit := (hhit radii angles Rd).

  (** *** what a list of results decides, when it comes from the calls [cs] *)
  Record covers (cs : list call) (rs : list (result (G (hb hg)))) : Prop := {
    cv_pairs : Permutation (flat_map pairs_of rs) (flat_map cpairs cs);
    cv_le : le_count (flat_map edges_of rs) (flat_map pairs_of rs);
    cv_checks : (fold_right Z.add 0 (map (fun r => type1 r + type2 r) rs) = 2 * Z.of_nat (length (flat_map pairs_of rs)))%Z;
    cv_zero : T = 0%R -> flat_map edges_of rs = filter (fun uv => hit (fst uv) (snd uv)) (flat_map pairs_of rs) }.
  Lemma covers_all (calls : hunit -> list call) us rs : Forall2 (fun u r => decided r (flat_map cpairs (calls u))) us rs -> covers (flat_map calls us) rs.
  Proof.
    induction 1 as [|u r us rs [D1 D2 D3 D4] _ [C1 C2 C3 C4]]; cbn [flat_map map fold_right].
    - constructor; cbn; auto. intros x. apply Nat.le_refl.
    - constructor; cbn [flat_map map fold_right].
      + rewrite flat_map_app, D1. now apply Permutation_app_head.
      + now apply le_count_app.
      + rewrite app_length. lia.
      + intros H0. rewrite filter_app, <- (D4 H0), <- (C4 H0). reflexivity.
  Qed.
  (** *** the calls that are made are those of the plan, except type II calls of release builds at T = 0 *)
  Definition almost_plan (cs : list call) : Prop :=
    exists dropped, Permutation plan0 (cs ++ dropped) /\ (forall x, In x dropped -> isI x = false) /\ (nd && is_zero T = false -> dropped = []).

  Record hsampled (rs : list (result (G (hb hg)))) : Prop := {
    hsa_range : forall u v, In (u, v) (flat_map pairs_of rs) -> u < n /\ v < n /\ u <> v;
    hsa_once : forall u v, u < n -> v < n -> u <> v -> cnt2 (flat_map pairs_of rs) u v <= 1;
    hsa_all : nd && is_zero T = false -> forall u v, u < n -> v < n -> u <> v -> cnt2 (flat_map pairs_of rs) u v = 1;
    hsa_le : le_count (flat_map edges_of rs) (flat_map pairs_of rs);
    hsa_checks : (fold_right Z.add 0 (map (fun r => type1 r + type2 r) rs) = 2 * Z.of_nat (length (flat_map pairs_of rs)))%Z;
    hsa_edges : T = 0%R -> Permutation (flat_map edges_of rs) (filter (fun uv => hit (fst uv) (snd uv)) (flat_map cpairs plan0));
    hsa_hit : T = 0%R -> forall u v, u < n -> v < n -> u <> v -> (In (u, v) (flat_map edges_of rs) \/ In (v, u) (flat_map edges_of rs) <-> hit u v = true) }.
  Lemma sampled_of cs rs : almost_plan cs -> covers cs rs -> hsampled rs.
  Proof.
    intros (dr & P & HD & HK) [C1 C2 C3 C4].
    assert (Hin : forall x, In x (cs ++ dr) -> hcall_ok Rd t x).
    { intros x Hx. apply (hplan0_ok radii angles T Rd DI t ord TS). now apply (Permutation_in _ (Permutation_sym P)). }
    assert (PP : Permutation (flat_map cpairs plan0) (flat_map cpairs cs ++ flat_map cpairs dr)) by (rewrite <- flat_map_app; now apply Permutation_flat_map).
    assert (Hc : forall u v, u < n -> v < n -> u <> v -> cnt2 (flat_map pairs_of rs) u v + cnt2 (flat_map cpairs dr) u v = 1).
    { intros u v Hu Hv Hne. rewrite <- (hplan0_pairs radii angles T Rd DI t ord TS u v Hu Hv Hne). rewrite (cnt2_perm _ _ u v C1).
      assert (E : cnt2 (flat_map cpairs plan0) u v = cnt2 (flat_map cpairs cs ++ flat_map cpairs dr) u v) by (apply cnt2_perm; exact PP).
      rewrite E. unfold cnt2. rewrite !count_occ_app. lia. }
    assert (EZ : T = 0%R -> Permutation (flat_map edges_of rs) (filter (fun uv => hit (fst uv) (snd uv)) (flat_map cpairs plan0))).
    { intros H0. rewrite (C4 H0). rewrite (filter_Permutation _ _ _ PP), filter_app, (filter_Permutation _ _ _ C1).
      rewrite (filter_none _ (flat_map cpairs dr)); [now rewrite app_nil_r|].
      intros [u v] Huv. apply in_flat_map in Huv as (x & Hx & Huv). cbn [fst snd].
      pose proof (HD x Hx) as HI. pose proof (Hin x ltac:(apply in_or_app; now right)) as Hok.
      destruct x as [A B l i j|A B l i j]; [discriminate|]. cbn [hcall_pairs] in Huv. apply in_prod_iff in Huv as [Hu Hv].
      exact (hfar_bound radii angles T Rd DI t ord TS A B l i j u v Hok Hu Hv). }
    constructor; auto.
    - intros u v H. apply (Permutation_in _ C1) in H. apply in_flat_map in H as (x & Hx & H).
      destruct (hcall_pairs_In radii angles T Rd t ord TS x u v H) as [Hu Hv]. split; [exact Hu|]. split; [exact Hv|].
      intros <-. revert H. apply (hcall_pairs_irrefl radii angles T Rd DI t ord TS). apply Hin. apply in_or_app. now left.
    - intros u v Hu Hv Hne. specialize (Hc u v Hu Hv Hne). lia.
    - intros H u v Hu Hv Hne. specialize (Hc u v Hu Hv Hne). rewrite (HK H) in Hc. cbn [flat_map] in Hc. change (cnt2 [] u v) with 0 in Hc. lia.
    - intros H0 u v Hu Hv Hne. specialize (EZ H0).
      assert (EI : forall x y, In (x, y) (flat_map edges_of rs) <-> In (x, y) (flat_map cpairs plan0) /\ hit x y = true).
      { intros x y. split; intros H.
        - apply (Permutation_in _ EZ), filter_In in H. exact H.
        - apply (Permutation_in _ (Permutation_sym EZ)), filter_In. exact H. }
      rewrite !EI. rewrite (hhit_sym radii angles Rd v u). pose proof (hplan0_pairs radii angles T Rd DI t ord TS u v Hu Hv Hne) as H1. split; [tauto|].
      intros H2. unfold cnt2 in H1. destruct (in_dec pair_dec (u, v) (flat_map cpairs plan0)) as [Hin0|n0]; [left; auto|right]. split; [|exact H2].
      apply (count_occ_not_In pair_dec) in n0. apply (count_occ_In pair_dec). lia.
  Qed.

  Lemma perm_partition {A} (p : A -> bool) L : Permutation L (filter p L ++ filter (fun x => negb (p x)) L).
  Proof.
    induction L as [|a L IH]; cbn [filter]; [constructor|]. destruct (p a); cbn [negb app]; [now apply perm_skip|].
    now apply Permutation_cons_app.
  Qed.
  Lemma keep_false x : keep x = false -> isI x = false /\ nd && is_zero T = true.
  Proof. unfold hkeep. destruct (isI x), (nd && is_zero T); cbn; intros H; try discriminate; auto. Qed.
  Lemma keep_all L : nd && is_zero T = false -> filter (fun x => negb (keep x)) L = [].
  Proof. intros H. apply filter_none. intros x _. unfold hkeep. rewrite H. cbn. now rewrite orb_true_r. Qed.
  Lemma almost_seq : almost_plan (filter keep plan0).
  Proof.
    exists (filter (fun x => negb (keep x)) plan0). split; [apply perm_partition|]. split; [|apply keep_all].
    intros x Hx. apply filter_In in Hx as [_ Hx]. apply negb_true_iff in Hx. now apply keep_false.
  Qed.

  (** *** the sequential run *)
  Lemma seq_run g : exists r, (do cs <- hvisit nd t (N.to_nat levels) 0 0 0; do r <- hrun_calls t (hb hg) cs g; Some [[r]]) = Some [[r]] /\
    decided r (flat_map cpairs (filter keep plan0)).
  Proof.
    rewrite (hvisit_eq radii angles T Rd DI t ord TS nd (N.to_nat (levels - 1))).
    - cbn [obind]. destruct (hcalls_decided radii angles T Rd DI t ord TS (hb hg) GG (filter keep plan0)) with (g := g) as (r & E & D).
      + intros x Hx. apply filter_In in Hx as [Hx _]. now apply (hplan0_ok radii angles T Rd DI t ord TS).
      + rewrite E. cbn [obind]. eauto.
    - pose proof (levels_pos radii angles T Rd t ord TS). lia.
    - f_equal. lia.
    - lia.
    - exact root_lv.
    - exact root_lv.
  Qed.

  (** *** the units of a parallel run *)
  Section Par.
    Variables (nt : nat) (fpl : N) (ntask : N).
    Hypotheses (Hnt : 2 <= nt) (Hfpl : (2 <= fpl)%N) (Hlv : (fpl < levels)%N) (Hnum : num_tasks fpl = Some ntask).
    Notation sp := (seqplan fpl (N.to_nat (levels - 1)) 0%N 0%N 0%N).
    Notation created := (snd sp).
    Notation tasks := (part created).
    Variables (gens : list (G (hb hg))) (Hgens : length gens = nt - 1 + N.to_nat ntask).
    Lemma created_eq : hcreate fpl (N.to_nat fpl) 0 0 0 = Some created.
    Proof.
      clear Hgens Hnum Hnt. apply (hcreate_eq radii angles T Rd DI t ord TS fpl Hlv (N.to_nat (levels - 1)) (N.to_nat fpl) 0%N 0%N 0%N); try exact root_lv; try lia.
    Qed.
    Lemma created_len : length created = N.to_nat ntask.
    Proof.
      destruct (task_count fpl ntask Hfpl Hnum) as (ts & E & L). rewrite created_eq in E. injection E as E. rewrite E. lia.
    Qed.
    Lemma tasks_perm : Permutation tasks created.
    Proof. apply HP. Qed.
    Lemma tasks_len : length tasks = N.to_nat ntask.
    Proof. rewrite (Permutation_length tasks_perm). exact created_len. Qed.
    Definition unit_calls (u : hunit) : list call :=
      match u with
      | USample tid => fst (my_calls (nt - 1) tid (fst sp))
      | UTask i => match nth_error tasks i with
                   | Some ab => filter keep (plan (N.to_nat (levels - 1 - fpl)) (fst ab) (snd ab) fpl)
                   | None => []
                   end
      end.
    Definition unit_ok (u : hunit) : Prop := match u with USample tid => tid < nt - 1 | UTask i => i < N.to_nat ntask end.
    Lemma sp_ok x : In x (fst sp) -> hcall_ok Rd t x.
    Proof.
      intros Hx. apply (hplan0_ok radii angles T Rd DI t ord TS).
      apply (Permutation_in _ (Permutation_sym (hphases Rd t fpl Hlv ltac:(lia)))). apply in_or_app. now left.
    Qed.
    Lemma task_ok ab x : In ab tasks -> In x (plan (N.to_nat (levels - 1 - fpl)) (fst ab) (snd ab) fpl) -> hcall_ok Rd t x.
    Proof.
      intros Hab. apply (Permutation_in _ tasks_perm) in Hab.
      destruct (tasks_lv radii angles T Rd DI t ord TS fpl Hlv (N.to_nat (levels - 1)) 0%N 0%N 0%N ltac:(lia) root_lv root_lv ab Hab) as [HA HB].
      apply (hplan_ok radii angles T Rd DI t ord TS); auto.
    Qed.
    Lemma my_calls_In m s xs x : In x (fst (my_calls m s xs)) -> In x xs.
    Proof.
      revert s. induction xs as [|c xs IH]; intros s; cbn [my_calls]; [auto|]. destruct (my_turn m s) as [b s']. specialize (IH s').
      destruct (my_calls m s' xs) as [ys s'']. cbn [fst] in *. destruct b; cbn [app In]; tauto.
    Qed.
    Lemma unit_run u : unit_ok u -> exists r, unit_result nd t hg fpl nt tasks gens u = Some r /\ decided r (flat_map cpairs (unit_calls u)).
    Proof.
      destruct u as [tid|i]; cbn [unit_ok unit_result unit_calls]; intros Hu.
      - rewrite (hsample_eq radii angles T Rd DI t ord TS fpl (nt - 1) Hlv (N.to_nat (levels - 1)) (N.to_nat fpl) 0%N 0%N 0%N tid); try exact root_lv; try lia.
        destruct (my_calls (nt - 1) tid (fst sp)) as [cs s'] eqn:Ec. cbn [obind].
        destruct (nth_error gens tid) as [g|] eqn:Eg; [|apply nth_error_None in Eg; lia]. cbn [obind].
        apply (hcalls_decided radii angles T Rd DI t ord TS (hb hg) GG). intros x Hx. apply sp_ok. apply (my_calls_In (nt - 1) tid). rewrite Ec. exact Hx.
      - destruct (nth_error tasks i) as [ab|] eqn:Ea; [|apply nth_error_None in Ea; rewrite tasks_len in Ea; lia]. cbn [obind].
        pose proof (nth_error_In _ _ Ea) as Hab. apply (Permutation_in _ tasks_perm) in Hab as Hab'.
        destruct (tasks_lv radii angles T Rd DI t ord TS fpl Hlv (N.to_nat (levels - 1)) 0%N 0%N 0%N ltac:(lia) root_lv root_lv ab Hab') as [HA HB].
        rewrite (hvisit_eq radii angles T Rd DI t ord TS nd (N.to_nat (levels - 1 - fpl))); auto; try lia. cbn [obind].
        destruct (nth_error gens (nt - 1 + i)) as [g|] eqn:Eg; [|apply nth_error_None in Eg; lia]. cbn [obind].
        apply (hcalls_decided radii angles T Rd DI t ord TS (hb hg) GG). intros x Hx. apply filter_In in Hx as [Hx _]. exact (task_ok ab x Hab Hx).
    Qed.
    Lemma nth_flat {A} (F : N * N -> list A) L : flat_map (fun i => match nth_error L i with Some ab => F ab | None => [] end) (seq 0 (length L)) = flat_map F L.
    Proof.
      induction L as [|a L IH]; [reflexivity|]. cbn [length seq flat_map nth_error]. f_equal. rewrite <- seq_shift, flat_map_concat_map, map_map, <- flat_map_concat_map. exact IH.
    Qed.
    Lemma almost_par us : Permutation us (map USample (seq 0 (nt - 1)) ++ map UTask (seq 0 (length tasks))) -> almost_plan (flat_map unit_calls us).
    Proof.
      intros HU. set (tp := flat_map (fun ab => plan (N.to_nat (levels - 1 - fpl)) (fst ab) (snd ab) fpl) tasks).
      assert (P : Permutation plan0 (fst sp ++ tp)).
      { rewrite (hphases Rd t fpl Hlv ltac:(lia)). apply Permutation_app_head. apply Permutation_flat_map. symmetry. exact tasks_perm. }
      assert (Q : Permutation (flat_map unit_calls us) (fst sp ++ filter keep tp)).
      { rewrite (Permutation_flat_map unit_calls HU), flat_map_app. apply Permutation_app.
        - rewrite flat_map_concat_map, map_map, <- flat_map_concat_map. cbn [unit_calls]. apply round_robin; [lia|reflexivity].
        - rewrite flat_map_concat_map, map_map, <- flat_map_concat_map. cbn [unit_calls].
          rewrite (nth_flat (fun ab => filter keep (plan (N.to_nat (levels - 1 - fpl)) (fst ab) (snd ab) fpl)) tasks).
          unfold tp. clear. induction tasks as [|a L IH]; [constructor|]. cbn [flat_map]. rewrite filter_app. now apply Permutation_app_head. }
      exists (filter (fun x => negb (keep x)) tp). split; [|split; [|apply keep_all]].
      - rewrite P, Q, <- app_assoc. apply Permutation_app_head. apply perm_partition.
      - intros x Hx. apply filter_In in Hx as [_ Hx]. apply negb_true_iff in Hx. now apply keep_false.
    Qed.
    Lemma par_run k m fin : psteps nt true (length tasks) k m (pinit nt) fin -> pfinished fin ->
      exists rss, omap (thread_results nd t hg fpl nt tasks gens) (ps_threads fin) = Some rss /\ length rss = nt /\ hsampled (concat rss) /\
        exists us, Permutation us (map USample (seq 0 (nt - 1)) ++ map UTask (seq 0 (length tasks))) /\
          omap (unit_result nd t hg fpl nt tasks gens) us = Some (concat rss).
    Proof.
      intros HS HF. pose proof (final_units nt (length tasks) true eq_refl Hnt k m fin HS HF) as HU.
      set (us := flat_map t_units (ps_threads fin)) in *.
      assert (OK : forall u, In u us -> unit_ok u).
      { intros u Hin. apply (Permutation_in _ HU), in_app_or in Hin. destruct Hin as [Hin|Hin]; apply in_map_iff in Hin as (i & <- & Hi); apply in_seq in Hi;
          cbn [unit_ok]; [|rewrite tasks_len in Hi]; lia. }
      destruct (omap_exists (thread_results nd t hg fpl nt tasks gens) (fun _ _ => True) (ps_threads fin)) as (rss & E & _).
      { intros h Hh. unfold thread_results.
        destruct (omap_exists (unit_result nd t hg fpl nt tasks gens) (fun _ _ => True) (t_units h)) as (ys & E & _); [|eauto].
        intros u Hu. destruct (unit_run u) as (r & Er & _); [|eauto]. apply OK. apply in_flat_map. eauto. }
      exists rss. split; [exact E|]. split.
      { rewrite (omap_length _ _ _ E). destruct (inv_steps nt (length tasks) true eq_refl Hnt k m fin HS) as (gpc & I). apply (pi_len _ _ _ _ I). }
      assert (EC : omap (unit_result nd t hg fpl nt tasks gens) us = Some (concat rss)).
      { exact (omap_concat (unit_result nd t hg fpl nt tasks gens) t_units (ps_threads fin) rss E). }
      split; [|exists us; auto].
      apply (sampled_of (flat_map unit_calls us)); [now apply almost_par|]. apply covers_all.
      destruct (omap_exists (unit_result nd t hg fpl nt tasks gens) (fun u r => decided r (flat_map cpairs (unit_calls u))) us) as (ys & E' & F).
      { intros u Hu. apply unit_run. now apply OK. }
      rewrite EC in E'. injection E' as ->. exact F.
    Qed.
  End Par.

  Lemma prngs_len k s : length (initialize_prngs hg k s) = k.
  Proof. unfold initialize_prngs. now rewrite map_length, seq_length. Qed.

  (** *** generate *)
  (** the run can finish: one thread, or as many threads as asked for and enough levels *)
  Definition finishing (nt team : nat) : Prop :=
    (nt = 1 /\ team = 1) \/ (2 <= nt /\ team = nt /\ exists fpl, hfirst_parallel_level nt = Some fpl /\ (fpl < levels)%N).
  Theorem generate_ok seed nt team : 1 <= nt <= N.to_nat (2 ^ 17) -> 1 <= team <= nt ->
    (finishing nt team -> exists rss, generate_outcome nd part t hg seed nt team (Some rss)) /\
    (~ finishing nt team -> forall o, ~ generate_outcome nd part t hg seed nt team o) /\
    forall o, generate_outcome nd part t hg seed nt team o -> exists rss, o = Some rss /\ length rss <= nt /\ hsampled (concat rss).
  Proof.
    intros Hnt Hteam. unfold generate_outcome. destruct (Nat.eqb_spec nt 1) as [->|HN].
    - assert (S1 : forall r, decided r (flat_map cpairs (filter keep plan0)) -> hsampled [r]).
      { intros r D. apply (sampled_of (filter keep plan0)); [apply almost_seq|].
        pose proof (covers_all (fun _ => filter keep plan0) [USample 0] [r]) as C. cbn [flat_map] in C. rewrite app_nil_r in C. apply C. constructor; auto. }
      split; [|split].
      + intros _. destruct (seq_run (rseed (hb hg) seed)) as (r & E & D). exists [[r]]. exists seed. split; [auto|]. now symmetry.
      + intros HF. exfalso. apply HF. left. lia.
      + intros o (s & _ & E). destruct (seq_run (rseed (hb hg) s)) as (r & E' & D). rewrite E' in E. subst o. exists [[r]]. split; [reflexivity|].
        split; [cbn; lia|]. cbn [concat app]. now apply S1.
    - destruct (fpl_defined nt ltac:(lia)) as (fpl & Ef & Hf & _). destruct (num_tasks_defined fpl Hf) as (k & Ek). rewrite Ef. cbn [obind]. rewrite Ek. cbn [obind].
      destruct (task_count fpl k ltac:(lia) Ek) as (created & Ec & Lc). rewrite Ec.
      destruct (N.ltb_spec fpl levels) as [HL|HL].
      + pose proof (created_eq fpl ltac:(lia) HL) as Ec'. rewrite Ec in Ec'. injection Ec' as ->.
        destruct (Nat.eq_dec team nt) as [->|Hne].
        * split; [|split].
          -- intros _.
             destruct (can_finish nt (length (part (snd (seqplan fpl (N.to_nat (levels - 1)) 0%N 0%N 0%N)))) true 0 0 (pinit nt) eq_refl ltac:(lia) (psteps_refl _ _ _ _)) as (k' & fin & HS & HF).
             destruct (par_run nt fpl k ltac:(lia) ltac:(lia) HL Ek (initialize_prngs hg (nt - 1 + N.to_nat k) seed) (prngs_len _ _) _ _ fin HS HF) as (rss & E & _).
             exists rss, seed. split; [auto|]. exists (k' + 0), 0, fin. rewrite E. auto.
          -- intros HF. exfalso. apply HF. right. split; [lia|]. split; [reflexivity|]. eauto.
          -- intros o (s & _ & k' & m & fin & HS & HF & ->).
             destruct (par_run nt fpl k ltac:(lia) ltac:(lia) HL Ek (initialize_prngs hg (nt - 1 + N.to_nat k) s) (prngs_len _ _) _ _ fin HS HF) as (rss & E & L & S & _).
             exists rss. rewrite E. split; [reflexivity|]. split; [lia|exact S].
        * assert (NO : forall o : option (list (list (result (G (hb hg))))), ~ exists s, (0 <= seed -> s = seed)%Z /\ exists k' m fin, psteps nt true (length (part (snd (seqplan fpl (N.to_nat (levels - 1)) 0%N 0%N 0%N)))) k' m (pinit team) fin /\ pfinished fin /\
             o = omap (thread_results nd t hg fpl nt (part (snd (seqplan fpl (N.to_nat (levels - 1)) 0%N 0%N 0%N))) (initialize_prngs hg (nt - 1 + N.to_nat k) s)) (ps_threads fin)).
          { intros o (s & _ & k' & m & fin & HS & HF & _). revert HF.
            assert (H1 : true = false \/ team < nt) by (right; lia). assert (H2 : 2 <= nt) by lia. exact (never_finishes nt _ team true H1 H2 (proj1 Hteam) k' m fin HS). }
          split; [|split].
          -- intros [H|(_ & H & _)]; [lia|contradiction].
          -- intros _. exact NO.
          -- intros o H. exfalso. exact (NO o H).
      + assert (NO : forall o : option (list (list (result (G (hb hg))))), ~ exists s, (0 <= seed -> s = seed)%Z /\ exists k' m fin, psteps nt false (length (part created)) k' m (pinit team) fin /\ pfinished fin /\
             o = omap (thread_results nd t hg fpl nt (part created) (initialize_prngs hg (nt - 1 + N.to_nat k) s)) (ps_threads fin)).
          { intros o (s & _ & k' & m & fin & HS & HF & _). revert HF.
            assert (H1 : false = false \/ team < nt) by (left; reflexivity). assert (H2 : 2 <= nt) by lia. exact (never_finishes nt _ team false H1 H2 (proj1 Hteam) k' m fin HS). }
          split; [|split].
          -- intros [H|(_ & _ & fpl' & H1 & H2)]; [lia|]. rewrite Ef in H1. injection H1 as <-. lia.
          -- intros _. exact NO.
          -- intros o H. exfalso. exact (NO o H).
  Qed.

  (** *** two runs with the same seed *)
  Theorem generate_repro seed nt team rss1 rss2 : 1 <= nt <= N.to_nat (2 ^ 17) -> 1 <= team <= nt -> (0 <= seed)%Z ->
    generate_outcome nd part t hg seed nt team (Some rss1) -> generate_outcome nd part t hg seed nt team (Some rss2) ->
    Permutation (concat rss1) (concat rss2) /\ (nt = 1 -> rss1 = rss2).
  Proof.
    intros Hnt Hteam Hs G1 G2. destruct (generate_ok seed nt team Hnt Hteam) as (_ & NF & _).
    unfold generate_outcome in *. destruct (Nat.eqb_spec nt 1) as [->|HN].
    - destruct G1 as (s1 & E1 & G1), G2 as (s2 & E2 & G2). rewrite (E1 Hs) in G1. rewrite (E2 Hs) in G2. rewrite <- G1 in G2. injection G2 as ->. split; [reflexivity|auto].
    - split; [|intros; contradiction].
      destruct (fpl_defined nt ltac:(lia)) as (fpl & Ef & Hf & _). destruct (num_tasks_defined fpl Hf) as (k & Ek). rewrite Ef in *. cbn [obind] in *. rewrite Ek in *. cbn [obind] in *.
      destruct (task_count fpl k ltac:(lia) Ek) as (created & Ec & Lc). rewrite Ec in *.
      destruct (N.ltb_spec fpl levels) as [HL|HL].
      + destruct (Nat.eq_dec team nt) as [->|Hne].
        * pose proof (created_eq fpl ltac:(lia) HL) as Ec'. rewrite Ec in Ec'. injection Ec' as ->.
          destruct G1 as (s1 & E1 & k1 & m1 & f1 & HS1 & HF1 & G1), G2 as (s2 & E2 & k2 & m2 & f2 & HS2 & HF2 & G2). rewrite (E1 Hs) in G1. rewrite (E2 Hs) in G2.
          set (gens := initialize_prngs hg (nt - 1 + N.to_nat k) seed) in *. assert (HG : length gens = nt - 1 + N.to_nat k) by apply prngs_len.
          destruct (par_run nt fpl k ltac:(lia) ltac:(lia) HL Ek gens HG _ _ f1 HS1 HF1) as (r1 & Q1 & _ & _ & us1 & U1 & V1).
          destruct (par_run nt fpl k ltac:(lia) ltac:(lia) HL Ek gens HG _ _ f2 HS2 HF2) as (r2 & Q2 & _ & _ & us2 & U2 & V2).
          rewrite <- G1 in Q1. rewrite <- G2 in Q2. injection Q1 as <-. injection Q2 as <-.
          exact (omap_perm _ us1 us2 _ _ (Permutation_trans U1 (Permutation_sym U2)) V1 V2).
        * exfalso. apply (NF ltac:(intros [H|(_ & H & _)]; [lia|contradiction]) (Some rss1)). exact G1.
      + exfalso. apply (NF) with (o := Some rss1); [|exact G1]. intros [H|(_ & _ & fpl' & H1 & H2)]; [lia|]. rewrite Ef in H1. injection H1 as <-. lia.
  Qed.
End Gen.

(** ** hypergirgs::generateEdges *)
Theorem hrg_ok radii angles T Rd hg nd part seed omp_max team : disc_input radii angles Rd -> good_rng (hb hg) -> is_partition task_eq part ->
  1 <= omp_max <= 2 ^ 17 + 1 -> 1 <= omp_max <= N.to_nat (2 ^ 17) -> 1 <= team <= omp_max ->
  exists t ord, htree_spec radii angles T Rd t ord /\
    (finishing t omp_max team -> exists o, hrg_outcome nd part hg radii angles T Rd seed omp_max team o) /\
    (~ finishing t omp_max team -> forall o, ~ hrg_outcome nd part hg radii angles T Rd seed omp_max team o) /\
    forall o, hrg_outcome nd part hg radii angles T Rd seed omp_max team o ->
      exists rss edges, generate_outcome nd part t hg seed omp_max team (Some rss) /\ o = Some edges /\
        hsampled radii angles T Rd t ord hg nd (concat rss) /\ interleaving (map (fun rs => flat_map edges_of rs) rss) edges.
Proof.
  intros DI GG HP Ho1 Ho2 Hteam. destruct (hbuild_ok radii angles T Rd DI omp_max Ho1) as (t & ord & TS & HO & HU). exists t, ord. split; [exact TS|].
  destruct (generate_ok radii angles T Rd DI t ord TS hg GG nd part HP seed omp_max team Ho2 Hteam) as (G1 & G2 & G3). split; [|split].
  - intros HF. destruct (G1 HF) as (rss & Hr). destruct (G3 _ Hr) as (rss' & [= <-] & L & _).
    destruct (collect_interleaving (2 ^ 20) omp_max (map (fun rs => flat_map edges_of rs) rss)) as [[o Hc] _]; [rewrite map_length; exact L|].
    exists o. exists (Some t). split; [exact HO|]. exists (Some rss). auto.
  - intros HF o (ot & Hot & H). rewrite (HU _ Hot) in H. destruct H as (ors & Hors & _). exact (G2 HF ors Hors).
  - intros o (ot & Hot & H). rewrite (HU _ Hot) in H. destruct H as (ors & Hors & H). destruct (G3 _ Hors) as (rss & -> & L & S).
    destruct (collect_interleaving (2 ^ 20) omp_max (map (fun rs => flat_map edges_of rs) rss)) as [_ HC]; [rewrite map_length; exact L|].
    destruct (HC o H) as (out & -> & IL). exists rss, out. auto.
Qed.
