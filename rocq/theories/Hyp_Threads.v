(** Executions of the threads of the parallel region of hypergirgs' generate: who runs what, deadlock freedom, number of steps. *)
From Coq Require Import Arith NArith ZArith List Bool Reals Permutation Lia.
From Verif Require Import Base Sched Tree_Model Hyp_Model.
Import ListNotations.
Local Open Scope nat_scope.

(** ** Units *)
Definition samples_of (us : list hunit) : list nat := flat_map (fun u => match u with USample k => [k] | UTask _ => [] end) us.
Definition tasks_of (us : list hunit) : list nat := flat_map (fun u => match u with UTask k => [k] | USample _ => [] end) us.
Lemma units_perm us : Permutation us (map USample (samples_of us) ++ map UTask (tasks_of us)).
Proof.
  induction us as [|[k|k] us IH]; [constructor| |]; cbn [samples_of tasks_of flat_map app map].
  - apply perm_skip. exact IH.
  - apply Permutation_cons_app. exact IH.
Qed.
Lemma samples_app a b : samples_of (a ++ b) = samples_of a ++ samples_of b.
Proof. apply flat_map_app. Qed.
Lemma tasks_app a b : tasks_of (a ++ b) = tasks_of a ++ tasks_of b.
Proof. apply flat_map_app. Qed.

Lemma nth_mid {A} (pre : list A) (h : A) post i : nth_error (pre ++ h :: post) i = if i =? length pre then Some h else nth_error (pre ++ h :: post) i.
Proof. destruct (Nat.eqb_spec i (length pre)) as [->|]; [|reflexivity]. rewrite nth_error_app2, Nat.sub_diag by lia. reflexivity. Qed.
Lemma nth_upd_mid {A} (pre : list A) (h h' : A) post i :
  nth_error (pre ++ h' :: post) i = if i =? length pre then Some h' else nth_error (pre ++ h :: post) i.
Proof.
  destruct (Nat.eqb_spec i (length pre)) as [->|HN]; [rewrite nth_error_app2, Nat.sub_diag by lia; reflexivity|].
  destruct (Nat.lt_ge_cases i (length pre)); [rewrite !nth_error_app1 by lia; reflexivity|].
  rewrite !nth_error_app2 by lia. destruct (i - length pre) eqn:E; [lia|reflexivity].
Qed.
Lemma nth_wake l i : nth_error (map wake l) i = option_map wake (nth_error l i).
Proof. revert i. induction l; intros [|i]; cbn; auto. Qed.
Lemma wake_units h : t_units (wake h) = t_units h.
Proof. unfold wake. destruct (t_pc h); reflexivity. Qed.

Section Threads.
  Variables (nt ntasks : nat) (hast : bool).

  Definition post_notify (p : pc) : bool := match p with PLoop | PDone => true | _ => false end.
  Definition flag_pc (p : pc) : bool := match p with PNotify | PLoop | PDone => true | _ => false end.
  Definition holder (p : pc) : bool := match p with PTest | PGenSet => true | _ => false end.
  Definition gen_pc (p : pc) : bool := match p with PGenLock | PGenSet | PNotify => true | _ => false end.
  Definition wait_pc (p : pc) : bool := match p with PRead | PLock | PTest | PSleep => true | _ => false end.
  Definition started (p : pc) : bool := match p with PStart => false | _ => true end.

  (** ** The invariant, for a team of exactly num_threads threads and first_parallel_level < m_levels *)
  Record tinv (s : pstate) (i : nat) (h : thread) (gpc : pc) : Prop := {
    ti_gen : gen_pc (t_pc h) = true -> S i = nt;
    ti_wait : wait_pc (t_pc h) = true -> S i < nt;
    ti_hold : holder (t_pc h) = true <-> ps_mutex s = Some i;
    ti_post : post_notify (t_pc h) = true -> ps_flag s = true;
    ti_sleep : t_pc h = PSleep -> post_notify gpc = false;
    ti_done : t_pc h = PDone -> ps_tasks s <= ps_next s;
    ti_sample : samples_of (t_units h) = if (S i <? nt) && started (t_pc h) then [i] else [] }.
  Record pinv (s : pstate) (gpc : pc) : Prop := {
    pi_len : length (ps_threads s) = nt;
    pi_gen : exists g, nth_error (ps_threads s) (nt - 1) = Some g /\ t_pc g = gpc;
    pi_thr : forall i h, nth_error (ps_threads s) i = Some h -> tinv s i h gpc;
    pi_flag : ps_flag s = flag_pc gpc;
    pi_tasks : ps_tasks s = if started gpc then ntasks else 0;
    pi_next : started gpc = false -> ps_next s = 0;
    pi_mutex : forall i, ps_mutex s = Some i -> i < nt;
    pi_units : Permutation (flat_map (fun h => tasks_of (t_units h)) (ps_threads s)) (seq 0 (min (ps_next s) (ps_tasks s))) }.

  Lemma thr_upd_inv s s' pre h h' post gpc : pinv s gpc -> ps_threads s = pre ++ h :: post -> ps_threads s' = pre ++ h' :: post ->
    let gpc' := if S (length pre) =? nt then t_pc h' else gpc in
    tinv s' (length pre) h' gpc' ->
    (forall i, i <> length pre -> (ps_mutex s = Some i <-> ps_mutex s' = Some i)) ->
    (ps_flag s = true -> ps_flag s' = true) ->
    (post_notify gpc' = true -> post_notify gpc = true) ->
    (ps_flag s = true -> ps_tasks s <= ps_next s -> ps_tasks s' <= ps_next s') ->
    ps_flag s' = flag_pc gpc' ->
    ps_tasks s' = (if started gpc' then ntasks else 0) ->
    (started gpc' = false -> ps_next s' = 0) ->
    Permutation (flat_map (fun h => tasks_of (t_units h)) (ps_threads s')) (seq 0 (min (ps_next s') (ps_tasks s'))) ->
    pinv s' gpc'.
  Proof.
    intros I E E' gpc' T M F P D C1 C2 C3 C5. destruct I as [L (g & G1 & G2) Th FI TI NI MI UI]. rewrite E in *.
    assert (Lp : length pre < nt) by (rewrite app_length in L; cbn [length] in L; lia).
    constructor.
    - rewrite E'. rewrite app_length in *. cbn [length] in *. lia.
    - rewrite E'. setoid_rewrite (nth_upd_mid pre h h' post). unfold gpc'. destruct (Nat.eqb_spec (S (length pre)) nt) as [X|X].
      + exists h'. destruct (Nat.eqb_spec (nt - 1) (length pre)); [|lia]. auto.
      + exists g. destruct (Nat.eqb_spec (nt - 1) (length pre)); [lia|]. auto.
    - intros i x. rewrite E', (nth_upd_mid pre h h' post). destruct (Nat.eqb_spec i (length pre)) as [->|X].
      + intros [= <-]. exact T.
      + intros Hx. destruct (Th i x Hx) as [T1 T2 T3 T4 T5 T6 T7]. constructor; auto.
        * now rewrite T3, (M i X).
        * intros Hs. specialize (T5 Hs). destruct (post_notify gpc') eqn:Q; [|reflexivity]. rewrite (P eq_refl) in T5. discriminate.
        * intros Hs. apply D; auto. apply T4. now rewrite Hs.
    - exact C1.
    - exact C2.
    - exact C3.
    - intros i Hi. destruct (Nat.eq_dec i (length pre)) as [->|X]; [exact Lp|]. apply MI, (M i X). exact Hi.
    - exact C5.
  Qed.
  Lemma flat_mid {A B} (f : A -> list B) pre h h' post us : f h' = f h ++ us ->
    Permutation (flat_map f (pre ++ h' :: post)) (flat_map f (pre ++ h :: post) ++ us).
  Proof.
    intros H. rewrite !flat_map_app. cbn [flat_map]. rewrite H, <- !app_assoc. do 2 apply Permutation_app_head. apply Permutation_app_comm.
  Qed.

  Hypothesis (Hast : hast = true) (Hnt : 2 <= nt).
  Lemma inv_init : pinv (pinit nt) PStart.
  Proof.
    constructor; cbn [pinit ps_flag ps_mutex ps_tasks ps_next ps_threads].
    - apply repeat_length.
    - eexists. split; [apply nth_error_repeat; lia|reflexivity].
    - intros i h Hi. apply nth_error_In, repeat_spec in Hi. subst h. constructor; cbn; try discriminate.
      + split; discriminate.
      + now rewrite andb_false_r.
    - reflexivity.
    - reflexivity.
    - reflexivity.
    - discriminate.
    - cbn [min seq]. clear. induction nt; cbn; auto.
  Qed.
  Ltac fin ET := 
    cbn [goto t_pc t_units gen_pc wait_pc holder post_notify started flag_pc ps_flag ps_mutex ps_tasks ps_next ps_threads andb] in *;
    try discriminate; try tauto; try congruence; try lia; try (intros; split; congruence); try (split; congruence); auto.
  Ltac crunch X ET T7 UI :=
    try match goal with |- tinv _ _ _ _ => constructor end;
    fin ET;
    try (match type of ET with _ = ?pre ++ _ => rewrite samples_app; cbn [samples_of flat_map app]; rewrite ?app_nil_r, T7;
           destruct (Nat.ltb_spec (S (length pre)) nt); cbn [andb]; first [reflexivity | exfalso; lia] end);
    try (match type of ET with _ = ?pre ++ ?h :: ?post =>
           rewrite (flat_mid _ pre h _ post []) by (cbn [t_units goto]; rewrite tasks_app; reflexivity); rewrite app_nil_r, <- ET; exact UI end).
  Lemma inv_step b s s' gpc : pinv s gpc -> pstep nt hast ntasks b s s' -> exists gpc', pinv s' gpc'.
  Proof.
    intros I St. destruct St as [s pre h post ET EP HI H2|s pre h post ET EP HI H2|s pre h post ET EP HM|s pre h post ET EP|s pre h post ET EP
      |s pre h post ET EP HI|s pre h post ET EP|s pre h post ET EP HM|s pre h post ET EP|s pre h post ET EP|s pre h post ET EP HN|s pre h post ET EP HN];
      try (exfalso; congruence).
    all: pose proof (pi_thr _ _ I (length pre) h ltac:(rewrite ET, (nth_upd_mid pre h h post), Nat.eqb_refl; reflexivity)) as T.
    all: pose proof I as [L (g & G1 & G2) Th FI TI NI MI UI].
    all: assert (Lp : length pre < nt) by (rewrite ET, app_length in L; cbn [length] in L; lia).
    all: assert (GP : S (length pre) = nt -> gpc = t_pc h)
      by (intros X; rewrite ET, (nth_upd_mid pre h h post) in G1; destruct (Nat.eqb_spec (nt - 1) (length pre)); [congruence|lia]).
    all: pose proof T as [T1 T2 T3 T4 T5 T6 T7]; rewrite EP in *; clear g G1 G2.
    all: destruct (ps_flag s) eqn:FL; cbn [gen_pc wait_pc holder post_notify started] in *.
    all: pose proof (proj1 T3) as MH; try specialize (MH eq_refl).
    all: match type of ET with ps_threads ?s = ?pre ++ ?h :: ?post =>
         lazymatch goal with |- exists _, pinv ?s' _ => let x := eval cbn [ps_threads] in (ps_threads s') in
           lazymatch x with pre ++ ?h' :: post => eexists; apply (thr_upd_inv s s' pre h h' post gpc I ET eq_refl) | _ => idtac end end end.
    all: cbn [ps_flag ps_mutex ps_tasks ps_next ps_threads goto t_pc].
    all: revert T7; try (destruct (Nat.eqb_spec (S (length pre)) nt) as [X|X]; destruct (Nat.ltb_spec (S (length pre)) nt) as [Y|Y]; try (exfalso; lia)); intros T7.
    all: try (specialize (GP X); subst gpc); fin ET.
    all: crunch X ET T7 UI.
    all: try (intros; destruct gpc; cbn in *; congruence).
    - (* st_gen *)
      rewrite (flat_mid _ pre h _ post []) by (cbn [t_units goto]; rewrite tasks_app; reflexivity). rewrite app_nil_r, <- ET.
      rewrite (NI eq_refl) in *. exact UI.
    - (* st_notify *)
      exists PLoop.
      assert (NW : forall i, nth_error (map wake pre ++ goto h PLoop [] :: map wake post) i =
        if i =? length pre then Some (goto h PLoop []) else option_map wake (nth_error (ps_threads s) i)).
      { intros i. rewrite ET, (nth_upd_mid (map wake pre) (wake h)), map_length. destruct (Nat.eqb_spec i (length pre)); [reflexivity|].
        change (wake h :: map wake post) with (map wake (h :: post)). rewrite <- map_app. apply nth_wake. }
      constructor; cbn [ps_flag ps_mutex ps_tasks ps_next ps_threads flag_pc started].
      + rewrite app_length. cbn [length]. rewrite !map_length. rewrite ET, app_length in L. exact L.
      + exists (goto h PLoop []). rewrite NW. destruct (Nat.eqb_spec (nt - 1) (length pre)); [auto|lia].
      + intros i x. rewrite NW. destruct (Nat.eqb_spec i (length pre)) as [->|Xi].
        * intros [= <-]. constructor; cbn [goto t_pc t_units gen_pc wait_pc holder post_notify started ps_flag ps_mutex ps_tasks ps_next]; try discriminate; auto.
          rewrite samples_app. cbn [samples_of flat_map]. rewrite app_nil_r, T7. destruct (Nat.ltb_spec (S (length pre)) nt); [lia|reflexivity].
        * destruct (nth_error (ps_threads s) i) as [y|] eqn:Ey; [|discriminate]. cbn [option_map]. intros [= <-].
          destruct (Th i y Ey) as [W1 W2 W3 W4 W5 W6 W7]. rewrite FL in *.
          unfold wake. destruct (t_pc y) eqn:Py; constructor; cbn [goto t_pc t_units gen_pc wait_pc holder post_notify started ps_flag ps_mutex ps_tasks ps_next] in *;
            rewrite ?Py; cbn [gen_pc wait_pc holder post_notify started]; auto; try discriminate.
      + exact FI.
      + exact TI.
      + discriminate.
      + exact MI.
      + rewrite flat_map_app. cbn [flat_map goto t_units]. rewrite tasks_app. cbn [tasks_of flat_map]. rewrite app_nil_r.
        rewrite ET, flat_map_app in UI. cbn [flat_map] in UI.
        assert (WM : forall l, flat_map (fun h => tasks_of (t_units h)) (map wake l) = flat_map (fun h => tasks_of (t_units h)) l).
        { clear. induction l as [|x l IH]; cbn [map flat_map]; [reflexivity|]. now rewrite wake_units, IH. }
        rewrite !WM. exact UI.
    - rewrite (flat_mid _ pre h _ post [ps_next s]) by (cbn [t_units goto]; rewrite tasks_app; reflexivity). rewrite <- ET.
      rewrite Nat.min_l in * by lia. rewrite seq_S. apply Permutation_app_tail. exact UI.
    - rewrite (flat_mid _ pre h _ post [ps_next s]) by (cbn [t_units goto]; rewrite tasks_app; reflexivity). rewrite <- ET.
      rewrite Nat.min_l in * by lia. rewrite seq_S. apply Permutation_app_tail. exact UI.
    - rewrite (flat_mid _ pre h _ post []) by (cbn [t_units goto]; rewrite tasks_app; reflexivity). rewrite app_nil_r, <- ET.
      rewrite Nat.min_r in * by lia. exact UI.
    - rewrite (flat_mid _ pre h _ post []) by (cbn [t_units goto]; rewrite tasks_app; reflexivity). rewrite app_nil_r, <- ET.
      rewrite Nat.min_r in * by lia. exact UI.
  Qed.
  Theorem inv_steps k m s : psteps nt hast ntasks k m (pinit nt) s -> exists gpc, pinv s gpc.
  Proof.
    remember (pinit nt) as s0 eqn:E0. induction 1 as [s0|k m b s0 s1 s2 _ IH St].
    - exists PStart. rewrite E0. apply inv_init.
    - destruct (IH E0) as (gpc & I). exact (inv_step _ _ _ _ I St).
  Qed.

  (** ** What has been run when all threads have left *)
  Lemma seq_filter_map {A} (f : A -> list nat) (L : list A) (off : nat) :
    (forall i h, nth_error L i = Some h -> f h = if S (off + i) <? nt then [off + i] else []) -> off + length L = nt ->
    flat_map f L = seq off (nt - 1 - off).
  Proof.
    revert off. induction L as [|h L IH]; intros off H HL; cbn [flat_map length] in *.
    - replace (nt - 1 - off) with 0 by lia. reflexivity.
    - rewrite (H 0 h eq_refl), Nat.add_0_r. rewrite (IH (S off)); [|intros i x Hi; rewrite (H (S i) x Hi); replace (off + S i) with (S off + i) by lia; reflexivity|lia].
      destruct (Nat.ltb_spec (S off) nt).
      + replace (nt - 1 - off) with (S (nt - 1 - S off)) by lia. reflexivity.
      + replace (nt - 1 - off) with 0 by lia. replace (nt - 1 - S off) with 0 by lia. reflexivity.
  Qed.
  Theorem final_units k m s : psteps nt hast ntasks k m (pinit nt) s -> pfinished s ->
    Permutation (flat_map t_units (ps_threads s)) (map USample (seq 0 (nt - 1)) ++ map UTask (seq 0 ntasks)).
  Proof.
    intros H F. destruct (inv_steps k m s H) as (gpc & [L (g & G1 & G2) Th FI TI NI MI UI]).
    rewrite (units_perm (flat_map t_units (ps_threads s))).
    assert (S1 : samples_of (flat_map t_units (ps_threads s)) = flat_map (fun h => samples_of (t_units h)) (ps_threads s)).
    { generalize (ps_threads s). intros l. induction l as [|x l IH]; cbn [flat_map]; [reflexivity|]. now rewrite samples_app, IH. }
    assert (S2 : tasks_of (flat_map t_units (ps_threads s)) = flat_map (fun h => tasks_of (t_units h)) (ps_threads s)).
    { generalize (ps_threads s). intros l. induction l as [|x l IH]; cbn [flat_map]; [reflexivity|]. now rewrite tasks_app, IH. }
    assert (D : forall i h, nth_error (ps_threads s) i = Some h -> t_pc h = PDone).
    { intros i h Hi. apply nth_error_In in Hi. exact (proj1 (Forall_forall _ _) F h Hi). }
    rewrite S1, S2. apply Permutation_app.
    - rewrite (seq_filter_map _ _ 0).
      + now rewrite Nat.sub_0_r.
      + intros i h Hi. cbn [plus]. rewrite (ti_sample _ _ _ _ (Th i h Hi)), (D i h Hi). cbn [started]. now rewrite andb_true_r.
      + exact L.
    - apply Permutation_map. rewrite UI. pose proof (D _ _ G1) as Dg. assert (EG : gpc = PDone) by congruence. rewrite EG in TI. cbn [started] in TI.
      pose proof (ti_done _ _ _ _ (Th _ _ G1) Dg). rewrite Nat.min_r by lia. now rewrite TI.
  Qed.

  (** ** No deadlock: unless all threads have left, some thread can make a step that is not a spurious wakeup *)
  Lemma nth_split_mid {A} (l : list A) i x : nth_error l i = Some x -> exists pre post, l = pre ++ x :: post /\ length pre = i.
  Proof. apply nth_error_split. Qed.
  Ltac go rule := eexists; eapply rule; eauto.
  Theorem no_deadlock k m s : psteps nt hast ntasks k m (pinit nt) s -> pfinished s \/ exists s', pstep nt hast ntasks false s s'.
  Proof.
    intros H. destruct (inv_steps k m s H) as (gpc & I). pose proof I as [L (g & G1 & G2) Th FI TI NI MI UI].
    (* a holder of the mutex can move *)
    assert (HH : forall i, ps_mutex s = Some i -> exists s', pstep nt hast ntasks false s s').
    { intros i Hi. pose proof (MI i Hi) as Li. destruct (nth_error (ps_threads s) i) as [h|] eqn:Eh; [|apply nth_error_None in Eh; lia].
      pose proof (proj2 (ti_hold _ _ _ _ (Th i h Eh)) Hi) as Hd. destruct (nth_split_mid _ _ _ Eh) as (pre & post & E & <-).
      destruct (t_pc h) eqn:P; try discriminate Hd; [go st_test|go st_genset]. }
    assert (HF : (exists h, In h (ps_threads s) /\ t_pc h <> PDone) \/ pfinished s).
    { unfold pfinished. clear. induction (ps_threads s) as [|x l [IH|IH]]; [right; constructor| |].
      - left. destruct IH as (h & H1 & H2). exists h. split; [now right|exact H2].
      - destruct (t_pc x) eqn:E; try (left; exists x; split; [now left|congruence]). right. constructor; assumption. }
    destruct HF as [(h & Hin & Hnd)|HF]; [right|left; exact HF].
    assert (HM : ps_mutex s = None \/ exists i, ps_mutex s = Some i) by (destruct (ps_mutex s); eauto).
    destruct HM as [HM|(i & HM)]; [|eauto].
    assert (AWAKE : forall x i, nth_error (ps_threads s) i = Some x -> t_pc x <> PDone -> t_pc x <> PSleep -> exists s', pstep nt hast ntasks false s s').
    { intros x i Hx Hx1 Hx2. destruct (nth_split_mid _ _ _ Hx) as (pre & post & E & <-).
      assert (Lp : length pre < nt) by (rewrite E, app_length in L; cbn [length] in L; lia).
      destruct (t_pc x) eqn:P; try congruence.
      - destruct (Nat.eq_dec (S (length pre)) nt); [go st_gen|]. eexists; eapply st_sample; eauto; lia.
      - go st_read.
      - go st_lock.
      - go st_test.
      - go st_genlock.
      - go st_genset.
      - go st_notify.
      - destruct (Nat.lt_ge_cases (ps_next s) (ps_tasks s)); [go st_fetch|go st_exit]. }
    apply In_nth_error in Hin as (i & Hi).
    destruct (t_pc h) eqn:P; try (apply (AWAKE h i Hi); congruence).
    (* a sleeper: the generator has not notified yet *)
    pose proof (ti_sleep _ _ _ _ (Th i h Hi) P) as Hg. apply (AWAKE g (nt - 1) G1); rewrite G2; intros ->; cbn in Hg; try discriminate.
    pose proof (ti_wait _ _ _ _ (Th _ _ G1)) as Hw. rewrite G2 in Hw. cbn in Hw. specialize (Hw eq_refl). lia.
  Qed.
End Threads.

(** ** Number of steps, for every team size and whether or not there are tasks *)
Section Bound.
  Variables (nt ntasks team : nat) (hast : bool).
  Definition rank (p : pc) : nat :=
    match p with
    | PDone => 0 | PLoop => 1 | PSleep => 2 | PTest => 3 | PLock => 4 | PRead => 5
    | PNotify => 2 * team + 6 | PGenSet => 2 * team + 7 | PGenLock => 2 * team + 8 | PStart => 2 * team + 9
    end.
  Definition ranks (l : list thread) : nat := list_sum (map (fun h => rank (t_pc h)) l).
  Definition mu (s : pstate) : nat := ranks (ps_threads s) + (ntasks - ps_next s).
  Lemma ranks_mid pre h post : ranks (pre ++ h :: post) = ranks pre + rank (t_pc h) + ranks post.
  Proof. unfold ranks. rewrite map_app, list_sum_app. cbn [map list_sum fold_right]. change (fold_right plus 0) with list_sum. unfold list_sum. cbn [fold_right]. lia. Qed.
  Lemma ranks_wake l : ranks (map wake l) <= ranks l + 2 * length l.
  Proof.
    induction l as [|h l IH]; [cbn; lia|]. change (h :: l) with ([] ++ h :: l). change (map wake ([] ++ h :: l)) with ([] ++ wake h :: map wake l).
    rewrite !ranks_mid. cbn [app length]. change (ranks []) with 0.
    assert (rank (t_pc (wake h)) <= rank (t_pc h) + 2) by (unfold wake; destruct (t_pc h) eqn:E; rewrite ?E; cbn [t_pc rank]; lia). lia.
  Qed.
  Definition binv (s : pstate) : Prop := length (ps_threads s) = team /\ ps_tasks s <= ntasks.
  Lemma bound_step b s s' : binv s -> pstep nt hast ntasks b s s' -> binv s' /\ mu s' + (if b then 0 else 1) <= mu s + (if b then 2 else 0).
  Proof.
    intros [L TT] St.
    destruct St as [s pre h post ET EP HI H2|s pre h post ET EP HI H2|s pre h post ET EP HM|s pre h post ET EP|s pre h post ET EP
      |s pre h post ET EP HI|s pre h post ET EP|s pre h post ET EP HM|s pre h post ET EP|s pre h post ET EP|s pre h post ET EP HN|s pre h post ET EP HN];
      unfold binv, mu; cbn [ps_threads ps_tasks ps_next]; rewrite ET in *; rewrite ?ranks_mid; rewrite app_length in *; cbn [length goto t_pc] in *;
      rewrite EP; try (destruct (ps_flag s)); cbn [rank]; try lia.
    all: rewrite !map_length; pose proof (ranks_wake pre); pose proof (ranks_wake post); lia.
  Qed.
  Theorem steps_bound k m s : psteps nt hast ntasks k m (pinit team) s -> binv s /\ mu s + k <= team * (2 * team + 9) + ntasks + 3 * m.
  Proof.
    remember (pinit team) as s0 eqn:E0. induction 1 as [s0|k m b s0 s1 s2 _ IH St].
    - subst s0. unfold binv, mu. cbn [pinit ps_threads ps_tasks ps_next]. rewrite repeat_length.
      assert (E : ranks (repeat {| t_pc := PStart; t_units := [] |} team) = team * (2 * team + 9)).
      { assert (G : forall c, ranks (repeat {| t_pc := PStart; t_units := [] |} c) = c * (2 * team + 9)).
        { induction c as [|c IH]; [reflexivity|]. cbn [repeat]. change (ranks (?x :: ?l)) with (ranks ([] ++ x :: l)). rewrite ranks_mid, IH. cbn [t_pc rank]. change (ranks []) with 0. lia. }
        apply G. }
      rewrite E. lia.
    - destruct (IH E0) as [I B]. destruct (bound_step b s1 s2 I St) as [I' B']. split; [exact I'|]. destruct b; lia.
  Qed.
End Bound.

(** From every reachable state the region can be left, without relying on spurious wakeups *)
Theorem can_finish nt ntasks hast k m s : hast = true -> 2 <= nt -> psteps nt hast ntasks k m (pinit nt) s ->
  exists k' s', psteps nt hast ntasks (k' + k) m (pinit nt) s' /\ pfinished s'.
Proof.
  intros H1 H2. remember (mu ntasks nt s) as x eqn:Ex. revert k s Ex.
  induction x as [x IH] using lt_wf_ind. intros k s Ex HS.
  destruct (no_deadlock nt ntasks hast H1 H2 k m s HS) as [F|(s' & St)]; [exists 0, s; auto|].
  destruct (steps_bound nt ntasks nt hast k m s HS) as [I _]. destruct (bound_step nt ntasks nt hast false s s' I St) as [_ B].
  destruct (IH (mu ntasks nt s') ltac:(lia) (S k) s' eq_refl) as (k' & s'' & H3 & H4).
  - exact (psteps_more _ _ _ k m false _ _ _ HS St).
  - exists (S k'), s''. split; [|exact H4]. replace (S k' + k) with (k' + S k) by lia. exact H3.
Qed.

(** ** If there is no generating thread, the region is never left *)
Section Hang.
  Variables (nt ntasks team : nat) (hast : bool).
  Hypothesis (Hno : hast = false \/ team < nt) (Hnt : 2 <= nt) (Hteam : 1 <= team).
  Definition hinv (s : pstate) : Prop :=
    length (ps_threads s) = team /\ ps_flag s = false /\
    forall i h, nth_error (ps_threads s) i = Some h -> gen_pc (t_pc h) = false /\ (S i < nt -> post_notify (t_pc h) = false).
  Lemma hang_step b s s' : hinv s -> pstep nt hast ntasks b s s' -> hinv s'.
  Proof.
    intros (L & F & Th) St.
    destruct St as [s pre h post ET EP HI H2|s pre h post ET EP HI H2|s pre h post ET EP HM|s pre h post ET EP|s pre h post ET EP
      |s pre h post ET EP HI|s pre h post ET EP|s pre h post ET EP HM|s pre h post ET EP|s pre h post ET EP|s pre h post ET EP HN|s pre h post ET EP HN];
      (destruct (Th (length pre) h) as [T1 T2]; [rewrite ET, (nth_upd_mid pre h h post), Nat.eqb_refl; reflexivity|]); rewrite EP in *;
      cbn [gen_pc post_notify] in *; try discriminate.
    - exfalso. rewrite ET, app_length in L. cbn [length] in L. destruct Hno; [congruence|lia].
    - unfold hinv; cbn [ps_threads ps_flag]; (split; [rewrite ET, app_length in L; rewrite app_length; exact L|]; split; [exact F|]);
        intros i x; rewrite (nth_upd_mid pre h), <- ET; (destruct (Nat.eqb_spec i (length pre)) as [->|]; [intros [= <-]|apply Th]).
      cbn. split; [reflexivity|lia].
    - unfold hinv; cbn [ps_threads ps_flag]; (split; [rewrite ET, app_length in L; rewrite app_length; exact L|]; split; [exact F|]);
        intros i x; rewrite (nth_upd_mid pre h), <- ET; (destruct (Nat.eqb_spec i (length pre)) as [->|]; [intros [= <-]|apply Th]).
      cbn. auto.
    - unfold hinv; cbn [ps_threads ps_flag]; (split; [rewrite ET, app_length in L; rewrite app_length; exact L|]; split; [exact F|]);
        intros i x; rewrite (nth_upd_mid pre h), <- ET; (destruct (Nat.eqb_spec i (length pre)) as [->|]; [intros [= <-]|apply Th]).
      rewrite F. cbn. auto.
    - unfold hinv; cbn [ps_threads ps_flag]; (split; [rewrite ET, app_length in L; rewrite app_length; exact L|]; split; [exact F|]);
        intros i x; rewrite (nth_upd_mid pre h), <- ET; (destruct (Nat.eqb_spec i (length pre)) as [->|]; [intros [= <-]|apply Th]).
      cbn. auto.
    - unfold hinv; cbn [ps_threads ps_flag]; (split; [rewrite ET, app_length in L; rewrite app_length; exact L|]; split; [exact F|]);
        intros i x; rewrite (nth_upd_mid pre h), <- ET; (destruct (Nat.eqb_spec i (length pre)) as [->|]; [intros [= <-]|apply Th]).
      rewrite F. cbn. auto.
    - unfold hinv; cbn [ps_threads ps_flag]; (split; [rewrite ET, app_length in L; rewrite app_length; exact L|]; split; [exact F|]);
        intros i x; rewrite (nth_upd_mid pre h), <- ET; (destruct (Nat.eqb_spec i (length pre)) as [->|]; [intros [= <-]|apply Th]).
      cbn. auto.
    - unfold hinv; cbn [ps_threads ps_flag]; (split; [rewrite ET, app_length in L; rewrite app_length; exact L|]; split; [exact F|]);
        intros i x; rewrite (nth_upd_mid pre h), <- ET; (destruct (Nat.eqb_spec i (length pre)) as [->|]; [intros [= <-]|apply Th]).
      cbn. auto.
    - unfold hinv; cbn [ps_threads ps_flag]; (split; [rewrite ET, app_length in L; rewrite app_length; exact L|]; split; [exact F|]);
        intros i x; rewrite (nth_upd_mid pre h), <- ET; (destruct (Nat.eqb_spec i (length pre)) as [->|]; [intros [= <-]|apply Th]).
      cbn. auto.
  Qed.
  Theorem never_finishes k m s : psteps nt hast ntasks k m (pinit team) s -> ~ pfinished s.
  Proof.
    intros H. assert (I : hinv s).
    { remember (pinit team) as s0 eqn:E0. induction H as [s0|k m b s0 s1 s2 _ IH St].
      - subst s0. unfold hinv. cbn [pinit ps_threads ps_flag]. split; [apply repeat_length|]. split; [reflexivity|].
        intros i h Hi. apply nth_error_In, repeat_spec in Hi. subst h. cbn. auto.
      - exact (hang_step b s1 s2 (IH E0) St). }
    destruct I as (L & _ & Th). intros F. destruct (ps_threads s) as [|h l] eqn:E; [cbn in L; lia|].
    destruct (Th 0 h eq_refl) as [_ T]. specialize (T ltac:(lia)). unfold pfinished in F. rewrite E in F. inversion F; subst. rewrite H2 in T. discriminate.
  Qed.
End Hang.
