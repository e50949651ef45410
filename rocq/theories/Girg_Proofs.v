(** The buffered edge collection, and girgs::generateEdges as a whole. *)
From Coq Require Import Arith NArith ZArith List Bool Reals Permutation Lia Lra.
From Flocq Require Import Core.
From Verif Require Import Base Sched Bits_Model Bits_Proofs Coord_Model Coord_Proofs Coord_Geo IntSort_Model IntSort_Proofs IntSort_Main Prop_IntSort Prefix_Model
  Tree_Model Cover Tree_Proofs Tree_Build Tree_Plan Tree_Run Girg_Model.
Import ListNotations.
Local Open Scope nat_scope.

(** ** interleavings grow at the end *)
Lemma il_snoc {T} (l1 : list (list T)) l l2 tr b : interleaving (l1 ++ l :: l2) tr -> interleaving (l1 ++ (l ++ b) :: l2) (tr ++ b).
Proof.
  intros H. remember (l1 ++ l :: l2) as ls eqn:E. revert l1 l l2 E.
  induction H as [ls H|m1 x m m2 tr H IH]; intros l1 l l2 E.
  - subst ls. apply Forall_app in H as [H1 H2]. inversion_clear H2 as [|? ? Hl H3]. subst l. cbn [app].
    assert (HB : interleaving (l1 ++ b :: l2) (concat (l1 ++ b :: l2))) by apply interleaving_concat.
    rewrite concat_app in HB. cbn [concat] in HB. rewrite (concat_nils l1 H1), (concat_nils l2 H3), app_nil_r in HB. exact HB.
  - assert (HC : (l1 = m1 /\ l = x :: m /\ l2 = m2) \/ (exists k, l1 = m1 ++ (x :: m) :: k /\ m2 = k ++ l :: l2) \/
                 (exists k, m1 = l1 ++ l :: k /\ l2 = k ++ (x :: m) :: m2)).
    { clear -E. revert m1 E. induction l1 as [|y l1 IH]; intros [|z m1] E; cbn [app] in E; injection E as E1 E2.
      - left. auto.
      - right. right. exists m1. subst. auto.
      - right. left. exists l1. subst. auto.
      - destruct (IH m1 E2) as [(A & B & C)|[(k & A & B)|(k & A & B)]]; subst.
        + left. auto.
        + right. left. exists k. auto.
        + right. right. exists k. auto. }
    destruct HC as [(-> & -> & ->)|[(k & -> & ->)|(k & -> & ->)]]; cbn [app].
    + apply il_step. apply IH. reflexivity.
    + rewrite <- app_assoc. cbn [app]. apply il_step. specialize (IH (m1 ++ m :: k) l l2).
      rewrite <- !app_assoc in IH. cbn [app] in IH. apply IH. reflexivity.
    + replace (l1 ++ (l ++ b) :: k ++ (x :: m) :: m2) with ((l1 ++ (l ++ b) :: k) ++ (x :: m) :: m2) by (rewrite <- app_assoc; reflexivity).
      apply il_step. specialize (IH l1 l (k ++ m :: m2)). rewrite <- !app_assoc in *. cbn [app] in *. apply IH. reflexivity.
Qed.

Section Collect.
  Context {T : Type}.
  (** a thread: what it has flushed, its buffer, what it will still report, and whether its next step is the flush test *)
  Record thr := { fl : list T; loc : list T; rest : list T; mid : bool }.
  Definition acts (tid : nat) (h : thr) : list (bact T) := (if mid h then [Flush tid] else []) ++ thread_acts tid (rest h).
  Fixpoint alls (k : nat) (hs : list thr) : list (list (bact T)) := match hs with [] => [] | h :: r => acts k h :: alls (S k) r end.
  Lemma alls_app k a b : alls k (a ++ b) = alls k a ++ alls (k + length a) b.
  Proof.
    revert k; induction a as [|h a IH]; intros k; cbn [app alls length]; [now rewrite Nat.add_0_r|].
    rewrite IH. replace (S k + length a) with (k + S (length a)) by lia. reflexivity.
  Qed.
  Lemma alls_split hs : forall k l1 x l2, alls k hs = l1 ++ x :: l2 ->
    exists h1 h h2, hs = h1 ++ h :: h2 /\ l1 = alls k h1 /\ x = acts (k + length h1) h /\ l2 = alls (S (k + length h1)) h2.
  Proof.
    induction hs as [|h hs IH]; intros k l1 x l2 H; [destruct l1; discriminate|]. destruct l1 as [|y l1]; cbn [alls app] in H; injection H as H1 H2.
    - exists [], h, hs. cbn [app alls length]. rewrite Nat.add_0_r. auto.
    - destruct (IH (S k) l1 x l2 H2) as (h1 & h' & h2 & -> & -> & -> & ->). exists (h :: h1), h', h2. cbn [app alls length].
      subst y. replace (k + S (length h1)) with (S k + length h1) by lia. auto.
  Qed.
  Lemma nth_error_mid {X} (a : list X) x b k : length a = k -> nth_error (a ++ x :: b) k = Some x.
  Proof. intros <-. rewrite nth_error_app2, Nat.sub_diag by lia. reflexivity. Qed.
  Lemma upd_mid {X} (a : list X) x b y k : length a = k -> upd (a ++ x :: b) k y = Some (a ++ y :: b).
  Proof. intros <-. induction a as [|z a IH]; [reflexivity|]. cbn [app length upd]. rewrite IH. reflexivity. Qed.

  Definition word (h : thr) : list T := fl h ++ loc h ++ rest h.

  Lemma collect_step block : forall ls tr, interleaving ls tr -> forall hs ex res, ls = alls 0 hs -> interleaving (map fl hs) res ->
    exists hs' res', brun block tr (map loc hs ++ ex, res) = Some (map loc hs' ++ ex, res') /\ map word hs' = map word hs /\
      interleaving (map fl hs') res' /\ Forall (fun h => rest h = []) hs'.
  Proof.
    induction 1 as [ls H|l1 x l l2 tr H IH]; intros hs ex res E HI.
    - exists hs, res. cbn [brun]. repeat split; auto. subst ls. clear -H. revert H. generalize 0 as k.
      induction hs as [|h hs IHh]; intros k H; [constructor|]. cbn [alls] in H. inversion_clear H as [|? ? Ha Hb]. constructor; [|eauto].
      unfold acts in Ha. apply app_eq_nil in Ha as [_ Ha]. unfold thread_acts in Ha. destruct (rest h); [reflexivity|discriminate].
    - symmetry in E. destruct (alls_split hs 0 l1 (x :: l) l2 E) as (h1 & h & h2 & -> & -> & Ex & ->). cbn [Nat.add] in *.
      unfold acts in Ex. destruct h as [f lo re m]. cbn [fl loc rest mid] in *. destruct m.
      + cbn [app] in Ex. injection Ex as -> ->. cbn [brun bstep fst snd]. rewrite !map_app. cbn [map loc]. rewrite <- app_assoc. cbn [app].
        rewrite nth_error_mid by apply map_length. cbn [obind].
        destruct (N.of_nat (length lo) =? block)%N.
        * rewrite upd_mid by apply map_length. cbn [obind].
          set (h' := {| fl := f ++ lo; loc := []; rest := re; mid := false |}).
          destruct (IH (h1 ++ h' :: h2) ex (res ++ lo)) as (hs' & res' & R1 & R2 & R3 & R4).
          { rewrite alls_app. reflexivity. }
          { rewrite map_app in *. cbn [map fl h'] in *. now apply il_snoc. }
          exists hs', res'. rewrite map_app in R1. cbn [map loc h'] in R1. rewrite <- app_assoc in R1. cbn [app] in R1.
          repeat split; auto. rewrite R2, !map_app. cbn [map]. do 2 f_equal. unfold word. cbn [fl loc rest h']. now rewrite <- app_assoc.
        * set (h' := {| fl := f; loc := lo; rest := re; mid := false |}).
          destruct (IH (h1 ++ h' :: h2) ex res) as (hs' & res' & R1 & R2 & R3 & R4).
          { rewrite alls_app. reflexivity. }
          { rewrite map_app in *. exact HI. }
          exists hs', res'. rewrite map_app in R1. cbn [map loc h'] in R1. rewrite <- app_assoc in R1. cbn [app] in R1.
          repeat split; auto. rewrite R2, !map_app. reflexivity.
      + destruct re as [|e re]; [discriminate|]. cbn [app] in Ex. unfold thread_acts in Ex. cbn [flat_map app] in Ex. injection Ex as -> ->.
        cbn [brun bstep fst snd]. rewrite !map_app. cbn [map loc]. rewrite <- app_assoc. cbn [app].
        rewrite nth_error_mid by apply map_length. cbn [obind].
        rewrite upd_mid by apply map_length. cbn [obind].
        set (h' := {| fl := f; loc := lo ++ [e]; rest := re; mid := true |}).
        destruct (IH (h1 ++ h' :: h2) ex res) as (hs' & res' & R1 & R2 & R3 & R4).
        { rewrite alls_app. reflexivity. }
        { rewrite map_app in *. exact HI. }
        exists hs', res'. rewrite map_app in R1. cbn [map loc h'] in R1. rewrite <- app_assoc in R1. cbn [app] in R1.
        repeat split; auto. rewrite R2, !map_app. cbn [map]. do 2 f_equal. unfold word. cbn [fl loc rest h']. now rewrite <- app_assoc.
  Qed.

  Lemma final_flush : forall hs pre res, interleaving (pre ++ map fl hs) res ->
    interleaving (pre ++ map (fun h => fl h ++ loc h) hs) (res ++ concat (map loc hs)).
  Proof.
    induction hs as [|h hs IH]; intros pre res H; cbn [map concat]; [cbn [map] in H; rewrite (app_nil_r res); exact H|].
    cbn [map] in H. apply (il_snoc pre (fl h) (map fl hs) res (loc h)) in H.
    specialize (IH (pre ++ [fl h ++ loc h]) (res ++ loc h)). rewrite <- !app_assoc in IH. cbn [app] in IH. now apply IH.
  Qed.

  Theorem collect_interleaving block omp_max (calls : list (list T)) : length calls <= omp_max ->
    (exists o, collect block omp_max calls o) /\
    forall o, collect block omp_max calls o -> exists out, o = Some out /\ interleaving calls out.
  Proof.
    intros HLe. set (hs := map (fun es => {| fl := []; loc := []; rest := es; mid := false |}) calls).
    assert (Ha : map (fun tc => thread_acts (fst tc) (snd tc)) (combine (seq 0 (length calls)) calls) = alls 0 hs).
    { unfold hs. generalize 0 as k. induction calls as [|es calls IHc]; intros k; [reflexivity|]. cbn [length seq combine map alls fst snd acts mid rest app].
      f_equal. apply IHc. cbn [length] in HLe. lia. }
    assert (Hl : repeat [] omp_max = map loc hs ++ repeat [] (omp_max - length calls)).
    { unfold hs. rewrite map_map. cbn [loc]. clear -HLe. revert omp_max HLe. induction calls as [|es calls IHc]; intros m HLe; cbn [length map app].
      - now rewrite Nat.sub_0_r.
      - destruct m as [|m]; [cbn in HLe; lia|]. cbn [repeat]. f_equal. cbn [Nat.sub]. apply IHc. cbn in HLe. lia. }
    assert (Hw : map word hs = calls). { unfold hs. rewrite map_map. cbn [word fl loc rest app]. apply map_id. }
    split.
    - eexists. exists (concat (alls 0 hs)). rewrite Ha. split; [apply interleaving_concat|reflexivity].
    - intros o (tr & Hi & ->). rewrite Ha in Hi. rewrite Hl.
      destruct (collect_step block (alls 0 hs) tr Hi hs (repeat [] (omp_max - length calls)) [] eq_refl) as (hs' & res' & R1 & R2 & R3 & R4).
      { constructor. unfold hs. rewrite map_map. cbn [fl]. clear. induction calls; constructor; auto. }
      rewrite R1. cbn [obind fst snd]. eexists. split; [reflexivity|].
      rewrite concat_app, app_assoc.
      assert (E0 : concat (repeat (@nil T) (omp_max - length calls)) = []) by (clear; induction (omp_max - length calls); auto).
      rewrite E0, app_nil_r. pose proof (final_flush hs' [] res' R3) as F. cbn [app] in F.
      rewrite <- Hw, <- R2. replace (map word hs') with (map (fun h => fl h ++ loc h) hs'); [exact F|].
      clear -R4. induction R4 as [|h hs' Hr R4 IH]; [reflexivity|]. cbn [map]. rewrite IH. unfold word. rewrite Hr, app_nil_r. reflexivity.
  Qed.
End Collect.

(** ** the whole function *)
Lemma pairs_length (L : list (nat * nat)) n :
  (forall u v, In (u, v) L -> u < n /\ v < n /\ u <> v) -> (forall u v, u < n -> v < n -> u <> v -> cnt2 L u v = 1) ->
  (2 * Z.of_nat (length L) = Z.of_nat n * (Z.of_nat n - 1))%Z.
Proof.
  intros HR HC. set (swap := fun p : nat * nat => (snd p, fst p)).
  assert (Hsw : forall M u v, cnt (map swap M) (u, v) = cnt M (v, u)).
  { induction M as [|[a b] M IH]; intros u v; [reflexivity|]. cbn [map count_occ swap fst snd].
    change (swap (a, b)) with (b, a). destruct (pair_dec (b, a) (u, v)), (pair_dec (a, b) (v, u)); rewrite IH; auto; congruence. }
  set (Q := filter (fun p => negb (fst p =? snd p)) (list_prod (seq 0 n) (seq 0 n))).
  assert (HP : Permutation (L ++ map swap L) Q).
  { apply (Permutation_count_occ pair_dec). intros [u v]. rewrite count_occ_app, Hsw.
    assert (NQ : NoDup Q) by (apply NoDup_filter, NoDup_list_prod; apply seq_NoDup).
    destruct (in_dec pair_dec (u, v) Q) as [Hin|Hin].
    - rewrite (proj1 (NoDup_count_occ' pair_dec Q) NQ _ Hin). unfold Q in Hin. apply filter_In in Hin as [Hin Hne].
      apply in_prod_iff in Hin as [Hu%in_seq Hv%in_seq]. cbn [fst snd] in Hne. destruct (Nat.eqb_spec u v); [discriminate|].
      apply HC; lia.
    - rewrite (proj1 (count_occ_not_In pair_dec Q _) Hin).
      assert (H1 : ~ In (u, v) L /\ ~ In (v, u) L).
      { split; intros H; apply HR in H as (Hu & Hv & Hne); apply Hin; unfold Q; apply filter_In; (split; [apply in_prod; apply in_seq; lia|]);
          cbn [fst snd]; destruct (Nat.eqb_spec u v); auto; congruence. }
      destruct H1 as [H1 H2]. rewrite (proj1 (count_occ_not_In pair_dec L _) H1), (proj1 (count_occ_not_In pair_dec L _) H2). reflexivity. }
  apply Permutation_length in HP. rewrite app_length, map_length in HP.
  assert (HQ : forall m k, length (filter (fun p => negb (fst p =? snd p)) (list_prod (seq k m) (seq 0 n))) = length (filter (fun i => i <? n) (seq k m)) * (n - 1)
     + length (filter (fun i => negb (i <? n)) (seq k m)) * n).
  { induction m as [|m IHm]; intros k; [reflexivity|]. cbn [seq list_prod filter]. rewrite filter_app, app_length, IHm.
    assert (Hrow : forall j, length (filter (fun p => negb (fst p =? snd p)) (map (fun y => (k, y)) (seq j n))) = if (j <=? k) && (k <? j + n) then n - 1 else n).
    { clear. intros j. revert j. induction n as [|n IH]; intros j; cbn [seq map filter fst snd].
      - destruct ((j <=? k) && (k <? j + 0)); reflexivity.
      - destruct (Nat.eqb_spec k j) as [->|Hne]; cbn [negb].
        + rewrite IH. destruct (Nat.leb_spec (S j) j); [lia|]. cbn [andb]. rewrite Nat.leb_refl. destruct (Nat.ltb_spec j (j + S n)); [|lia]. cbn [andb]. lia.
        + cbn [length]. rewrite IH. destruct (Nat.leb_spec (S j) k), (Nat.leb_spec j k), (Nat.ltb_spec k (S j + n)), (Nat.ltb_spec k (j + S n)); cbn [andb]; try lia. }
    specialize (Hrow 0). cbn [Nat.leb Nat.add andb] in Hrow. rewrite Hrow. destruct (k <? n); cbn [negb length]; lia. }
  unfold Q in HP. rewrite (HQ n 0) in HP. rewrite filter_true, filter_none, seq_length in HP; cbn [length] in HP.
  - destruct n; lia.
  - intros x Hx%in_seq. destruct (Nat.ltb_spec x n); [reflexivity|lia].
  - intros x Hx%in_seq. apply Nat.ltb_lt. lia.
Qed.

Section Main.
  Variables (E : fenv) (cfg : config) (D : N) (ws : list R) (ps : list (list R)) (P : tparams).
  Hypotheses (GR : good_rnd E) (HD : dim_ok D) (NO : num_ok E D ws P) (HL : length ws = length ps)
             (VP : Forall (valid_pos E D) ps) (Hn : (N.of_nat (length ws) < 2 ^ 31)%N).
  Variables (alpha : alphaT) (rg : rng) (seed : Z) (omp_max team : nat).
  Hypotheses (GG : good_rng rg) (Homp : 1 <= omp_max <= 2 ^ 17 + 1) (Hfpl : fpl_ok D E omp_max) (Hteam : 1 <= team <= omp_max) (Hseed : seeds_defined seed omp_max = true).
  Notation n := (length ws).
  Notation hit := (hitw E cfg D ws ps P).

  Record sampled (ord : list nat) (rs : list (result (G rg))) : Prop := {
    sa_perm : Permutation (flat_map pairs_of rs) (flat_map (call_pairs E cfg D ws ps P ord) (full_plan cfg D P alpha));
    sa_len : length rs <= omp_max;
    sa_le : le_count (flat_map edges_of rs) (flat_map pairs_of rs);
    sa_range : forall u v, In (u, v) (flat_map pairs_of rs) -> u < n /\ v < n /\ u <> v;
    sa_once : forall u v, u < n -> v < n -> u <> v -> cnt2 (flat_map pairs_of rs) u v <= 1;
    sa_all : ndebug cfg && is_inf alpha = false -> forall u v, u < n -> v < n -> u <> v -> cnt2 (flat_map pairs_of rs) u v = 1;
    sa_checks : (fold_right Z.add 0 (map (fun r => type1 r + type2 r) rs) = 2 * Z.of_nat (length (flat_map pairs_of rs)))%Z;
    sa_inf : far_ok E ws P -> alpha = AInf -> forall u v, u < n -> v < n -> u <> v -> (In (u, v) (flat_map edges_of rs) \/ In (v, u) (flat_map edges_of rs) <-> hit u v = true);
    sa_inf_edges : far_ok E ws P -> alpha = AInf -> flat_map edges_of rs = filter (fun uv => hit (fst uv) (snd uv)) (flat_map pairs_of rs);
    sa_zero : (forall x, xpow E x alpha = XFin 1) -> flat_map edges_of rs = flat_map pairs_of rs }.

  Lemma flat_map_flat_map {X Y Z} (f : X -> list Y) (g : Y -> list Z) L : flat_map g (flat_map f L) = flat_map (fun x => flat_map g (f x)) L.
  Proof. induction L as [|a L IH]; cbn [flat_map]; auto. now rewrite flat_map_app, IH. Qed.

  Lemma cnt_perm L L' x : Permutation L L' -> cnt L x = cnt L' x.
  Proof. intros H. now apply (Permutation_count_occ pair_dec). Qed.
  Lemma cnt2_perm L L' u v : Permutation L L' -> cnt2 L u v = cnt2 L' u v.
  Proof. intros H. unfold cnt2. now rewrite !(cnt_perm L L' _ H). Qed.

  Theorem edges_ok t ord : tree_spec E cfg D ws ps P t ord ->
    (exists o, edges_outcome E cfg D t alpha rg seed omp_max team o) /\
    forall o, edges_outcome E cfg D t alpha rg seed omp_max team o -> exists rs, o = Some rs /\ sampled ord rs.
  Proof.
    intros TS. pose proof (levels_eq E cfg D ws ps P NO t ord TS) as HLE. pose proof (no_c _ _ _ _ NO) as Hc.
    unfold edges_outcome. rewrite Hseed. split.
    { unfold gens_ok. destruct (0 <=? seed)%Z; eexists.
      - eexists. split; [reflexivity|]. reflexivity.
      - exists (map (rseed rg) (repeat 0%Z omp_max)). split; [exists (repeat 0%Z omp_max); split; [apply repeat_length|reflexivity]|]. reflexivity. }
    intros o (gens & Hg & ->).
    assert (Lg : length gens = omp_max).
    { unfold gens_ok in Hg. destruct (0 <=? seed)%Z; [subst gens; now rewrite map_length, seq_length|].
      destruct Hg as (ss & Ls & ->). now rewrite map_length. }
    rewrite (ts_P _ _ _ _ _ _ _ _ TS).
    destruct (thread_calls_ok cfg D P alpha HD Hc HLE E omp_max team Hfpl Hteam) as (calls & Ec & Lc & HP). rewrite Ec. cbn [obind].
    assert (Hok : forall x, In x (concat calls) -> call_ok cfg D P x).
    { intros x Hx. apply (Permutation_in _ HP) in Hx. unfold full_plan in Hx. apply filter_In in Hx as [Hx _].
      revert Hx. apply (plan0_ok E cfg D ws ps P HD NO HL Hn t ord TS). }
    destruct (threads_decided E cfg D ws ps P GR HD NO HL VP Hn t ord TS alpha rg GG calls gens ltac:(lia) Hok) as (rs & Er & HF).
    rewrite Er. exists rs. split; [reflexivity|].
    assert (Hpairs : flat_map pairs_of rs = flat_map (call_pairs E cfg D ws ps P ord) (concat calls)).
    { clear -HF. induction HF as [|xs r calls rs Hd HF IH]; [reflexivity|]. cbn [flat_map concat]. rewrite flat_map_app, IH. f_equal. apply Hd. }
    assert (Hperm : Permutation (flat_map pairs_of rs) (flat_map (call_pairs E cfg D ws ps P ord) (full_plan cfg D P alpha))).
    { rewrite Hpairs. now apply flat_map_perm_list. }
    set (plan0 := plan cfg D P (N.to_nat (p_levels P - 1)) 0%N 0%N 0%N) in *.
    assert (Hp0 : forall u v, u < n -> v < n -> u <> v -> cnt2 (flat_map (call_pairs E cfg D ws ps P ord) plan0) u v = 1).
    { intros u v Hu Hv Hne. now apply (plan0_pairs E cfg D ws ps P HD NO HL VP Hn t ord TS). }
    assert (Hsub : forall xs u v, cnt2 (flat_map (call_pairs E cfg D ws ps P ord) (filter (keep cfg alpha) xs)) u v <=
       cnt2 (flat_map (call_pairs E cfg D ws ps P ord) xs) u v).
    { induction xs as [|x xs IH]; intros u v; cbn [filter flat_map]; auto. destruct (keep cfg alpha x); cbn [flat_map]; rewrite !cnt2_app; specialize (IH u v); lia. }
    assert (Hone : forall u v, u < n -> v < n -> u <> v -> cnt2 (flat_map pairs_of rs) u v <= 1).
    { intros u v Hu Hv Hne. rewrite (cnt2_perm _ _ u v Hperm). rewrite <- (Hp0 u v Hu Hv Hne). apply Hsub. }
    constructor; auto.
    - rewrite <- (Forall2_len _ _ _ HF). lia.
    - clear -HF. induction HF as [|xs r calls rs Hd HF IH]; [intros x; apply Nat.le_refl|]. cbn [flat_map]. apply le_count_app; [apply Hd|exact IH].
    - intros u v Hin. rewrite Hpairs in Hin. apply in_flat_map in Hin as (x & Hx & Hin). apply Hok in Hx.
      destruct (call_pairs_In E cfg D ws ps P HL Hn t ord TS x u v Hin) as [Hu Hv].
      repeat split; auto. intros <-. revert Hin. now apply (call_pairs_irrefl E cfg D ws ps P HD NO HL Hn t ord TS x u).
    - intros Hk u v Hu Hv Hne. rewrite (cnt2_perm _ _ u v Hperm). rewrite <- (Hp0 u v Hu Hv Hne). unfold full_plan. fold plan0.
      rewrite filter_true; [reflexivity|]. intros x _. unfold keep. rewrite Hk. apply orb_true_r.
    - clear -HF. induction HF as [|xs r calls rs Hd HF IH]; [reflexivity|]. cbn [map fold_right flat_map]. rewrite app_length.
      rewrite (de_checks _ _ _ _ _ _ _ _ _ _ Hd), IH. lia.
    - intros FO Ha u v Hu Hv Hne.
      assert (HI : forall a b, In (a, b) (flat_map edges_of rs) <-> In (a, b) (flat_map pairs_of rs) /\ hit a b = true).
      { intros a b. clear -HF Ha FO. induction HF as [|xs r calls rs Hd HF IH]; [cbn; tauto|]. cbn [flat_map]. rewrite !in_app_iff, IH.
        rewrite (de_inf _ _ _ _ _ _ _ _ _ _ Hd FO Ha), filter_In. cbn [fst snd]. tauto. }
      rewrite !HI, (hitw_sym E cfg D ws ps P GR v u). split; [tauto|]. intros Hh.
      assert (Hin : In (u, v) (flat_map pairs_of rs) \/ In (v, u) (flat_map pairs_of rs)); [|tauto].
      specialize (Hp0 u v Hu Hv Hne). unfold cnt2 in Hp0.
      assert (Hx : exists x, In x plan0 /\ (In (u, v) (call_pairs E cfg D ws ps P ord x) \/ In (v, u) (call_pairs E cfg D ws ps P ord x))).
      { destruct (in_dec pair_dec (u, v) (flat_map (call_pairs E cfg D ws ps P ord) plan0)) as [H|H].
        - apply in_flat_map in H as (x & Hx & Hi). exists x. auto.
        - apply (count_occ_not_In pair_dec) in H. assert (H2 : In (v, u) (flat_map (call_pairs E cfg D ws ps P ord) plan0)).
          { apply (count_occ_In pair_dec). lia. } apply in_flat_map in H2 as (x & Hx & Hi). exists x. auto. }
      destruct Hx as (x & Hx & Hi).
      assert (Hxk : keep cfg alpha x = true).
      { destruct x as [A B l i j|A B l i j]; [reflexivity|]. exfalso.
        pose proof (plan0_ok E cfg D ws ps P HD NO HL Hn t ord TS _ Hx) as Hokx. cbn [call_pairs] in Hi.
        pose proof (far_bound E cfg D ws ps P GR HD NO HL VP Hn t ord TS FO A B l i j) as FB.
        destruct Hi as [Hi|Hi]; apply in_prod_iff in Hi as [H1 H2].
        - rewrite (FB u v Hokx H1 H2) in Hh. discriminate.
        - rewrite (hitw_sym E cfg D ws ps P GR u v), (FB v u Hokx H1 H2) in Hh. discriminate. }
      assert (Hxc : In x (concat calls)).
      { apply (Permutation_in _ (Permutation_sym HP)). unfold full_plan. apply filter_In. auto. }
      rewrite Hpairs. destruct Hi as [Hi|Hi]; [left|right]; apply in_flat_map; exists x; auto.
    - intros FO Ha. clear -HF Ha FO. induction HF as [|xs r calls rs Hd HF IH]; [reflexivity|]. cbn [flat_map]. rewrite filter_app, IH. f_equal.
      apply (de_inf _ _ _ _ _ _ _ _ _ _ Hd FO Ha).
    - intros H0. clear -HF H0. induction HF as [|xs r calls rs Hd HF IH]; [reflexivity|]. cbn [flat_map]. rewrite IH. f_equal.
      apply (de_zero _ _ _ _ _ _ _ _ _ _ Hd H0).
  Qed.

  (** the node order of the tree is determined by the input *)
  Lemma ord_unique t1 ord1 t2 ord2 : tree_spec E cfg D ws ps P t1 ord1 -> tree_spec E cfg D ws ps P t2 ord2 -> ord1 = ord2.
  Proof.
    intros T1 T2. pose proof (ts_stable _ _ _ _ _ _ _ _ T1) as S1. pose proof (ts_stable _ _ _ _ _ _ _ _ T2) as S2.
    pose proof (is_stable_sort_unique cell_id _ _ _ S1 S2) as Eq. apply (f_equal (map index)) in Eq. now rewrite !map_index in Eq.
  Qed.

  (** what girgs::generateEdges returns *)
  Lemma girg_unfold : exists t ord, tree_spec E cfg D ws ps P t ord /\
    forall o, girg_outcome E cfg rg ws ps alpha seed omp_max team o <->
      exists ors, edges_outcome E cfg D t alpha rg seed omp_max team ors /\
        match ors with None => o = None | Some rs => collect (2 ^ 20) omp_max (map edges_of rs) o end.
  Proof.
    assert (Eps : exists p0 ps', ps = p0 :: ps').
    { pose proof (n_pos E D ws ps P NO HL Hn) as H. rewrite HL in H. destruct ps; [cbn in H; lia|eauto]. }
    destruct Eps as (p0 & ps' & Eps). assert (ED : N.of_nat (length p0) = D).
    { pose proof VP as VP'. rewrite Eps in VP'. inversion_clear VP' as [|? ? [V1 _] _]. rewrite V1. apply N2Nat.id. }
    assert (EDb : ((1 <=? D) && (D <=? 5))%N = true).
    { unfold dim_ok in HD. apply andb_true_intro. split; apply N.leb_le; lia. }
    destruct (build_ok E cfg D ws ps P GR HD NO HL VP Hn omp_max Homp) as (t & ord & TS & T1 & T2).
    exists t, ord. split; [exact TS|]. intros o. unfold girg_outcome. rewrite Eps at 1. cbv zeta. rewrite ED, EDb. split.
    - intros (ot & Hot & Ho). rewrite (T2 ot Hot) in Ho. exact Ho.
    - intros H. exists (Some t). auto.
  Qed.
  Theorem girg_ok : (exists o, girg_outcome E cfg rg ws ps alpha seed omp_max team o) /\
    exists t ord, tree_spec E cfg D ws ps P t ord /\
    forall o, girg_outcome E cfg rg ws ps alpha seed omp_max team o ->
      exists rs edges, edges_outcome E cfg D t alpha rg seed omp_max team (Some rs) /\ o = Some edges /\ sampled ord rs /\ interleaving (map edges_of rs) edges.
  Proof.
    destruct girg_unfold as (t & ord & TS & Eg). destruct (edges_ok t ord TS) as [[o1 Ho1] Hall].
    split.
    - destruct (Hall o1 Ho1) as (rs & -> & S).
      destruct (collect_interleaving (2 ^ 20) omp_max (map edges_of rs)) as [[o Ho] _].
      { rewrite map_length. apply S. }
      exists o. apply Eg. exists (Some rs). auto.
    - exists t, ord. split; [exact TS|]. intros o Ho. apply Eg in Ho as (ors & Hors & Ho).
      destruct (Hall ors Hors) as (rs & -> & S).
      destruct (collect_interleaving (2 ^ 20) omp_max (map edges_of rs)) as [_ HC].
      { rewrite map_length. apply S. }
      destruct (HC o Ho) as (out & -> & Hi). exists rs, out. auto.
  Qed.
End Main.
