(** The cell-pair recursion, abstractly: every pair of nodes is decided by exactly one call.
    Used for the GIRG tree (SpatialTree.inl) and the hyperbolic tree (HyperbolicTree.inl). *)
From Coq Require Import Arith NArith List Bool Permutation Lia.
From Verif Require Import Base Tree_Model.
Import ListNotations.

Local Open Scope nat_scope.
Notation b2n := Nat.b2n.

Lemma list_sum_flat_map {A B} (f : B -> nat) (g : A -> list B) l :
  list_sum (map f (flat_map g l)) = list_sum (map (fun x => list_sum (map f (g x))) l).
Proof. induction l as [|x l IH]; simpl; auto. rewrite map_app, list_sum_app, IH. reflexivity. Qed.
Lemma list_sum_add {A} (f g : A -> nat) l :
  list_sum (map (fun x => f x + g x) l) = list_sum (map f l) + list_sum (map g l).
Proof. induction l; simpl; lia. Qed.
Lemma list_sum_mul {A} (f : A -> nat) c l : list_sum (map (fun x => c * f x) l) = c * list_sum (map f l).
Proof. induction l; simpl; lia. Qed.
Lemma list_sum_ext {A} (f g : A -> nat) l : (forall x, In x l -> f x = g x) -> list_sum (map f l) = list_sum (map g l).
Proof. intros H. f_equal. now apply map_ext_in. Qed.
Lemma list_sum_zero {A} (f : A -> nat) l : (forall x, In x l -> f x = 0) -> list_sum (map f l) = 0.
Proof. induction l; simpl; intros H; auto. rewrite H by auto. rewrite IHl; auto. Qed.
Lemma list_sum_single {A} (f : A -> nat) l x : NoDup l -> In x l -> (forall y, In y l -> y <> x -> f y = 0) ->
  list_sum (map f l) = f x.
Proof.
  induction 1 as [|a l Hn Hd IH]; intros Hin Hz; [destruct Hin|]. simpl. destruct Hin as [->|Hin].
  - rewrite list_sum_zero; [lia|]. intros y Hy. apply Hz; [now right|]. intros ->. auto.
  - rewrite IH; auto; [|intros; apply Hz; auto; now right].
    rewrite (Hz a); [lia|now left|]. intros ->. auto.
Qed.
Lemma list_sum_filter {A} (f : A -> nat) p l : list_sum (map f (filter p l)) = list_sum (map (fun x => if p x then f x else 0) l).
Proof. induction l as [|a l IH]; simpl; auto. destruct (p a); simpl; lia. Qed.
Lemma list_sum_Permutation {A} (f : A -> nat) l l' : Permutation l l' -> list_sum (map f l) = list_sum (map f l').
Proof. induction 1; simpl; lia. Qed.
Lemma list_sum_prod {A B} (f : A -> nat) (g : B -> nat) l m :
  list_sum (map (fun ab => f (fst ab) * g (snd ab)) (list_prod l m)) = list_sum (map f l) * list_sum (map g m).
Proof.
  induction l as [|a l IH]; simpl; auto. rewrite map_app, list_sum_app, IH, map_map. cbn [fst snd].
  rewrite list_sum_mul. lia.
Qed.
Lemma NoDup_list_prod {A B} (l : list A) (m : list B) : NoDup l -> NoDup m -> NoDup (list_prod l m).
Proof.
  intros Hl Hm. induction Hl as [|a l Hn Hd IH]; simpl; [constructor|].
  assert (Hc : NoDup (map (fun y => (a, y)) m)).
  { apply FinFun.Injective_map_NoDup; auto. intros x y E. now inversion E. }
  revert Hc. generalize (map (fun y : B => (a, y)) m) (fun y => proj1 (in_map_iff (fun y => (a, y)) m y)). intros c Hin Hc.
  induction Hc as [|x c Hx Hc IHc]; simpl; auto. constructor.
  - intros H. apply in_app_or in H as [H|H]; auto. destruct (Hin x) as (z & E & _); [now left|]. subst x.
    apply in_prod_iff in H. tauto.
  - apply IHc. intros y Hy. apply Hin. now right.
Qed.

(** sums over a triangle i <= j *)
Section Triangle.
  Context {A : Type} (eqb leb : A -> A -> bool).
  Hypothesis eqb_spec : forall x y, eqb x y = true <-> x = y.
  Hypothesis leb_total : forall x y, leb x y = true \/ leb y x = true.
  Hypothesis leb_antisym : forall x y, leb x y = true -> leb y x = true -> x = y.
  Lemma eqb_refl x : eqb x x = true. Proof. now apply eqb_spec. Qed.
  Lemma eqb_neq x y : x <> y -> eqb x y = false.
  Proof. intros H. destruct (eqb x y) eqn:E; auto. apply eqb_spec in E. contradiction. Qed.
  Definition tri (p q i j : A) : nat :=
    if eqb i j then b2n (eqb p i) * b2n (eqb q i) else b2n (eqb p i) * b2n (eqb q j) + b2n (eqb q i) * b2n (eqb p j).
  Lemma tri_nz p q i j : tri p q i j <> 0 -> (i = p /\ j = q) \/ (i = q /\ j = p).
  Proof.
    unfold tri. destruct (eqb i j) eqn:Eij.
    - apply eqb_spec in Eij. subst j. destruct (eqb p i) eqn:E1, (eqb q i) eqn:E2; simpl; try lia.
      apply eqb_spec in E1, E2. subst; auto.
    - destruct (eqb p i) eqn:E1, (eqb q j) eqn:E2, (eqb q i) eqn:E3, (eqb p j) eqn:E4; simpl; intros H; try lia;
      try apply eqb_spec in E1; try apply eqb_spec in E2; try apply eqb_spec in E3; try apply eqb_spec in E4; subst; auto.
  Qed.
  Lemma tri_val p q : tri p q p q = 1.
  Proof.
    unfold tri. destruct (eqb p q) eqn:E.
    - apply eqb_spec in E. subst. now rewrite !eqb_refl.
    - rewrite !eqb_refl. destruct (eqb q p) eqn:E'; [|simpl; lia]. apply eqb_spec in E'. subst.
      rewrite eqb_refl in E. discriminate.
  Qed.
  Lemma tri_sym p q i j : tri p q i j = tri q p i j.
  Proof. unfold tri. destruct (eqb i j); lia. Qed.
  Lemma triangle_sum (P : A -> A -> bool) (L : list A) p q :
    NoDup L -> (forall i j, P i j = P j i) ->
    list_sum (map (fun ij => if leb (fst ij) (snd ij) && P (fst ij) (snd ij) then tri p q (fst ij) (snd ij) else 0) (list_prod L L))
    = if P p q then b2n (existsb (eqb p) L) * b2n (existsb (eqb q) L) else 0.
  Proof.
    intros HL HP.
    assert (W : forall p q, leb p q = true ->
      list_sum (map (fun ij => if leb (fst ij) (snd ij) && P (fst ij) (snd ij) then tri p q (fst ij) (snd ij) else 0) (list_prod L L))
      = if P p q then b2n (existsb (eqb p) L) * b2n (existsb (eqb q) L) else 0).
    { clear p q. intros p q Hpq.
      assert (Hz : forall y, In y (list_prod L L) -> y <> (p, q) ->
        (if leb (fst y) (snd y) && P (fst y) (snd y) then tri p q (fst y) (snd y) else 0) = 0).
      { intros [i j] Hin Hne. cbn [fst snd] in *. destruct (leb i j) eqn:El; simpl; auto. destruct (P i j); auto.
        destruct (Nat.eq_dec (tri p q i j) 0) as [|Hnz]; auto. apply tri_nz in Hnz as [[-> ->]|[-> ->]]; [congruence|].
        assert (p = q) by (apply leb_antisym; auto). subst. congruence. }
      destruct (existsb (eqb p) L) eqn:Ep; [destruct (existsb (eqb q) L) eqn:Eq|].
      - apply existsb_exists in Ep as (x & Hx & E1), Eq as (y & Hy & E2). apply eqb_spec in E1, E2. subst x y.
        rewrite (list_sum_single _ _ (p, q)); auto; [|now apply NoDup_list_prod|now apply in_prod].
        cbn [fst snd]. rewrite Hpq. simpl. rewrite tri_val. reflexivity.
      - simpl. rewrite list_sum_zero; [now destruct (P p q)|]. intros [i j] Hin. apply Hz; auto. intros [= -> ->].
        apply in_prod_iff in Hin as [_ H]. assert (existsb (eqb q) L = true); [|congruence].
        apply existsb_exists. exists q. split; auto. apply eqb_refl.
      - simpl. rewrite list_sum_zero; [now destruct (P p q)|]. intros [i j] Hin. apply Hz; auto. intros [= -> ->].
        apply in_prod_iff in Hin as [H _]. assert (existsb (eqb p) L = true); [|congruence].
        apply existsb_exists. exists p. split; auto. apply eqb_refl. }
    destruct (leb_total p q) as [H|H]; [now apply W|].
    rewrite (list_sum_ext _ (fun ij => if leb (fst ij) (snd ij) && P (fst ij) (snd ij) then tri q p (fst ij) (snd ij) else 0)).
    - rewrite (W q p H), (HP p q), Nat.mul_comm. reflexivity.
    - intros ij _. now rewrite tri_sym.
  Qed.
End Triangle.

Section Cover.
  Variables (layers : nat) (levels : N) (base : nat -> nat -> N) (touch : N -> N -> N -> bool)
            (kids : N -> list N) (cp : N -> N -> list (N * N)) (wf : N -> N -> Prop).
  Variables (lay : nat -> nat) (cel : N -> nat -> N).

  Definition gpairs (l : N) : list (nat * nat) :=
    filter (fun ij => base (fst ij) (snd ij) =? l)%N (list_prod (seq 0 layers) (seq 0 layers)).
  Definition gfar (A B l : N) : list call :=
    flat_map (fun l' => map (fun ij => CallII A B l (fst ij) (snd ij)) (gpairs l')) (Nrange l (levels - 1)).
  Definition gnear (A B l : N) : list call :=
    flat_map (fun ij => if negb (A =? B)%N || (fst ij <=? snd ij) then [CallI A B l (fst ij) (snd ij)] else []) (gpairs l).
  Fixpoint gplan (fuel : nat) (A B l : N) : list call :=
    if negb (touch A B l) then gfar A B l
    else gnear A B l ++
         match fuel with O => [] | S f => flat_map (fun ab => gplan f (fst ab) (snd ab) (l + 1)) (cp A B) end.

  (** how often a call decides the unordered pair {u, v} *)
  Definition inV (u : nat) (i : nat) (A l : N) : nat := b2n (lay u =? i) * b2n (cel l u =? A)%N.
  Definition two (A B l : N) (i j u v : nat) : nat := inV u i A l * inV v j B l + inV v i A l * inV u j B l.
  Definition S_call (u v : nat) (x : call) : nat :=
    match x with
    | CallI A B l i j => if (A =? B)%N && (i =? j) then inV u i A l * inV v i A l else two A B l i j u v
    | CallII A B l i j => two A B l i j u v
    end.
  Definition total (xs : list call) (u v : nat) : nat := list_sum (map (S_call u v) xs).
  Lemma total_app xs ys u v : total (xs ++ ys) u v = total xs u v + total ys u v.
  Proof. unfold total. now rewrite map_app, list_sum_app. Qed.

  Definition pairind (A B l : N) (u v : nat) : nat :=
    if (A =? B)%N then b2n (cel l u =? A)%N * b2n (cel l v =? A)%N
    else b2n (cel l u =? A)%N * b2n (cel l v =? B)%N + b2n (cel l v =? A)%N * b2n (cel l u =? B)%N.

  Hypothesis base_sym : forall i j, base i j = base j i.
  Hypothesis base_lt : forall i j, i < layers -> j < layers -> (base i j < levels)%N.
  Hypothesis touch_self : forall A l, wf l A -> (l < levels)%N -> touch A A l = true.
  Hypothesis cp_perm : forall A B l, wf l A -> wf l B -> (l + 1 < levels)%N ->
    Permutation (cp A B) (if (A =? B)%N then filter (fun ab => fst ab <=? snd ab)%N (list_prod (kids A) (kids A))
                          else list_prod (kids A) (kids B)).
  Hypothesis kids_nodup : forall A l, wf l A -> (l + 1 < levels)%N -> NoDup (kids A).
  Hypothesis kids_wf : forall A l a, wf l A -> (l + 1 < levels)%N -> In a (kids A) -> wf (l + 1) a.
  Hypothesis kids_disj : forall A B l a, wf l A -> wf l B -> (l + 1 < levels)%N -> In a (kids A) -> In a (kids B) -> A = B.

  Lemma seq_pairs_nodup : NoDup (list_prod (seq 0 layers) (seq 0 layers)).
  Proof. apply NoDup_list_prod; apply seq_NoDup. Qed.

  (** one layer pair bucket of [two] *)
  Lemma pairs_two A B l l' u v : lay u < layers -> lay v < layers ->
    list_sum (map (fun ij => two A B l (fst ij) (snd ij) u v) (gpairs l'))
    = if (base (lay u) (lay v) =? l')%N then b2n (cel l u =? A)%N * b2n (cel l v =? B)%N + b2n (cel l v =? A)%N * b2n (cel l u =? B)%N else 0.
  Proof.
    intros Hu Hv. unfold two. rewrite list_sum_add. unfold gpairs. rewrite !list_sum_filter.
    assert (H : forall x y, lay x < layers -> lay y < layers ->
      list_sum (map (fun ij => if (base (fst ij) (snd ij) =? l')%N then inV x (fst ij) A l * inV y (snd ij) B l else 0)
        (list_prod (seq 0 layers) (seq 0 layers)))
      = if (base (lay x) (lay y) =? l')%N then b2n (cel l x =? A)%N * b2n (cel l y =? B)%N else 0).
    { intros x y Hx Hy. rewrite (list_sum_single _ _ (lay x, lay y)).
      - cbn [fst snd]. unfold inV. rewrite !Nat.eqb_refl. destruct (base _ _ =? l')%N; auto. simpl. lia.
      - apply seq_pairs_nodup.
      - apply in_prod; apply in_seq; lia.
      - intros [i j] _ Hne. cbn [fst snd]. destruct (base i j =? l')%N; auto. unfold inV.
        destruct (Nat.eqb_spec (lay x) i), (Nat.eqb_spec (lay y) j); subst; simpl; try lia. congruence. }
    rewrite (H u v Hu Hv), (H v u Hv Hu), (base_sym (lay v) (lay u)).
    destruct (base (lay u) (lay v) =? l')%N; lia.
  Qed.

  Lemma Nrange_In a b x : In x (Nrange a b) <-> (a <= x <= b)%N.
  Proof.
    unfold Nrange. rewrite in_map_iff. split.
    - intros (k & <- & Hk). apply in_seq in Hk. lia.
    - intros H. exists (N.to_nat (x - a)). split; [lia|]. apply in_seq. lia.
  Qed.
  Lemma Nrange_NoDup a b : NoDup (Nrange a b).
  Proof. apply FinFun.Injective_map_NoDup; [|apply seq_NoDup]. intros x y H. lia. Qed.

  Lemma far_total A B l u v : A <> B -> lay u < layers -> lay v < layers ->
    total (gfar A B l) u v = if (base (lay u) (lay v) <? l)%N then 0 else pairind A B l u v.
  Proof.
    intros HAB Hu Hv. unfold total, gfar. rewrite list_sum_flat_map.
    pose proof (base_lt _ _ Hu Hv) as Hb. set (bb := base (lay u) (lay v)) in *.
    rewrite (list_sum_ext _ (fun l' => if (bb =? l')%N then pairind A B l u v else 0)).
    2:{ intros l' _. rewrite map_map. cbn [S_call]. rewrite (pairs_two A B l l' u v Hu Hv). fold bb. unfold pairind.
        destruct (N.eqb_spec A B); [contradiction|]. reflexivity. }
    destruct (N.ltb_spec bb l) as [L|L].
    - apply list_sum_zero. intros x Hx. apply Nrange_In in Hx. destruct (N.eqb_spec bb x); [lia|reflexivity].
    - rewrite (list_sum_single _ _ bb).
      + now rewrite N.eqb_refl.
      + apply Nrange_NoDup.
      + apply Nrange_In. lia.
      + intros y _ Hy. destruct (N.eqb_spec bb y); [congruence|reflexivity].
  Qed.

  Lemma near_total A B l u v : lay u < layers -> lay v < layers ->
    total (gnear A B l) u v = if (base (lay u) (lay v) =? l)%N then pairind A B l u v else 0.
  Proof.
    intros Hu Hv. unfold total, gnear. rewrite list_sum_flat_map. unfold pairind. destruct (N.eqb_spec A B) as [<-|HAB].
    - cbn [negb orb]. unfold gpairs. rewrite list_sum_filter.
      rewrite (list_sum_ext _ (fun ij => (b2n (cel l u =? A)%N * b2n (cel l v =? A)%N) *
         (if (fst ij <=? snd ij) && (base (fst ij) (snd ij) =? l)%N then tri Nat.eqb (lay u) (lay v) (fst ij) (snd ij) else 0))).
      + rewrite list_sum_mul.
        rewrite (triangle_sum Nat.eqb Nat.leb Nat.eqb_eq) with (P := fun i j => (base i j =? l)%N).
        * destruct (base (lay u) (lay v) =? l)%N; [|lia].
          assert (forall x, lay x < layers -> existsb (Nat.eqb (lay x)) (seq 0 layers) = true).
          { intros x Hx. apply existsb_exists. exists (lay x). split; [apply in_seq; lia|apply Nat.eqb_refl]. }
          rewrite !H by assumption. simpl. lia.
        * intros x y. destruct (Nat.le_ge_cases x y); [left|right]; now apply Nat.leb_le.
        * intros x y H1%Nat.leb_le H2%Nat.leb_le. lia.
        * apply seq_NoDup.
        * intros i j. now rewrite base_sym.
      + intros [i j] _. cbn [fst snd]. destruct (base i j =? l)%N; [|rewrite andb_false_r; lia]. rewrite andb_true_r.
        destruct (i <=? j); [|simpl; lia]. cbn [map list_sum fold_right S_call]. rewrite N.eqb_refl. cbn [andb].
        unfold tri, two, inV. destruct (i =? j); lia.
    - cbn [negb orb]. rewrite (list_sum_ext _ (fun ij => two A B l (fst ij) (snd ij) u v)).
      + now apply pairs_two.
      + intros [i j] _. cbn [map list_sum fold_right S_call fst snd]. destruct (N.eqb_spec A B); [contradiction|]. cbn [andb]. lia.
  Qed.

  Lemma sum_kids A l u : wf l A -> (l + 1 < levels)%N -> (In (cel (l + 1) u) (kids A) <-> cel l u = A) ->
    list_sum (map (fun a => b2n (cel (l + 1) u =? a)%N) (kids A)) = b2n (cel l u =? A)%N.
  Proof.
    intros Hw Hl Hk. destruct (N.eqb_spec (cel l u) A) as [E|E].
    - rewrite (list_sum_single _ _ (cel (l + 1) u)).
      + now rewrite N.eqb_refl.
      + eapply kids_nodup; eauto.
      + now apply Hk.
      + intros y _ Hy. destruct (N.eqb_spec (cel (l + 1) u) y); [congruence|reflexivity].
    - apply list_sum_zero. intros a Ha. destruct (N.eqb_spec (cel (l + 1) u) a); auto. subst a. tauto.
  Qed.

  Theorem cover_total u v : lay u < layers -> lay v < layers ->
    (forall x l A, x = u \/ x = v -> wf l A -> (l + 1 < levels)%N -> (l + 1 <= base (lay u) (lay v))%N -> (In (cel (l + 1) x) (kids A) <-> cel l x = A)) ->
    forall fuel A B l, wf l A -> wf l B -> (l < levels)%N -> fuel = N.to_nat (levels - 1 - l) ->
    total (gplan fuel A B l) u v = if (base (lay u) (lay v) <? l)%N then 0 else pairind A B l u v.
  Proof.
    intros Hu Hv Hkid. pose proof (base_lt _ _ Hu Hv) as Hb. set (bb := base (lay u) (lay v)) in *.
    induction fuel as [|f IH]; intros A B l HA HB Hl Hf; cbn [gplan].
    - destruct (touch A B l) eqn:Et; cbn [negb].
      + rewrite app_nil_r, near_total by assumption. fold bb.
        destruct (N.eqb_spec bb l), (N.ltb_spec bb l); auto; lia.
      + apply far_total; auto. intros <-. rewrite touch_self in Et by assumption. discriminate.
    - destruct (touch A B l) eqn:Et; cbn [negb].
      + rewrite total_app, near_total by assumption. fold bb.
        unfold total at 1. rewrite list_sum_flat_map.
        assert (Hl1 : (l + 1 < levels)%N) by lia.
        pose proof (cp_perm A B l HA HB Hl1) as HP. rewrite (list_sum_Permutation _ _ _ HP).
        assert (Hchild : forall ab, In ab (if (A =? B)%N then filter (fun ab => fst ab <=? snd ab)%N (list_prod (kids A) (kids A)) else list_prod (kids A) (kids B)) ->
          list_sum (map (S_call u v) (gplan f (fst ab) (snd ab) (l + 1))) =
          if (bb <? l + 1)%N then 0 else pairind (fst ab) (snd ab) (l + 1) u v).
        { intros [a b] Hin. cbn [fst snd]. apply IH; try lia.
          - destruct (N.eqb_spec A B) as [<-|]; [apply filter_In in Hin as [Hin _]|]; apply in_prod_iff in Hin as [? ?]; eauto.
          - destruct (N.eqb_spec A B) as [<-|]; [apply filter_In in Hin as [Hin _]|]; apply in_prod_iff in Hin as [? ?]; eauto. }
        rewrite (list_sum_ext _ _ _ Hchild). clear Hchild HP.
        destruct (N.ltb_spec bb (l + 1)) as [L|L].
        * rewrite list_sum_zero by auto. destruct (N.eqb_spec bb l), (N.ltb_spec bb l); lia.
        * destruct (N.eqb_spec bb l); [lia|]. destruct (N.ltb_spec bb l); [lia|]. cbn [Nat.add].
          assert (Ku := sum_kids A l u HA Hl1 (Hkid u l A (or_introl eq_refl) HA Hl1 L)).
          assert (Kv := sum_kids A l v HA Hl1 (Hkid v l A (or_intror eq_refl) HA Hl1 L)).
          assert (Ku' := sum_kids B l u HB Hl1 (Hkid u l B (or_introl eq_refl) HB Hl1 L)).
          assert (Kv' := sum_kids B l v HB Hl1 (Hkid v l B (or_intror eq_refl) HB Hl1 L)).
          unfold pairind at 2. destruct (N.eqb_spec A B) as [<-|HAB].
          -- rewrite list_sum_filter.
             rewrite (list_sum_ext _ (fun ij => if (fst ij <=? snd ij)%N && true then tri N.eqb (cel (l + 1) u) (cel (l + 1) v) (fst ij) (snd ij) else 0)).
             ++ rewrite (triangle_sum N.eqb N.leb N.eqb_eq) with (P := fun _ _ => true).
                ** assert (Hex : forall x, list_sum (map (fun a => b2n (cel (l + 1) x =? a)%N) (kids A)) = b2n (cel l x =? A)%N ->
                     b2n (existsb (N.eqb (cel (l + 1) x)) (kids A)) = b2n (cel l x =? A)%N).
                   { intros x Hx. rewrite <- Hx. pose proof (kids_nodup A l HA Hl1) as Hnd. revert Hnd. generalize (kids A) as K.
                     intros K Hnd. clear -Hnd. induction Hnd as [|a K Hna Hnd IHn]; auto. cbn [existsb map list_sum fold_right].
                     destruct (N.eqb_spec (cel (l + 1) x) a) as [E|E]; cbn [orb].
                     - change (fold_right Nat.add 0 ?L) with (list_sum L). rewrite list_sum_zero; [reflexivity|].
                       intros y Hy. destruct (N.eqb_spec (cel (l + 1) x) y); auto. congruence.
                     - rewrite IHn. reflexivity. }
                   now rewrite (Hex u Ku), (Hex v Kv).
                ** intros x y. destruct (N.le_ge_cases x y); [left|right]; now apply N.leb_le.
                ** intros x y H1%N.leb_le H2%N.leb_le. lia.
                ** eapply kids_nodup; eauto.
                ** auto.
             ++ intros [a b] _. cbn [fst snd]. rewrite andb_true_r. destruct (a <=? b)%N; reflexivity.
          -- rewrite (list_sum_ext _ (fun ab => b2n (cel (l + 1) u =? fst ab)%N * b2n (cel (l + 1) v =? snd ab)%N
                                             + b2n (cel (l + 1) v =? fst ab)%N * b2n (cel (l + 1) u =? snd ab)%N)).
             ++ rewrite list_sum_add.
                rewrite (list_sum_prod (fun a => b2n (cel (l + 1) u =? a)%N) (fun b => b2n (cel (l + 1) v =? b)%N)).
                rewrite (list_sum_prod (fun a => b2n (cel (l + 1) v =? a)%N) (fun b => b2n (cel (l + 1) u =? b)%N)).
                now rewrite Ku, Kv, Ku', Kv'.
             ++ intros [a b] Hin. apply in_prod_iff in Hin as [Ha Hb']. cbn [fst snd]. unfold pairind.
                destruct (N.eqb_spec a b) as [<-|]; auto. exfalso. apply HAB. eapply kids_disj; eauto.
      + apply far_total; auto. intros <-. rewrite touch_self in Et by assumption. discriminate.
  Qed.

  (** cutting the recursion at a level *)
  Fixpoint gseq (fpl : N) (fuel : nat) (A B l : N) : list call * list (N * N) :=
    if negb (touch A B l) then (gfar A B l, [])
    else match fuel with
         | O => (gnear A B l, [])
         | S f => let rs := map (fun ab => if (l + 1 =? fpl)%N then ([], [ab]) else gseq fpl f (fst ab) (snd ab) (l + 1)) (cp A B) in
                  (gnear A B l ++ concat (map fst rs), concat (map snd rs))
         end.
  Theorem gseq_partition fpl : forall fuel A B l, fuel = N.to_nat (levels - 1 - l) -> (l < fpl)%N -> (l < levels)%N ->
    Permutation (gplan fuel A B l)
      (fst (gseq fpl fuel A B l) ++ flat_map (fun ab => gplan (N.to_nat (levels - 1 - fpl)) (fst ab) (snd ab) fpl) (snd (gseq fpl fuel A B l))).
  Proof.
    induction fuel as [|f IH]; intros A B l Hf Hfp Hl; cbn [gplan gseq].
    - destruct (touch A B l); cbn [negb fst snd flat_map]; rewrite ?app_nil_r; reflexivity.
    - destruct (touch A B l); cbn [negb fst snd flat_map]; [|now rewrite app_nil_r].
      rewrite <- app_assoc. apply Permutation_app_head. generalize (cp A B) as L. intros L.
      induction L as [|[a b] L IHL]; simpl; auto.
      rewrite flat_map_app. destruct (N.eqb_spec (l + 1) fpl) as [E|E]; cbn [fst snd].
      + subst fpl. cbn [fst snd app flat_map] in *. rewrite app_nil_r. replace (N.to_nat (levels - 1 - (l + 1))) with f in * by lia.
        rewrite IHL. apply Permutation_app_swap_app.
      + rewrite (IH a b (l + 1)%N ltac:(lia) ltac:(lia) ltac:(lia)). rewrite IHL. 
        rewrite <- !app_assoc. apply Permutation_app_head. rewrite !app_assoc. apply Permutation_app_tail.
        apply Permutation_app_comm.
  Qed.
End Cover.
