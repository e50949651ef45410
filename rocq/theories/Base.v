(** Shared vocabulary of the model: machine words, undefined behaviour, numerics. *)
From Coq Require Import NArith ZArith List Bool Reals Lra Lia.
Import ListNotations.

(** ** Undefined behaviour
    A C++ step whose behaviour is undefined (shift by the word width, out-of-range access, signed
    overflow ...) is the outcome [None]; everything defined is [Some]. *)
Definition obind {A B} (o : option A) (f : A -> option B) : option B :=
  match o with Some a => f a | None => None end.
Notation "'do' x <- e ; k" := (obind e (fun x => k))
  (at level 200, x pattern, e at level 100, k at level 200, right associativity).

Fixpoint omap {A B} (f : A -> option B) (l : list A) : option (list B) :=
  match l with
  | [] => Some []
  | x :: r => do y <- f x; do ys <- omap f r; Some (y :: ys)
  end.

(** ** Machine words *)
(** unsigned 32/64 bit wrap-around (C++ unsigned arithmetic). *)
Definition w32 (x : N) : N := N.land x (N.ones 32).
Definition w64 (x : N) : N := N.land x (N.ones 64).

(** [1u << k] : undefined for k >= 32. *)
Definition shl1_u32 (k : N) : option N := if (k <? 32)%N then Some (N.shiftl 1 k) else None.
(** [1 << k] on a signed int: undefined (not representable) for k >= 31. *)
Definition shl1_i32 (k : N) : option N := if (k <? 31)%N then Some (N.shiftl 1 k) else None.

(** ** Numerics
    The rounding of every double operation is a parameter; [ideal_env] is exact real arithmetic.
    [fpow] and [flog2] are the library functions std::pow and std::log2. *)
Record fenv := { rnd : R -> R; flog2 : R -> R; fpow : R -> R -> R }.

Definition log2R (x : R) : R := (ln x / ln 2)%R.

Definition ideal_env : fenv := {| rnd := fun x => x; flog2 := log2R; fpow := Rpower |}.

Definition Rltb (x y : R) : bool := if Rlt_dec x y then true else false.
Definition Rleb (x y : R) : bool := if Rle_dec x y then true else false.

Lemma Rltb_true x y : Rltb x y = true <-> (x < y)%R.
Proof. unfold Rltb. destruct (Rlt_dec x y); split; intros; auto; discriminate. Qed.
Lemma Rltb_false x y : Rltb x y = false <-> (y <= x)%R.
Proof. unfold Rltb. destruct (Rlt_dec x y); split; intros; try discriminate; try lra; auto. Qed.
Lemma Rleb_true x y : Rleb x y = true <-> (x <= y)%R.
Proof. unfold Rleb. destruct (Rle_dec x y); split; intros; auto; discriminate. Qed.
Lemma Rleb_false x y : Rleb x y = false <-> (y < x)%R.
Proof. unfold Rleb. destruct (Rle_dec x y); split; intros; try discriminate; try lra; auto. Qed.

(** The model parameter alpha: a finite double or +infinity. *)
Inductive alphaT := AInf | AFin (a : R).

Lemma Forall2_len {A B} (P : A -> B -> Prop) l m : Forall2 P l m -> length l = length m.
Proof. induction 1; cbn; auto. Qed.
Lemma Forall2_weaken {A B} (P Q : A -> B -> Prop) l m : (forall a b, P a b -> Q a b) -> Forall2 P l m -> Forall2 Q l m.
Proof. induction 2; constructor; auto. Qed.
