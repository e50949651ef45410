(** Ideal randomness.  A tape is an unbounded supply of draws from [0,1); the expected value of a quantity computed from a tape is obtained by revealing
    the draws one after the other and integrating over each of them.  [tape_rng] turns tapes into the random engines of the model. *)
From Coq Require Import Arith NArith ZArith List Bool Reals Lra.
From Coquelicot Require Import Coquelicot.
From Flocq Require Import Core.
From Verif Require Import Base Tree_Model Hyp_Model.
Import ListNotations.
Local Open Scope R_scope.

Definition unit_draw := {x : R | 0 <= x < 1}.
Definition tape := nat -> unit_draw.
Definition val (u : unit_draw) : R := proj1_sig u.
Definition tcons (u : unit_draw) (t : tape) : tape := fun n => match n with O => u | S k => t k end.
Definition ttail (t : tape) : tape := fun n => t (S n).

(** [expects f v]: when the draws are independent and uniform on [0,1), f of the tape has the expected value v.
    Either f does not depend on the tape, or one draw is revealed and the conditional expectations are integrated. *)
Inductive expects : (tape -> R) -> R -> Prop :=
| ex_value f v : (forall t, f t = v) -> expects f v
| ex_draw f g v : (forall u, expects (fun t => f (tcons u t)) (g (val u))) -> is_RInt g 0 1 v -> expects f v.

(** several independent tapes *)
Fixpoint expects_n (n : nat) (f : list tape -> R) (v : R) : Prop :=
  match n with
  | O => f [] = v
  | S m => exists g, (forall t, expects_n m (fun ts => f (t :: ts)) (g t)) /\ expects g v
  end.
(** the probability of an event *)
Definition probability_n (n : nat) (A : list tape -> bool) (p : R) : Prop := expects_n n (fun ts => if A ts then 1 else 0) p.

(** std::geometric_distribution by inversion (as in libstdc++): floor(log(1-u)/log(1-p)), capped at 2^63-1 *)
Definition geo_of (p u : R) : N := N.min (Z.to_N (Zfloor (ln (1 - u) / ln (1 - p)))) (2 ^ 63 - 1).

(** an engine whose state is a tape; every distribution consumes one draw *)
Definition tape_rng (seeds : Z -> tape) : rng :=
  {| G := tape; rseed := seeds;
     u01 := fun t => (val (t 0%nat), ttail t);
     uni0 := fun p t => (p * val (t 0%nat), ttail t);
     geo := fun p t => (geo_of p (val (t 0%nat)), ttail t) |}.
(** thread k is seeded with seed + k and gets the k-th tape *)
Definition zero_draw : unit_draw := exist _ 0 (conj (Rle_refl 0) Rlt_0_1).
Definition seeded (seed : Z) (tapes : list tape) : Z -> tape := fun z => nth (Z.to_nat (z - seed)) tapes (fun _ => zero_draw).

(** products over lists *)
Definition prodR {A} (l : list A) (f : A -> R) : R := fold_right (fun x r => f x * r) 1 l.
(** the unordered pairs of the nodes 0..n-1 *)
Definition all_pairs (n : nat) : list (nat * nat) := flat_map (fun v => map (fun u => (u, v)) (seq 0 v)) (seq 0 n).
Definition memb (e : nat * nat) (l : list (nat * nat)) : bool := existsb (fun x => (fst x =? fst e)%nat && (snd x =? snd e)%nat) l.
(** u and v are joined by a reported edge, in either orientation *)
Definition joinedb (edges : list (nat * nat)) (u v : nat) : bool := memb (u, v) edges || memb (v, u) edges.

(** Engines of the hyperbolic generator: besides the distributions they produce 32-bit seeds and are constructed from blocks of 312 of them
    (HyperbolicTree.inl:446-471).  The engine constructed from the i-th block of the seeds gets the i-th tape. *)
Definition tape_hrng (tapes : list tape) : hrng :=
  {| hb := {| G := (tape * N)%type; rseed := fun _ => (nth 0 tapes (fun _ => zero_draw), 0%N);
              u01 := fun g => (val (fst g 0%nat), (ttail (fst g), snd g));
              uni0 := fun p g => (p * val (fst g 0%nat), (ttail (fst g), snd g));
              geo := fun p g => (geo_of p (val (fst g 0%nat)), (ttail (fst g), snd g)) |};
     draw_u32 := fun g => (snd g, (fst g, (snd g + 1)%N));
     seed_seq := fun l => (nth (N.to_nat (hd 0%N l / 312)) tapes (fun _ => zero_draw), 0%N) |}.
