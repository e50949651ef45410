(** Sampling of radii and angles (HypIn_Model) over an arbitrary arithmetic: every operation on doubles is followed by a rounding and the
    functions of <cmath> are parameters, as in HypF_Model.  std::uniform_real_distribution(a,b) is libstdc++'s generate_canonical * (b - a) + a
    (bits/random.h), with a canonical draw in [0,1). *)
From Coq Require Import Arith NArith ZArith List Bool Reals.
From Verif Require Import Base Sched Tree_Model Sampling_Model Hyp_Model HypIn_Model HypF_Model.
Import ListNotations.
Local Open Scope R_scope.

Section Code.
  Variable M : hmath.
  Notation "# x" := (hr M x) (at level 2, right associativity).
  Definition uniF (a b u : R) : R := #(#(u * #(b - a)) + a).
  (** Generator.cpp:98: uniform_real_distribution(0, 2*PI) *)
  Definition angle_ofF (u : R) : R := uniF 0 (#(2 * hpi M)) u.
  (** Generator.cpp:94, 99, 112: acosh(rdist(gen)) * invalpha with rdist on [nextafter(1.0, 2.0), cosh(alpha * R)) *)
  Definition radius_ofF (alpha Rd u : R) : R := #(hacosh M (uniF above_one (hcosh M #(alpha * Rd)) u) * #(1 / alpha)).
  (** Generator.cpp:107-113 *)
  Definition hsample_stepF (rg : rng) (Radii Angles : bool) (alpha Rd : R) (g : G rg) : (R * R) * G rg :=
    let (a, g1) := if Angles then (let (u, g') := u01 rg g in (angle_ofF u, g')) else (0%R, g) in
    let (r, g2) := if Radii then (let (u, g') := u01 rg g1 in (radius_ofF alpha Rd u, g')) else (0%R, g1) in
    ((r, a), g2).
  Local Open Scope nat_scope.
  (** Generator.cpp:82-117 sampleRadiiAndAnglesHelper *)
  Definition hsample_outcomeF (en : hengine) (Radii Angles : bool) (n : nat) (alpha Rd : R) (seed : Z) (parallel : bool) (omp_max team : nat)
    (o : option (list (R * R))) : Prop :=
    match (do threads <- hinput_threads parallel omp_max n; do w <- warmup n threads; Some (threads, w)) with
    | None => o = None
    | Some (threads, w) =>
      (1 <= team <= threads) /\
      if seeds_defined seed team && Rleb above_one (hcosh M #(alpha * Rd)) then
        exists gens, gens_ok (he en) seed team gens /\
          filled (hsample_stepF (he en) Radii Angles alpha Rd) (0, 0)%R team n (map (Nat.iter w (raw en)) gens) o
      else o = None
    end.
  (** Generator.cpp:129-131 *)
  Definition sampleRadiiAndAnglesF (en : hengine) (n : nat) (alpha Rd : R) (seed : Z) (parallel : bool) (omp_max team : nat) (o : option (list R * list R)) : Prop :=
    exists oo, hsample_outcomeF en true true n alpha Rd seed parallel omp_max team oo /\ o = (do l <- oo; Some (map fst l, map snd l)).
  (** Generator.cpp:120-122 *)
  Definition sampleRadiiF (en : hengine) (n : nat) (alpha Rd : R) (seed : Z) (parallel : bool) (omp_max team : nat) (o : option (list R)) : Prop :=
    exists oo, hsample_outcomeF en true false n alpha Rd seed parallel omp_max team oo /\ o = (do l <- oo; Some (map fst l)).
  (** Generator.cpp:124-127 *)
  Definition sampleAnglesF (en : hengine) (n : nat) (seed : Z) (parallel : bool) (omp_max team : nat) (o : option (list R)) : Prop :=
    exists oo, hsample_outcomeF en false true n 1 10 seed parallel omp_max team oo /\ o = (do l <- oo; Some (map snd l)).
End Code.
(** without rounding this is HypIn_Model *)
Lemma hsample_outcomeF_exact : hsample_outcomeF exact_math = hsample_outcome. Proof. reflexivity. Qed.
