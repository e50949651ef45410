(** Model of hypergirgs/source/Generator.cpp:17-131: calculateRadius, the NetworKit-style search and the sampling of radii and angles.
    Doubles are exact reals; [None] = undefined behaviour or (for the radius formulas) a value that is not a finite number. *)
From Coq Require Import Arith NArith ZArith List Bool Reals.
From Verif Require Import Base Sched Tree_Model Sampling_Model Hyp_Model.
Import ListNotations.
Local Open Scope R_scope.

(** ** Generator.cpp:17-20 calculateRadius *)
(** log of an argument that is not positive is -inf or NaN *)
Definition log_pos (x : R) : option R := if Rlt_dec 0 x then Some (ln x) else None.
(** division by zero gives an infinity or NaN *)
Definition div_nz (x y : R) : option R := if Req_EM_T y 0 then None else Some (x / y).
Definition calculateRadius (n : nat) (alpha T deg : R) : option R :=
  do c <- (if Req_EM_T T 0 then Some (1 / PI) else div_nz T (sin (PI * T)));
  do q <- div_nz (INR n * 2 * alpha * alpha * c) (deg * (alpha - 1 / 2) * (alpha - 1 / 2));
  do l <- log_pos q; Some (2 * l).

(** ** Generator.cpp:23-30 getExpectedDegree (alpha > 1/2, otherwise xi and 1/alpha may be infinite) *)
Definition expected_degree (n alpha Rd : R) : R :=
  let gamma := 2 * alpha + 1 in
  let xi := (gamma - 1) / (gamma - 2) in
  let firstSumTerm := exp (- Rd / 2) in
  let secondSumTerm := exp (- alpha * Rd) * (alpha * (Rd / 2) * (PI / 4 * (1 / alpha) ^ 2 - (PI - 1) * (1 / alpha) + (PI - 2)) - 1) in
  2 / PI * xi * xi * n * (firstSumTerm + secondSumTerm).
(** Generator.cpp:32-52 searchTargetRadiusForColdGraphs.  One iteration of the do-while loop, as a step of a machine. *)
Inductive rsearch := RLoop (lo hi : R) | RDone (r : R).
Inductive rstep (f : R -> R) (k eps : R) : rsearch -> rsearch -> Prop :=
| rs_exit lo hi : Rabs (f ((lo + hi) / 2) - k) <= eps -> rstep f k eps (RLoop lo hi) (RDone ((lo + hi) / 2))
| rs_upper lo hi : eps < Rabs (f ((lo + hi) / 2) - k) -> f ((lo + hi) / 2) < k -> rstep f k eps (RLoop lo hi) (RLoop lo ((lo + hi) / 2))
| rs_lower lo hi : eps < Rabs (f ((lo + hi) / 2) - k) -> k <= f ((lo + hi) / 2) -> rstep f k eps (RLoop lo hi) (RLoop ((lo + hi) / 2) hi).
Inductive rsteps (f : R -> R) (k eps : R) : rsearch -> rsearch -> Prop :=
| rss_refl s : rsteps f k eps s s
| rss_step s1 s2 s3 : rstep f k eps s1 s2 -> rsteps f k eps s2 s3 -> rsteps f k eps s1 s3.
(** Generator.cpp:33-36 (and 60-61): the closed form the search starts from *)
Definition start_radius (n k alpha : R) : option R :=
  let gamma := 2 * alpha + 1 in
  let xiInv := (gamma - 2) / (gamma - 1) in
  let v := k * (PI / 2) * xiInv * xiInv in
  do q <- div_nz n v; do l <- log_pos q; Some (2 * l).
(** Generator.cpp:54-75 getTargetRadius with epsilon = 0.01 and Generator.cpp:78-80 calculateRadiusLikeNetworKit, m = 0.5*deg*n.
    The result is a relation: for T = 0 the search may not terminate, and then there is no result.
    The two assertions of lines 39-40 are [networkit_asserts]. *)
Definition networkit_radius (n : nat) (alpha T deg : R) (r : option R) : Prop :=
  let N := INR n in
  let plexp := 2 * alpha + 1 in
  let targetAvgDegree := 1 / 2 * deg * N / N * 2 in
  let xiInv := (plexp - 2) / (plexp - 1) in
  if Req_EM_T T 0 then
    match start_radius N targetAvgDegree alpha with
    | None => r = None
    | Some r0 => exists x, r = Some x /\ rsteps (expected_degree N alpha) targetAvgDegree (1 / 100) (RLoop (r0 / 2) (r0 * 2)) (RDone x)
    end
  else
    let beta := 1 / T in
    if Rlt_dec T 1 then
      let Iinv := beta / PI * sin (PI / beta) in
      let v := targetAvgDegree * Iinv * (PI / 2) * xiInv * xiInv in
      r = (do q <- div_nz N v; do l <- log_pos q; Some (2 * l))
    else
      let v := targetAvgDegree * (1 - beta) * Rpower (PI / 2) beta * xiInv * xiInv in
      r = (do q <- div_nz N v; do l <- log_pos q; Some (2 * l / beta)).
Definition networkit_asserts (n : nat) (alpha deg : R) : Prop :=
  exists r0, start_radius (INR n) deg alpha = Some r0 /\ deg < expected_degree (INR n) alpha (r0 / 2) /\ expected_degree (INR n) alpha (r0 * 2) < deg.

(** ** Generator.cpp:82-131 sampling *)
Local Open Scope nat_scope.
(** an engine that can also be called without a distribution (warm-up) *)
Record hengine := { he : rng; raw : G he -> G he }.
(** Generator.cpp:92; n + 9999 is int arithmetic *)
Definition hinput_threads (parallel : bool) (omp_max n : nat) : option nat :=
  if parallel then (if (N.of_nat n + 9999 <? 2 ^ 31)%N then Some (Nat.min omp_max (N.to_nat ((N.of_nat n + 9999) / 10000))) else None) else Some 1.
(** Generator.cpp:101-104: the number of raw draws; division by threads = 0 is undefined *)
Definition warmup (n threads : nat) : option nat := if threads =? 0 then None else Some (N.to_nat (N.max (N.of_nat n / N.of_nat threads / 5) 1000)).
(** nextafter(1.0, 2.0) *)
Definition above_one : R := (1 + / IZR (2 ^ 52))%R.
(** std::uniform_real_distribution(a,b)(gen) is a + (b-a)*u for a draw u in [0,1) *)
Definition uni (a b u : R) : R := (u * (b - a) + a)%R.
Definition angle_of (u : R) : R := uni 0 (2 * PI) u.
Definition radius_of (alpha Rd u : R) : R := (acosh (uni above_one (cosh (alpha * Rd)) u) * (1 / alpha))%R.
(** Generator.cpp:107-113 one iteration: the angle is drawn first.  A vector that is not requested stays empty; here its element is 0 and ignored. *)
Definition hsample_step (rg : rng) (Radii Angles : bool) (alpha Rd : R) (g : G rg) : (R * R) * G rg :=
  let (a, g1) := if Angles then (let (u, g') := u01 rg g in (angle_of u, g')) else (0%R, g) in
  let (r, g2) := if Radii then (let (u, g') := u01 rg g1 in (radius_of alpha Rd u, g')) else (0%R, g1) in
  ((r, a), g2).
(** Generator.cpp:82-117 sampleRadiiAndAnglesHelper; [team] = threads the region gets.  uniform_real_distribution(a,b) requires a <= b. *)
Definition hsample_outcome (en : hengine) (Radii Angles : bool) (n : nat) (alpha Rd : R) (seed : Z) (parallel : bool) (omp_max team : nat)
  (o : option (list (R * R))) : Prop :=
  match (do threads <- hinput_threads parallel omp_max n; do w <- warmup n threads; Some (threads, w)) with
  | None => o = None
  | Some (threads, w) =>
    (1 <= team <= threads) /\
    if seeds_defined seed team && Rleb above_one (cosh (alpha * Rd)) then
      exists gens, gens_ok (he en) seed team gens /\
        filled (hsample_step (he en) Radii Angles alpha Rd) (0, 0)%R team n (map (Nat.iter w (raw en)) gens) o
    else o = None
  end.
(** Generator.cpp:120-127 *)
Definition sampleRadii (en : hengine) (n : nat) (alpha Rd : R) (seed : Z) (parallel : bool) (omp_max team : nat) (o : option (list R)) : Prop :=
  exists oo, hsample_outcome en true false n alpha Rd seed parallel omp_max team oo /\ o = (do l <- oo; Some (map fst l)).
Definition sampleAngles (en : hengine) (n : nat) (seed : Z) (parallel : bool) (omp_max team : nat) (o : option (list R)) : Prop :=
  exists oo, hsample_outcome en false true n 1 10 seed parallel omp_max team oo /\ o = (do l <- oo; Some (map snd l)).
(** Generator.cpp:129-131 *)
Definition sampleRadiiAndAngles (en : hengine) (n : nat) (alpha Rd : R) (seed : Z) (parallel : bool) (omp_max team : nat) (o : option (list R * list R)) : Prop :=
  exists oo, hsample_outcome en true true n alpha Rd seed parallel omp_max team oo /\ o = (do l <- oo; Some (map fst l, map snd l)).
