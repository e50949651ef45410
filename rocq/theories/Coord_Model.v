(** Model of girgs/SpatialTreeCoordinateHelper.{h,inl}, girgs/Node.h and girgs/Helper.h. *)
From Coq Require Import Arith NArith ZArith List Bool Reals.
From Flocq Require Import Core.
From Verif Require Import Base Bits_Model.
Import ListNotations.
Open Scope N_scope.

(** Compile-time configuration: USE_BMI2 (BitManipulation.h:26), __GNUC__/__clang__
    (SpatialTreeCoordinateHelper.inl:10), NDEBUG (SpatialTree.inl). *)
Record config := { use_bmi2 : bool; gnuc : bool; ndebug : bool }.

(** SpatialTreeCoordinateHelper.h:12-14 (D <= 5, so the shift is always defined) *)
Definition numChildren (D : N) : N := N.shiftl 1 D.
(** SpatialTreeCoordinateHelper.h:16-18 *)
Definition numCellsInLevel (D level : N) : option N := shl1_u32 (D * level).
(** SpatialTreeCoordinateHelper.h:20-22 *)
Definition firstCellOfLevel (D level : N) : option N :=
  do x <- shl1_u32 (D * level); Some ((x - 1) / (numChildren D - 1)).
(** SpatialTreeCoordinateHelper.h:24-26; cell-1 wraps for cell = 0 *)
Definition parent (D cell : N) : N := w32 (cell + (2^32 - 1)) / numChildren D.
(** SpatialTreeCoordinateHelper.h:28-30 *)
Definition firstChild (D cell : N) : N := w32 (numChildren D * cell + 1).
(** SpatialTreeCoordinateHelper.h:32-34 *)
Definition lastChild (D cell : N) : N := w32 (firstChild D cell + numChildren D - 1).

(** __builtin_clz for x <> 0 (32 bit) *)
Definition clz32 (x : N) : N := 31 - N.log2 x.
(** SpatialTreeCoordinateHelper.inl:9-24 assertLower, GNU branch and portable branch *)
Definition assertLower_gnu (x : N) : N :=
  if x =? 0 then 0 else w32 (N.shiftl 1 (32 - clz32 x) - 1).
Definition assertLower_portable (x : N) : N :=
  let x := N.lor x (N.shiftr x 1) in
  let x := N.lor x (N.shiftr x 2) in
  let x := N.lor x (N.shiftr x 4) in
  let x := N.lor x (N.shiftr x 8) in
  N.lor x (N.shiftr x 16).
(** SpatialTreeCoordinateHelper.inl:7-34 cellOfLevel *)
Definition cellOfLevel (cfg : config) (D cell : N) : N :=
  let mask := kEveryDthBit D in
  let first := N.land mask ((if gnuc cfg then assertLower_gnu else assertLower_portable) cell) in
  let first := if cell <? first then N.shiftr first D else first in
  cell - first.

(** static_cast<int>(uint32_t): values >= 2^31 are not representable (treated as undefined). *)
Definition u32_to_int (x : N) : option Z := if x <? 2^31 then Some (Z.of_N x) else None.

(** the index distance of one axis, SpatialTreeCoordinateHelper.inl:66-67 and 82-83 *)
Definition axis_dist (side : N) (a b : Z) : Z :=
  let dist := Z.abs (a - b) in Z.min dist (Z.of_N side - dist).

Fixpoint axis_dists (side : N) (ca cb : list N) : option (list Z) :=
  match ca, cb with
  | a :: ra, b :: rb => do x <- u32_to_int a; do y <- u32_to_int b;
                        do r <- axis_dists side ra rb; Some (axis_dist side x y :: r)
  | _, _ => Some []
  end.

(** SpatialTreeCoordinateHelper.inl:60-72 touching *)
Definition touching (cfg : config) (D cellA cellB level : N) : option bool :=
  let coordA := extract (use_bmi2 cfg) D (cellOfLevel cfg D cellA) in
  let coordB := extract (use_bmi2 cfg) D (cellOfLevel cfg D cellB) in
  do side <- shl1_i32 level;
  do ds <- axis_dists side coordA coordB;
  Some (forallb (fun d => (d <=? 1)%Z) ds).

(** SpatialTreeCoordinateHelper.inl:74-91 dist *)
Definition cell_dist (E : fenv) (cfg : config) (D cellA cellB level : N) : option R :=
  let coordA := extract (use_bmi2 cfg) D (cellOfLevel cfg D cellA) in
  let coordB := extract (use_bmi2 cfg) D (cellOfLevel cfg D cellB) in
  do side <- shl1_i32 level;
  do ds <- axis_dists side coordA coordB;
  let result := fold_left Z.max ds 0%Z in
  let diameter := rnd E (1 / IZR (Z.of_N side)) in
  Some (Rmax 0 (rnd E (IZR (result - 1) * diameter))).

(** SpatialTreeCoordinateHelper.inl:36-46 bounds *)
Definition bounds (E : fenv) (cfg : config) (D cell level : N) : option (list (R * R)) :=
  do side <- shl1_i32 level;
  let diameter := rnd E (1 / IZR (Z.of_N side)) in
  Some (map (fun c => (rnd E (IZR (Z.of_N c) * diameter), rnd E (IZR (Z.of_N (w32 (c + 1))) * diameter))%R)
            (extract (use_bmi2 cfg) D (cellOfLevel cfg D cell))).

(** static_cast<uint32_t>(double): truncation, undefined if the result does not fit *)
Definition double_to_u32 (x : R) : option N :=
  let z := Ztrunc x in
  if ((0 <=? z) && (z <? 2^32))%Z then Some (Z.to_N z) else None.

(** SpatialTreeCoordinateHelper.inl:48-57 cellForPoint *)
Definition cellForPoint (E : fenv) (cfg : config) (D : N) (position : list R) (targetLevel : N) : option N :=
  do side <- shl1_i32 targetLevel;
  do coords <- omap (fun x => double_to_u32 (rnd E (x * IZR (Z.of_N side)))) position;
  Some (deposit (use_bmi2 cfg) D coords).

(** Node.h:12-27.  The coordinates are the first D entries of the caller's vector. *)
Record node := { coord : list R; weight : R; index : nat; cell_id : N }.

(** Node.h:29-37 distance: one axis, then the maximum over the axes *)
Definition axis_distance (E : fenv) (x y : R) : R :=
  let dist := Rabs (rnd E (x - y)) in Rmin dist (rnd E (1 - dist)).
Fixpoint coord_distance (E : fenv) (result : R) (xs ys : list R) : R :=
  match xs, ys with
  | x :: xr, y :: yr => coord_distance E (Rmax result (axis_distance E x y)) xr yr
  | _, _ => result
  end.
Definition node_distance (E : fenv) (a b : node) : R := coord_distance E 0 (coord a) (coord b).

(** Helper.h:6-37 pow_to_the (template recursion on D; fuel D suffices) *)
Fixpoint pow_helper (fuel : nat) (E : fenv) (D : nat) (x : R) : R :=
  match fuel with
  | O => 1%R
  | S f =>
    match D with
    | O => 1%R
    | 1%nat => x
    | 2%nat => rnd E (x * x)
    | _ => rnd E (pow_helper f E (D / 2) x * pow_helper f E ((D + 1) / 2) x)
    end
  end.
Definition pow_to_the (E : fenv) (D : N) (x : R) : R := pow_helper (S (N.to_nat D)) E (N.to_nat D) x.
