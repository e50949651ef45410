(** Model of girgs/BitManipulation.h, BitManipulationGeneric.inl, BitManipulationBMI2.inl.
    Words are [N]; [w32]/[w64] make the truncation to the C++ type explicit. *)
From Coq Require Import NArith List Bool.
From Verif Require Import Base.
Import ListNotations.
Open Scope N_scope.

(** BitManipulation.h:9-11 setEveryDthBit for T = uint32_t (constexpr recursion, fuel 33 > 32). *)
Fixpoint setEveryDthBit (fuel : nat) (D i : N) : N :=
  match fuel with
  | O => 0
  | S f => if i <? 32 then w32 (N.lor (N.shiftl 1 i) (setEveryDthBit f D (i + D))) else 0
  end.
(** BitManipulation.h:14 kEveryDthBit *)
Definition kEveryDthBit (D : N) : N := setEveryDthBit 33 D 0.

(** BitManipulationGeneric.inl:21-23 nBits *)
Definition nBits (n : N) : N := if n =? 0 then 0 else w32 (N.shiftl 1 n - 1).

(** BitManipulationGeneric.inl:25-30 compile_pattern (fuel 33: i grows by at least 1 up to 32) *)
Fixpoint compile_pattern (fuel : nat) (Space Block i b : N) : N :=
  match fuel with
  | O => 0
  | S f =>
    if 31 <? i then 0
    else N.lor (if b =? 0 then 0 else w32 (N.shiftl (nBits (if b <? Block then b else Block)) i))
               (compile_pattern f Space Block (i + Block + Space) (if Block <? b then b - Block else 0))
  end.
(** BitManipulationGeneric.inl:33-34 kPattern32, kPattern64 *)
Definition kPattern32 (Bits Space Block : N) : N := compile_pattern 33 Space Block 0 Bits.
Definition kPattern64 (Bits Space Block : N) : N :=
  N.lor (N.shiftl (kPattern32 Bits Space Block) 32) (kPattern32 Bits Space Block).

(** BitManipulationGeneric.inl:36-57 shift/recurse; [p64] selects the 64 bit overload.  The template recursion
    doubles Block until Block >= Bits, so fuel 6 suffices for Bits <= 32. *)
Fixpoint ext_shift (fuel : nat) (p64 : bool) (Bits Space Block x : N) : N :=
  let x := N.land x (if p64 then kPattern64 Bits Space Block else kPattern32 Bits Space Block) in
  match fuel with
  | O => x
  | S f => if Bits <=? Block then x
           else ext_shift f p64 Bits (2 * Space) (2 * Block) (N.lor x (N.shiftr x Space))
  end.

(** BitManipulationGeneric.inl:75-98 Extract<D>::extract for D >= 2; line 80 fixes Bits, Space, Block *)
Definition extractor (p64 : bool) (D x : N) : N := ext_shift 6 p64 ((32 + D - 1) / D) (D - 1) 1 x.

(** lines 82-86: odd D, one coordinate at a time *)
Definition extract_odd (D cell : N) : list N :=
  map (fun i => extractor false D (N.shiftr cell (N.of_nat i))) (seq 0 (N.to_nat D)).

(** lines 88-93: even D, two coordinates at a time packed in a 64 bit word (i = 2k) *)
Definition extract_even (D cell : N) : list N :=
  flat_map (fun k =>
    let i := N.of_nat (2 * k) in
    let twoWords := N.lor (N.shiftr cell i) (N.shiftl (N.shiftr cell (i + 1)) 32) in
    let shifted := extractor true D twoWords in
    [N.land shifted 0xffffffff; w32 (N.shiftr shifted 32)])
   (seq 0 (N.to_nat (D / 2))).

(** BitManipulationGeneric.inl:100-107 (Extract<1>) and 75-98 *)
Definition extract_generic (D cell : N) : list N :=
  if D =? 1 then [cell]
  else if N.odd D then extract_odd D cell else extract_even D cell.

Definition nthN (l : list N) (i : nat) : N := nth i l 0.

(** BitManipulationGeneric.inl:110-128 Deposit<D> (the loop nest; bit = l*D+d) *)
Definition deposit_loop (D : N) (coords : list N) : N :=
  fold_left (fun result l =>
    fold_left (fun result d =>
        N.lor result (w32 (N.shiftl (N.land (N.shiftr (nthN coords d) (N.of_nat l)) 1)
                                    (N.of_nat l * D + N.of_nat d))))
      (seq 0 (N.to_nat D)) result)
    (seq 0 (N.to_nat (32 / D))) 0.

Definition deposit_default (D : N) (coords : list N) : N :=
  if D =? 1 then nthN coords 0 else deposit_loop D coords.

(** BitManipulationGeneric.inl:130-149 Deposit<2> *)
Definition deposit2 (coords : list N) : N :=
  let z := N.lor (nthN coords 0) (N.shiftl (nthN coords 1) 32) in
  let z := N.land (N.lor z (w64 (N.shiftl z 8))) 0x00FF00FF00FF00FF in
  let z := N.land (N.lor z (w64 (N.shiftl z 4))) 0x0F0F0F0F0F0F0F0F in
  let z := N.land (N.lor z (w64 (N.shiftl z 2))) 0x3333333333333333 in
  let z := N.land (N.lor z (w64 (N.shiftl z 1))) 0x5555555555555555 in
  let z := N.lor z (N.shiftr z 31) in
  w32 z.

(** BitManipulationGeneric.inl:151-177 Deposit<3>; the three words go through the same four steps *)
Definition spread3 (x : N) : N :=
  let x := N.land (N.lor x (w32 (N.shiftl x 16))) 0x070000ff in
  let x := N.land (N.lor x (w32 (N.shiftl x  8))) 0x0700f00f in
  let x := N.land (N.lor x (w32 (N.shiftl x  4))) 0xc30c30c3 in
  N.land (N.lor x (w32 (N.shiftl x  2))) 0x49249249.
Definition deposit3 (coords : list N) : N :=
  let x := spread3 (nthN coords 0) in
  let y := spread3 (nthN coords 1) in
  let z := spread3 (nthN coords 2) in
  N.lor (N.lor x (w32 (N.shiftl y 1))) (w32 (N.shiftl z 2)).

(** BitManipulationGeneric.inl:179-201 Deposit<4>; both 64 bit words go through the same steps *)
Definition spread4 (x : N) : N :=
  let x := N.land (N.lor x (w64 (N.shiftl x 12))) 0x000F000F000F000F in
  let x := N.land (N.lor x (w64 (N.shiftl x  6))) 0x0303030303030303 in
  let x := N.land (N.lor x (w64 (N.shiftl x  3))) 0x1111111111111111 in
  N.lor x (N.shiftr x 31).
Definition deposit4 (coords : list N) : N :=
  let x := N.lor (nthN coords 0) (N.shiftl (nthN coords 1) 32) in
  let y := N.lor (nthN coords 2) (N.shiftl (nthN coords 3) 32) in
  w32 (N.lor (spread4 x) (w64 (N.shiftl (spread4 y) 2))).

(** BitManipulationGeneric.inl:203-209 Implementation<D>::deposit picks the specialisation *)
Definition deposit_generic (D : N) (coords : list N) : N :=
  if D =? 2 then deposit2 coords
  else if D =? 3 then deposit3 coords
  else if D =? 4 then deposit4 coords
  else deposit_default D coords.

(** The x86 instructions _pdep_u32/_pext_u32 (Intel SDM pseudo code): run over the 32 mask bits, [k] counts the mask bits seen. *)
Fixpoint pdep_loop (fuel : nat) (src mask m k : N) : N :=
  match fuel with
  | O => 0
  | S f => if N.testbit mask m
           then N.lor (N.shiftl (N.b2n (N.testbit src k)) m) (pdep_loop f src mask (m + 1) (k + 1))
           else pdep_loop f src mask (m + 1) k
  end.
Definition pdep_u32 (src mask : N) : N := pdep_loop 32 src mask 0 0.
Fixpoint pext_loop (fuel : nat) (src mask m k : N) : N :=
  match fuel with
  | O => 0
  | S f => if N.testbit mask m
           then N.lor (N.shiftl (N.b2n (N.testbit src m)) k) (pext_loop f src mask (m + 1) (k + 1))
           else pext_loop f src mask (m + 1) k
  end.
Definition pext_u32 (src mask : N) : N := pext_loop 32 src mask 0 0.

(** BitManipulationBMI2.inl:12-21 deposit *)
Definition deposit_bmi2 (D : N) (coords : list N) : N :=
  fold_left (fun result i => N.lor result (pdep_u32 (nthN coords i) (w32 (N.shiftl (kEveryDthBit D) (N.of_nat i)))))
    (seq 0 (N.to_nat D)) 0.
(** BitManipulationBMI2.inl:23-30 extract *)
Definition extract_bmi2 (D cell : N) : list N :=
  map (fun i => pext_u32 cell (w32 (N.shiftl (kEveryDthBit D) (N.of_nat i)))) (seq 0 (N.to_nat D)).

(** BitManipulation.h:25-33 the compile-time choice of implementation ([true] = USE_BMI2). *)
Definition deposit (bmi2 : bool) (D : N) (coords : list N) : N :=
  if bmi2 then deposit_bmi2 D coords else deposit_generic D coords.
Definition extract (bmi2 : bool) (D cell : N) : list N :=
  if bmi2 then extract_bmi2 D cell else extract_generic D cell.
