(** Model of the command line tools: source/cli/gengirg/main.cpp and source/cli/genhrg/main.cpp (argument handling and text files), and of
    saveDot, girgs/source/Generator.cpp:122-141.  Lines "G:" refer to gengirg/main.cpp, "H:" to genhrg/main.cpp. *)
From Coq Require Import Arith NArith ZArith List Bool Reals String Ascii DecimalString.
From Flocq Require Import Core.Generic_fmt.
From Verif Require Import Base Scaling_Model.
Import ListNotations.
Local Open Scope string_scope.

(** ** parseArgs, G:21-33 and H:20-32 (identical); the same function is in the example tools *)
(** std::map<string,string> as the list of its bindings; assignment replaces a binding, operator[] gives "" for a missing key *)
Definition params := list (string * string).
Fixpoint assign (m : params) (k v : string) : params :=
  match m with
  | [] => [(k, v)]
  | (k', v') :: r => if String.eqb k' k then (k, v) :: r else (k', v') :: assign r k v
  end.
Fixpoint get (m : params) (k : string) : string :=
  match m with [] => "" | (k', v') :: r => if String.eqb k' k then v' else get r k end.
(** argv[i][0] != '-'; the first character of an empty argument is the terminating NUL *)
Definition dashed (a : string) : option string :=
  match a with String c r => if Ascii.eqb c "-" then Some r else None | EmptyString => None end.
(** the loop from position i; [m] is the map so far.  argc is at least 1, [args] are argv[1..argc-1]. *)
Fixpoint parse_from (m : params) (args : list string) : params :=
  match args with
  | [] => m
  | a :: r =>
    match dashed a with
    | None => parse_from m r
    | Some k => match r with [] => assign m k "" | v :: r' => parse_from (assign m k v) r' end
    end
  end.
Definition parse_args (args : list string) : params := parse_from [] args.

(** ** std::stoi (C++ standard [string.conversions], strtol with base 10) *)
Definition is_space (c : ascii) : bool := let k := N_of_ascii c in ((k =? 32) || ((9 <=? k) && (k <=? 13)))%N.
Fixpoint skip_space (s : string) : string := match s with String c r => if is_space c then skip_space r else s | "" => "" end.
Definition digit (c : ascii) : option Z := let k := (Z.of_N (N_of_ascii c) - 48)%Z in if ((0 <=? k) && (k <=? 9))%Z then Some k else None.
Fixpoint read_digits (acc : Z) (s : string) : Z :=
  match s with String c r => match digit c with Some k => read_digits (10 * acc + k)%Z r | None => acc end | "" => acc end.
Definition read_number (s : string) : option Z :=
  match s with String c r => match digit c with Some k => Some (read_digits k r) | None => None end | "" => None end.
(** [None] = std::invalid_argument or std::out_of_range is thrown *)
Definition stoi (s : string) : option Z :=
  let s := skip_space s in
  do z <- (match s with
           | String c r => if Ascii.eqb c "-" then (do z <- read_number r; Some (- z)%Z) else if Ascii.eqb c "+" then read_number r else read_number s
           | "" => None
           end);
  if ((- 2 ^ 31 <=? z) && (z <? 2 ^ 31))%Z then Some z else None.
(** std::stod is a parameter of the model: None = exception *)
Definition stod_fun := string -> option dbl.

(** ** rangeCheck, G:42-49 and H:41-48; true = proceeds *)
Definition dlt (a b : dbl) : bool :=
  match a, b with
  | DNaN, _ | _, DNaN => false
  | DInf p, DInf q => negb p && q
  | DInf p, DFin _ => negb p
  | DFin _, DInf q => q
  | DFin x, DFin y => if Rlt_dec x y then true else false
  end.
Definition deq (a b : dbl) : bool :=
  match a, b with
  | DInf p, DInf q => Bool.eqb p q
  | DFin x, DFin y => if Req_EM_T x y then true else false
  | _, _ => false
  end.
Definition range_check {A} (lt eq : A -> A -> bool) (value min max : A) (lex hex : bool) : bool :=
  negb (lt value min || lt max value || (eq value min && lex) || (eq value max && hex)).
Definition range_d := range_check dlt deq.
Definition range_i := range_check Z.ltb Z.eqb.

(** ** the parameters *)
(** how main ends before generating anything, or the parameters it generates with *)
Inductive cli {C : Type} := Help | Version | Uncaught (key : string) | Rejected (key : string) | Run (c : C).
Arguments cli : clear implicits.
Record gparams := { g_n : Z; g_d : Z; g_ple : dbl; g_alpha : dbl; g_deg : dbl; g_wseed : Z; g_pseed : Z; g_sseed : Z; g_threads : Z; g_file : string; g_dot : bool; g_edge : bool }.
(** !params[k].empty() ? conv(params[k]) : default *)
Definition read_param {A} (m : params) (k : string) (conv : string -> option A) (dflt : A) : option A :=
  if String.eqb (get m k) "" then Some dflt else conv (get m k).
Definition orThrow {A C} (k : string) (o : option A) (f : A -> cli C) : cli C := match o with Some a => f a | None => Uncaught k end.
Definition orReject {C} (k : string) (b : bool) (c : cli C) : cli C := if b then c else Rejected k.
(** G:56, 74, H:55, 73: argc < 2 or the first argument asks for help / the version *)
Definition banner {C} (args : list string) (k : cli C) : cli C :=
  match args with
  | [] => Help
  | a :: _ => if String.eqb a "--help" || String.eqb a "-help" then Help else if String.eqb a "--version" then Version else k
  end.
(** G:84-97: reading.  n - 1.0 is exact in double arithmetic for an int n *)
Definition gread (stod : stod_fun) (args : list string) : cli gparams :=
  let m := parse_args args in
  orThrow "n" (read_param m "n" stoi 10000%Z) (fun n =>
  orThrow "d" (read_param m "d" stoi 1%Z) (fun d =>
  orThrow "ple" (read_param m "ple" stod (DFin (5 / 2))) (fun ple =>
  orThrow "alpha" (read_param m "alpha" stod (DInf true)) (fun alpha =>
  orThrow "deg" (read_param m "deg" stod (DFin 10)) (fun deg =>
  orThrow "wseed" (read_param m "wseed" stoi 12%Z) (fun wseed =>
  orThrow "pseed" (read_param m "pseed" stoi 130%Z) (fun pseed =>
  orThrow "sseed" (read_param m "sseed" stoi 1400%Z) (fun sseed =>
  orThrow "threads" (read_param m "threads" stoi 1%Z) (fun threads =>
  Run {| g_n := n; g_d := d; g_ple := ple; g_alpha := alpha; g_deg := deg; g_wseed := wseed; g_pseed := pseed; g_sseed := sseed; g_threads := threads;
         g_file := (if String.eqb (get m "file") "" then "graph" else get m "file");
         g_dot := String.eqb (get m "dot") "1"; g_edge := String.eqb (get m "edge") "1" |}))))))))).
(** G:99-114: the checks, in order; omp_max is omp_get_max_threads() at line 109 *)
Definition gcheck (omp_max : Z) (c : gparams) : cli gparams :=
  orReject "d" (range_i (g_d c) 1%Z 5%Z false false) (
  orReject "ple" (range_d (g_ple c) (DFin 2) (DFin 3) true false) (
  orReject "alpha" (range_d (g_alpha c) (DFin 1) (DInf true) true false) (
  orReject "deg" (range_d (g_deg c) (DFin 1) (DFin (IZR (g_n c) - 1)) false false) (
  orReject "threads" (range_i (g_threads c) 1%Z omp_max false false) (Run c))))).
Definition bindcli {A B} (x : cli A) (f : A -> cli B) : cli B :=
  match x with Help => Help | Version => Version | Uncaught k => Uncaught k | Rejected k => Rejected k | Run a => f a end.
(** G:53-114 *)
Definition gengirg (stod : stod_fun) (omp_max : Z) (args : list string) : cli gparams := banner args (bindcli (gread stod args) (gcheck omp_max)).

Record hparams := { h_n : Z; h_alpha : dbl; h_T : dbl; h_deg : dbl; h_rseed : Z; h_aseed : Z; h_sseed : Z; h_threads : Z; h_nkr : bool; h_file : string; h_edge : bool; h_coord : bool }.
(** H:83-96 *)
Definition hread (stod : stod_fun) (args : list string) : cli hparams :=
  let m := parse_args args in
  orThrow "n" (read_param m "n" stoi 10000%Z) (fun n =>
  orThrow "alpha" (read_param m "alpha" stod (DFin (3 / 4))) (fun alpha =>
  orThrow "t" (read_param m "t" stod (DFin 0)) (fun T =>
  orThrow "deg" (read_param m "deg" stod (DFin 10)) (fun deg =>
  orThrow "rseed" (read_param m "rseed" stoi 12%Z) (fun rseed =>
  orThrow "aseed" (read_param m "aseed" stoi 130%Z) (fun aseed =>
  orThrow "sseed" (read_param m "sseed" stoi 1400%Z) (fun sseed =>
  orThrow "threads" (read_param m "threads" stoi 1%Z) (fun threads =>
  Run {| h_n := n; h_alpha := alpha; h_T := T; h_deg := deg; h_rseed := rseed; h_aseed := aseed; h_sseed := sseed; h_threads := threads;
         h_nkr := String.eqb (get m "nkr") "1"; h_file := (if String.eqb (get m "file") "" then "graph" else get m "file");
         h_edge := String.eqb (get m "edge") "1"; h_coord := String.eqb (get m "coord") "1" |})))))))).
(** H:98-112 *)
Definition hcheck (omp_max : Z) (c : hparams) : cli hparams :=
  orReject "alpha" (range_d (h_alpha c) (DFin (1 / 2)) (DFin 1) false false) (
  orReject "t" (range_d (h_T c) (DFin 0) (DFin 1) false true) (
  orReject "deg" (range_d (h_deg c) (DFin 1) (DFin (IZR (h_n c) - 1)) false false) (
  orReject "threads" (range_i (h_threads c) 1%Z omp_max false false) (Run c)))).
Definition genhrg (stod : stod_fun) (omp_max : Z) (args : list string) : cli hparams := banner args (bindcli (hread stod args) (hcheck omp_max)).

(** ** text output *)
Definition nl : string := String "010" "".
Definition tab : string := String "009" "".
Definition quote : string := String """" "".
(** operator<< for integers *)
Definition show_N (n : N) : string := NilZero.string_of_uint (N.to_uint n).
Definition show_Z (z : Z) : string := if (z <? 0)%Z then "-" ++ show_N (Z.abs_N z) else show_N (Z.to_N z).
Definition cat (l : list string) : string := fold_right append "" l.
(** G:156-158, H:142-144: the edge list file *)
Definition edge_file (n : Z) (edges : list (Z * Z)) : string :=
  show_Z n ++ " " ++ show_N (N.of_nat (List.length edges)) ++ nl ++ nl ++ cat (map (fun e => show_Z (fst e) ++ " " ++ show_Z (snd e) ++ nl) edges).
(** operator<< for a finite double with std::fixed and std::setprecision(p): the exact value rounded to p decimals, ties to even (glibc) *)
Definition round_even (x : R) : Z := Znearest (fun k => negb (Z.even k)) x.
Fixpoint pad_left (k : nat) (s : string) : string := match k with O => s | S k' => "0" ++ pad_left k' s end.
(** a number 0 <= k < 10^p with exactly p digits *)
Definition show_frac (p : nat) (k : N) : string := if (p =? 0)%nat then "" else let s := show_N k in "." ++ pad_left (p - String.length s) s.
Definition show_fixed (p : nat) (x : R) : string :=
  let m := Z.to_N (round_even (Rabs x * 10 ^ p)) in
  (if Rlt_dec x 0 then "-" else "") ++ show_N (m / 10 ^ N.of_nat p) ++ show_frac p (m mod 10 ^ N.of_nat p).
(** H:154-156: the coordinates file; max_digits10 = 17.  Reading radii[i] or angles[i] beyond the vector is undefined *)
Definition hyp_file (n : nat) (radii angles : list R) : option string :=
  if ((n <=? List.length radii) && (n <=? List.length angles))%nat then
    Some (cat (map (fun ra => show_fixed 17 (fst ra) ++ " " ++ show_fixed 17 (snd ra) ++ nl) (combine (firstn n radii) (firstn n angles))))
  else None.

(** ** saveDot, Generator.cpp:122-141 *)
Definition commas (l : list string) : string :=
  match l with [] => "" | x :: r => x ++ cat (map (fun y => "," ++ y) r) end.
Definition dot_node (i : nat) (w : R) (p : list R) : string :=
  tab ++ show_N (N.of_nat i) ++ " [label=" ++ quote ++ show_fixed 2 w ++ quote ++ ", pos=" ++ quote ++ commas (map (show_fixed 6) p) ++ quote ++ "];" ++ nl.
Definition dot_edge (e : Z * Z) : string := tab ++ show_Z (fst e) ++ tab ++ "-- " ++ show_Z (snd e) ++ ";" ++ nl.
Fixpoint dot_nodes (i : nat) (ws : list R) (ps : list (list R)) : option string :=
  match ws, ps with
  | [], _ => Some ""
  | _ :: _, [] => None (* positions[i] out of range *)
  | w :: ws', p :: ps' => do r <- dot_nodes (S i) ws' ps'; Some (dot_node i w p ++ r)
  end.
Definition dot_file (ws : list R) (ps : list (list R)) (edges : list (Z * Z)) : option string :=
  do ns <- dot_nodes 0 ws ps;
  Some ("graph girg {" ++ nl ++ tab ++ "overlap=scale;" ++ nl ++ nl ++ ns ++ nl ++ cat (map dot_edge edges) ++ "}" ++ nl).
