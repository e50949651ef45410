(** Model of gengirg's main from the generated weights to the written files, source/cli/gengirg/main.cpp:110-163 ("G:"), exact reals.
    Not modelled: the console output and the timers.  A file that cannot be opened makes the tool throw; here every file can be opened. *)
From Coq Require Import Arith NArith ZArith List Bool Reals String.
From Verif Require Import Base Coord_Model Tree_Model Girg_Model Sampling_Model Scaling_Model Cli_Model.
Import ListNotations.
Local Open Scope nat_scope.

(** how a run ends: an exception, undefined behaviour, or return 0.  In the last case: the weights of line 121, the positions of line 128, the factor of
    line 134, the edges of line 139 and the contents of the files (None = not written) *)
Inductive grun := Throws | Undefined | Finished (weights : list R) (positions : list (list R)) (scaling : R) (edges : list (nat * nat)) (txt dot : option string).

(** the double alpha as parameter of generateEdges; NaN and -inf do not get there *)
Definition edge_alpha (a : dbl) : option alphaT := match a with DInf true => Some AInf | DFin x => Some (AFin x) | _ => None end.
(** int node indices in the files *)
Definition index_pairs (es : list (nat * nat)) : list (Z * Z) := map (fun e => (Z.of_nat (fst e), Z.of_nat (snd e))) es.

(** G:143-161: the files *)
Definition write_files (c : gparams) (ws : list R) (ps : list (list R)) (s : R) (ws' : list R) (es : list (nat * nat)) : grun :=
  let txt := if g_edge c then Some (edge_file (g_n c) (index_pairs es)) else None in
  if g_dot c then match dot_file ws' ps (index_pairs es) with Some t => Finished ws ps s es txt (Some t) | None => Undefined end
  else Finished ws ps s es txt None.

(** G:110-163.  omp_set_num_threads(threads) (line 110) makes omp_get_max_threads() return threads in the library.
    ple and deg are finite here (NaN passes the range checks, see C51_nan_refuted; that case is left out: no run).
    n < 0: std::vector(n) throws; n = 0: *max_element of an empty vector (line 124). *)
Definition gengirg_main (cfg : config) (rg : rng) (c : gparams) (r : grun) : Prop :=
  match g_ple c, g_deg c with
  | DFin ple, DFin deg =>
    if (g_n c <? 0)%Z then r = Throws else
    if (g_n c =? 0)%Z then r = Undefined else
    let n := Z.to_nat (g_n c) in
    let threads := Z.to_nat (g_threads c) in
    exists tw ow, generateWeights ideal_env rg n ple (g_wseed c) (1 <? g_threads c)%Z threads tw ow /\ (* line 121 *)
    match ow with
    | None => r = Undefined
    | Some ws =>
      exists tp op, generatePositions rg n (Z.to_nat (g_d c)) (g_pseed c) true threads tp op /\ (* line 128; parallel defaults to true, Generator.h:42 *)
      match op with
      | None => r = Undefined
      | Some ps =>
        exists sr ws', scale_weights ws deg (Z.to_nat (g_d c)) (g_alpha c) sr ws' /\ (* line 134 *)
        match sr, edge_alpha (g_alpha c) with
        | Returned s, Some alpha =>
          exists te oe, 1 <= te <= threads /\ girg_outcome ideal_env cfg rg ws' ps alpha (g_sseed c) threads te oe /\ (* line 139 *)
          r = match oe with None => Undefined | Some es => write_files c ws ps s ws' es end
        | _, _ => r = Throws
        end
      end
    end
  | _, _ => False
  end.
