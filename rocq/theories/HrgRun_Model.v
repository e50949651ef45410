(** Model of genhrg's main from the estimated radius to the written files, source/cli/genhrg/main.cpp:115-161 ("H:"), exact reals.
    Not modelled: the console output and the timers.  A file that cannot be opened makes the tool throw; here every file can be opened. *)
From Coq Require Import Arith NArith ZArith List Bool Reals String.
From Verif Require Import Base Tree_Model Scaling_Model Hyp_Model HypIn_Model Cli_Model Run_Model.
Import ListNotations.
Local Open Scope nat_scope.

(** how a run ends: undefined behaviour or return 0.  In the last case: R of line 116, the radii of line 123, the angles of line 128, the edges of line 133
    and the contents of the files (None = not written).  A run that does not end has no result. *)
Inductive hrun := HUndefined | HFinished (Rd : R) (radii angles : list R) (edges : list (nat * nat)) (txt hyp : option string).

(** H:116-118: the radius; None = it is not a finite number *)
Definition estimate (c : hparams) (alpha T deg : R) (r : option R) : Prop :=
  if h_nkr c then networkit_radius (Z.to_nat (h_n c)) alpha T deg r else r = calculateRadius (Z.to_nat (h_n c)) alpha T deg.
(** H:137-159: the files *)
Definition write_hrg (c : hparams) (Rd : R) (radii angles : list R) (es : list (nat * nat)) : hrun :=
  let txt := if h_edge c then Some (edge_file (h_n c) (index_pairs es)) else None in
  if h_coord c then match hyp_file (Z.to_nat (h_n c)) radii angles with Some t => HFinished Rd radii angles es txt (Some t) | None => HUndefined end
  else HFinished Rd radii angles es txt None.
(** H:108-161.  omp_set_num_threads(threads) (line 108) makes omp_get_max_threads() return threads in the library.
    alpha, T and deg are finite here (NaN passes the range checks, see C51_nan_refuted; that case is left out: no run), so n >= 2.
    R that is not finite: uniform_real_distribution(1, cosh(alpha * R)) (Generator.cpp:94) violates its precondition b - a <= max. *)
Definition genhrg_main (nd : bool) (part : list (N * N) -> list (N * N)) (hg : hrng) (raw0 : G (hb hg) -> G (hb hg)) (c : hparams) (r : hrun) : Prop :=
  match h_alpha c, h_T c, h_deg c with
  | DFin alpha, DFin T, DFin deg =>
    let en := {| he := hb hg; raw := raw0 |} in
    let n := Z.to_nat (h_n c) in
    let threads := Z.to_nat (h_threads c) in
    exists er, estimate c alpha T deg er /\
    match er with
    | None => r = HUndefined
    | Some Rd =>
      exists tr orad, sampleRadii en n alpha Rd (h_rseed c) (1 <? h_threads c)%Z threads tr orad /\ (* line 123 *)
      match orad with
      | None => r = HUndefined
      | Some radii =>
        exists ta oang, sampleAngles en n (h_aseed c) (1 <? h_threads c)%Z threads ta oang /\ (* line 128 *)
        match oang with
        | None => r = HUndefined
        | Some angles =>
          exists te oe, 1 <= te <= threads /\ hrg_outcome nd part hg radii angles T Rd (h_sseed c) threads te oe /\ (* line 133 *)
          r = match oe with None => HUndefined | Some es => write_hrg c Rd radii angles es end
        end
      end
    end
  | _, _, _ => False
  end.
