(** Properties C50-C53 and C59: the command line tools' arguments and files. *)
From Coq Require Import Arith NArith ZArith List Bool Reals String Ascii Lia Lra.
From Flocq Require Import Core.Raux Core.Generic_fmt.
From Verif Require Import Base Scaling_Model Cli_Model Cli_Proofs.
Import ListNotations.
Local Open Scope string_scope.

(** ** C50 *)
(** an argument list made of pairs "-key" "value", with ignored words (not beginning with '-') before, between and after the pairs *)
Definition ignored (w : string) : Prop := forall r, w <> "-" ++ r.
Inductive written : list string -> list (string * string) -> Prop :=
| wr_end : written [] []
| wr_last : forall k, written ["-" ++ k] [(k, "")] (* a key at the very end has no value: as if it were empty *)
| wr_ignored : forall w args ps, ignored w -> written args ps -> written (w :: args) ps
| wr_pair : forall k v args ps, written args ps -> written (("-" ++ k) :: v :: args) ((k, v) :: ps).
(** the value that counts for a key: that of its last occurrence, "" if there is none *)
Definition effective (ps : list (string * string)) (k v : string) : Prop :=
  (exists before after, ps = (before ++ (k, v) :: after)%list /\ ~ In k (map fst after)) \/ (~ In k (map fst ps) /\ v = "").
Lemma effective_exists ps k : exists v, effective ps k v.
Proof.
  induction ps as [|[k' v'] ps [v IH]].
  - exists "". right. split; [intros []|reflexivity].
  - destruct IH as [(a & b & -> & N)|[N ->]].
    + exists v. left. exists ((k', v') :: a), b. split; [reflexivity|exact N].
    + destruct (string_dec k' k) as [->|D].
      * exists v'. left. exists [], ps. split; [reflexivity|exact N].
      * exists "". right. split; [|reflexivity]. intros [E|H]; [now apply D|now apply N].
Qed.
Lemma get_assign m k v k' : get (assign m k v) k' = if String.eqb k k' then v else get m k'.
Proof.
  induction m as [|[a b] m IH]; cbn.
  - destruct (String.eqb k k'); reflexivity.
  - destruct (String.eqb a k) eqn:E; cbn.
    + apply String.eqb_eq in E as ->. destruct (String.eqb k k'); reflexivity.
    + destruct (String.eqb a k') eqn:E2; [|exact IH]. apply String.eqb_eq in E2 as ->. destruct (String.eqb k k') eqn:E3; [|reflexivity]. apply String.eqb_eq in E3 as ->. rewrite String.eqb_refl in E. discriminate.
Qed.
Lemma dashed_dash k : dashed ("-" ++ k) = Some k.
Proof. reflexivity. Qed.
Lemma dashed_ignored w : ignored w -> dashed w = None.
Proof.
  intros H. destruct w as [|c r]; [reflexivity|]. cbn [dashed]. destruct (Ascii.eqb c "-") eqn:E; [|reflexivity]. apply Ascii.eqb_eq in E as ->. exfalso. now apply (H r).
Qed.
Lemma parse_written args ps : written args ps -> forall m k,
  (forall v, (exists a b, ps = (a ++ (k, v) :: b)%list /\ ~ In k (map fst b)) -> get (parse_from m args) k = v) /\
  (~ In k (map fst ps) -> get (parse_from m args) k = get m k).
Proof.
  induction 1 as [|k0|w args ps Hw _ IH|k0 v0 args ps _ IH]; intros m k.
  - split; [intros v (a & b & E & _); destruct a; discriminate|reflexivity].
  - cbn [parse_from]. rewrite dashed_dash, get_assign. split.
    + intros v (a & b & E & N). destruct a as [|x a]; [injection E as <- <- <-; now rewrite String.eqb_refl|destruct a; discriminate].
    + cbn. intros N. destruct (String.eqb k0 k) eqn:E; [|reflexivity]. apply String.eqb_eq in E. exfalso. apply N. now left.
  - cbn [parse_from]. rewrite (dashed_ignored w Hw). apply IH.
  - cbn [parse_from]. rewrite dashed_dash. destruct (IH (assign m k0 v0) k) as [I1 I2]. split.
    + intros v (a & b & E & N). destruct a as [|x a]; cbn in E.
      * injection E as -> -> ->. rewrite (I2 N), get_assign, String.eqb_refl. reflexivity.
      * injection E as _ E. apply I1. eauto.
    + cbn. intros N. rewrite I2 by tauto. rewrite get_assign. destruct (String.eqb k0 k) eqn:E; [|reflexivity]. apply String.eqb_eq in E. exfalso. apply N. now left.
Qed.
Theorem C50_last_occurrence : forall args ps, written args ps -> forall k v, effective ps k v -> get (parse_args args) k = v.
Proof.
  intros args ps H k v [E|[N ->]]; destruct (parse_written args ps H [] k) as [P1 P2]; [now apply P1|]. unfold parse_args. rewrite P2 by exact N. reflexivity.
Qed.
(** a number argument: the default if the key is missing (or its value empty), else the converted value *)
Definition chosen {A} (ps : list (string * string)) (k : string) (conv : string -> option A) (dflt x : A) : Prop :=
  exists v, effective ps k v /\ ((v = "" /\ x = dflt) \/ (v <> "" /\ conv v = Some x)).
Definition chosen_flag (ps : list (string * string)) (k : string) (x : bool) : Prop := exists v, effective ps k v /\ (x = true <-> v = "1").
Definition no_banner (args : list string) : Prop := match args with a :: _ => a <> "--help" /\ a <> "-help" /\ a <> "--version" | [] => False end.
Lemma banner_none {C} args (k : cli C) : no_banner args -> banner args k = k.
Proof.
  destruct args as [|a r]; [intros []|]. intros (A & B & D). unfold banner. rewrite (proj2 (String.eqb_neq _ _) A), (proj2 (String.eqb_neq _ _) B), (proj2 (String.eqb_neq _ _) D). reflexivity.
Qed.
Lemma read_chosen {A} args ps k conv (dflt x : A) : written args ps -> (read_param (parse_args args) k conv dflt = Some x <-> chosen ps k conv dflt x).
Proof.
  intros H. destruct (effective_exists ps k) as (v & Hv). pose proof (C50_last_occurrence args ps H k v Hv) as E. unfold read_param, chosen. rewrite E. split.
  - intros R. exists v. split; [exact Hv|]. destruct (String.eqb v "") eqn:Q; [apply String.eqb_eq in Q; injection R as ->; now left|right; now split; [apply String.eqb_neq|]].
  - intros (v' & Hv' & R). pose proof (C50_last_occurrence args ps H k v' Hv') as E'. rewrite E in E'. subst v'. destruct R as [[-> ->]|[N R]]; [reflexivity|]. now rewrite (proj2 (String.eqb_neq _ _) N).
Qed.
Lemma flag_chosen args ps k : written args ps -> chosen_flag ps k (String.eqb (get (parse_args args) k) "1").
Proof. intros H. destruct (effective_exists ps k) as (v & Hv). exists v. split; [exact Hv|]. rewrite (C50_last_occurrence args ps H k v Hv). apply String.eqb_eq. Qed.
Lemma file_chosen args ps k : written args ps -> chosen ps k (fun s => Some s) "graph" (if String.eqb (get (parse_args args) k) "" then "graph" else get (parse_args args) k).
Proof.
  intros H. destruct (effective_exists ps k) as (v & Hv). exists v. split; [exact Hv|]. rewrite (C50_last_occurrence args ps H k v Hv).
  destruct (String.eqb v "") eqn:Q; [apply String.eqb_eq in Q; now left|right; now split; [apply String.eqb_neq|]].
Qed.
Lemma bind_run {A B} (x : cli A) (f : A -> cli B) c : bindcli x f = Run c -> exists a, x = Run a /\ f a = Run c.
Proof. destruct x; cbn; try discriminate. eauto. Qed.
Lemma throw_run {A C} k (o : option A) (f : A -> cli C) c : orThrow k o f = Run c -> exists a, o = Some a /\ f a = Run c.
Proof. destruct o; cbn; [eauto|discriminate]. Qed.
Lemma reject_run {C} k b (x : cli C) c : orReject k b x = Run c <-> b = true /\ x = Run c.
Proof. destruct b; cbn; split; try tauto; intros H; try discriminate; now destruct H. Qed.
Lemma gcheck_run omp c c' : gcheck omp c = Run c' -> c' = c.
Proof. unfold gcheck. rewrite !reject_run. intros (_ & _ & _ & _ & _ & E). now injection E. Qed.
Lemma hcheck_run omp c c' : hcheck omp c = Run c' -> c' = c.
Proof. unfold hcheck. rewrite !reject_run. intros (_ & _ & _ & _ & E). now injection E. Qed.
(** gengirg generates with exactly the parameters given last *)
Theorem C50_gengirg : forall stod omp_max args ps c, written args ps -> no_banner args -> gengirg stod omp_max args = Run c ->
  chosen ps "n" stoi 10000%Z (g_n c) /\ chosen ps "d" stoi 1%Z (g_d c) /\ chosen ps "ple" stod (DFin (5 / 2)) (g_ple c) /\
  chosen ps "alpha" stod (DInf true) (g_alpha c) /\ chosen ps "deg" stod (DFin 10) (g_deg c) /\ chosen ps "wseed" stoi 12%Z (g_wseed c) /\
  chosen ps "pseed" stoi 130%Z (g_pseed c) /\ chosen ps "sseed" stoi 1400%Z (g_sseed c) /\ chosen ps "threads" stoi 1%Z (g_threads c) /\
  chosen ps "file" (fun s => Some s) "graph" (g_file c) /\ chosen_flag ps "dot" (g_dot c) /\ chosen_flag ps "edge" (g_edge c).
Proof.
  intros stod omp_max args ps c HW HB H. unfold gengirg in H. rewrite banner_none in H by exact HB. apply bind_run in H as (c' & H & E). apply gcheck_run in E as ->.
  unfold gread in H. cbv zeta in H. repeat (apply throw_run in H as (? & ?E & H)).
  repeat match goal with X : read_param _ _ _ _ = Some _ |- _ => apply (read_chosen _ _ _ _ _ _ HW) in X end. injection H as <-. cbn [g_n g_d g_ple g_alpha g_deg g_wseed g_pseed g_sseed g_threads g_file g_dot g_edge].
  repeat (split; [assumption|]). split; [now apply file_chosen|]. split; now apply flag_chosen.
Qed.
Theorem C50_genhrg : forall stod omp_max args ps c, written args ps -> no_banner args -> genhrg stod omp_max args = Run c ->
  chosen ps "n" stoi 10000%Z (h_n c) /\ chosen ps "alpha" stod (DFin (3 / 4)) (h_alpha c) /\ chosen ps "t" stod (DFin 0) (h_T c) /\
  chosen ps "deg" stod (DFin 10) (h_deg c) /\ chosen ps "rseed" stoi 12%Z (h_rseed c) /\ chosen ps "aseed" stoi 130%Z (h_aseed c) /\
  chosen ps "sseed" stoi 1400%Z (h_sseed c) /\ chosen ps "threads" stoi 1%Z (h_threads c) /\ chosen_flag ps "nkr" (h_nkr c) /\
  chosen ps "file" (fun s => Some s) "graph" (h_file c) /\ chosen_flag ps "edge" (h_edge c) /\ chosen_flag ps "coord" (h_coord c).
Proof.
  intros stod omp_max args ps c HW HB H. unfold genhrg in H. rewrite banner_none in H by exact HB. apply bind_run in H as (c' & H & E). apply hcheck_run in E as ->.
  unfold hread in H. cbv zeta in H. repeat (apply throw_run in H as (? & ?E & H)).
  repeat match goal with X : read_param _ _ _ _ = Some _ |- _ => apply (read_chosen _ _ _ _ _ _ HW) in X end. injection H as <-. cbn [h_n h_alpha h_T h_deg h_rseed h_aseed h_sseed h_threads h_nkr h_file h_edge h_coord].
  repeat (split; [assumption|]). split; [now apply flag_chosen|]. split; [now apply file_chosen|]. split; now apply flag_chosen.
Qed.
(** numbers are read as written: every int in decimal, with leading blanks, an optional sign, and anything but a digit behind *)
Lemma skip_spaces b s : allb is_space b = true -> starts (fun c => negb (is_space c)) s = true -> skip_space (b ++ s) = s.
Proof.
  intros Hb Hs. induction b as [|c b IH]; cbn.
  - destruct s as [|c s]; [reflexivity|]. cbn in Hs |- *. now destruct (is_space c).
  - cbn in Hb. apply andb_true_iff in Hb as [A B]. rewrite A. auto.
Qed.
Theorem C50_stoi : forall blanks z rest, allb is_space blanks = true -> starts (fun c => negb (is_digit c)) rest = true ->
  stoi (blanks ++ show_Z z ++ rest) = if ((- 2 ^ 31 <=? z) && (z <? 2 ^ 31))%Z then Some z else None.
Proof.
  intros b z rest Hb Hr. unfold stoi. cbv zeta.
  assert (D : forall n c s, show_N n = String c s -> is_digit c = true).
  { intros n c s E. pose proof (show_N_digits n) as A. rewrite E in A. cbn in A. apply andb_true_iff in A. tauto. }
  assert (RN : forall n, read_number (show_N n ++ rest) = Some (Z.of_N n)).
  { intros n. rewrite read_number_digits; [now rewrite read_show_0|apply show_N_ne|apply show_N_digits|exact Hr]. }
  rewrite skip_spaces; [|exact Hb|].
  2:{ unfold show_Z. destruct (z <? 0)%Z; [reflexivity|]. pose proof (show_N_ne (Z.to_N z)) as NE. destruct (show_N (Z.to_N z)) as [|c s] eqn:E; [congruence|]. cbn. apply D in E. apply digit_not_special in E as (_ & _ & -> & _). reflexivity. }
  unfold show_Z. destruct (z <? 0)%Z eqn:N.
  - apply Z.ltb_lt in N. rewrite app_assoc_s. change ("-" ++ show_N (Z.abs_N z) ++ rest) with (String "-" (show_N (Z.abs_N z) ++ rest)). change (Ascii.eqb "-" "-") with true. cbv iota. rewrite RN. cbn [obind].
    replace (- Z.of_N (Z.abs_N z))%Z with z by lia. reflexivity.
  - apply Z.ltb_ge in N. pose proof (show_N_ne (Z.to_N z)) as NE. pose proof (RN (Z.to_N z)) as RZ. destruct (show_N (Z.to_N z)) as [|c s] eqn:E; [congruence|]. cbn [append] in *. apply D in E. apply digit_not_special in E as (E1 & E2 & _ & _).
    rewrite E1, E2, RZ. cbn [obind]. rewrite Z2N.id by exact N. reflexivity.
Qed.
(** a value that begins with '-' is still taken as the value: "-file -n 5" names the file "-n" and leaves n at its default *)
Theorem C50_dash_is_value : forall stod omp_max c, gengirg stod omp_max ["-file"; "-n"; "5"] = Run c -> g_file c = "-n" /\ g_n c = 10000%Z.
Proof.
  intros stod omp_max c H. unfold gengirg in H. rewrite banner_none in H by (cbn; repeat split; discriminate). apply bind_run in H as (c' & H & E). apply gcheck_run in E as ->.
  vm_compute in H. injection H as <-. split; reflexivity.
Qed.
Example ex_C50 : written ["x"; "-n"; "12"; "-deg"; "3"; "y"; "-n"; "20"] [("n", "12"); ("deg", "3"); ("n", "20")] /\
  effective [("n", "12"); ("deg", "3"); ("n", "20")] "n" "20" /\ stoi "20" = Some 20%Z.
Proof.
  split; [|split].
  - apply wr_ignored; [intros r; discriminate|]. apply (wr_pair "n" "12"). apply (wr_pair "deg" "3"). apply wr_ignored; [intros r; discriminate|]. apply (wr_pair "n" "20"). constructor.
  - left. exists [("n", "12"); ("deg", "3")], []. split; [reflexivity|intros []].
  - reflexivity.
Qed.

(** ** C51 *)
Local Open Scope R_scope.
(** a double lies in the interval, or is not a number *)
Definition within (x : dbl) (P : R -> Prop) (inf_ok : bool) : Prop := match x with DNaN => True | DFin r => P r | DInf b => b = true /\ inf_ok = true end.
Definition is_nan (x : dbl) : Prop := x = DNaN.
Lemma range_d_spec x lo hi lex hex : range_d x (DFin lo) (DFin hi) lex hex = true <->
  within x (fun r => (if lex then lo < r else lo <= r) /\ (if hex then r < hi else r <= hi)) false.
Proof.
  unfold range_d, range_check. destruct x as [|[]|r]; cbn.
  - tauto.
  - split; [discriminate|]. intros [_ H]. discriminate.
  - split; [discriminate|]. intros [H _]. discriminate.
  - destruct (Rlt_dec r lo), (Rlt_dec hi r), (Req_EM_T r lo), (Req_EM_T r hi), lex, hex; cbn; split; intros H; try discriminate; try reflexivity; try lra; exfalso; lra.
Qed.
Lemma range_alpha x : range_d x (DFin 1) (DInf true) true false = true <-> within x (fun r => 1 < r) true.
Proof.
  unfold range_d, range_check. destruct x as [|[]|r]; cbn; try (split; [discriminate|intros [? _]; discriminate]); try tauto.
  destruct (Rlt_dec r 1), (Req_EM_T r 1); cbn; split; intros H; try discriminate; try reflexivity; try lra; exfalso; lra.
Qed.
Lemma range_i_spec x lo hi : range_i x lo hi false false = true <-> (lo <= x <= hi)%Z.
Proof.
  unfold range_i, range_check. rewrite !andb_false_r, !orb_false_r, negb_true_iff, orb_false_iff, !Z.ltb_ge. reflexivity.
Qed.
(** what gengirg checks, from its usage text *)
Definition girg_ranges (omp_max : Z) (c : gparams) : Prop :=
  (1 <= g_d c <= 5)%Z /\ within (g_ple c) (fun x => 2 < x <= 3) false /\ within (g_alpha c) (fun x => 1 < x) true /\
  within (g_deg c) (fun x => 1 <= x <= IZR (g_n c) - 1) false /\ (1 <= g_threads c <= omp_max)%Z.
Definition hrg_ranges (omp_max : Z) (c : hparams) : Prop :=
  within (h_alpha c) (fun x => 1 / 2 <= x <= 1) false /\ within (h_T c) (fun x => 0 <= x < 1) false /\
  within (h_deg c) (fun x => 1 <= x <= IZR (h_n c) - 1) false /\ (1 <= h_threads c <= omp_max)%Z.
(** generation is reached exactly with parameters in range *)
Theorem C51_gengirg : forall omp_max c, (exists c', gcheck omp_max c = Run c') <-> girg_ranges omp_max c.
Proof.
  intros omp_max c. unfold girg_ranges. transitivity (gcheck omp_max c = Run c).
  - split; [intros (c' & H); now rewrite <- (gcheck_run _ _ _ H) at 2|eauto].
  - unfold gcheck. rewrite !reject_run, !range_i_spec, !range_d_spec, range_alpha. intuition.
Qed.
Theorem C51_genhrg : forall omp_max c, (exists c', hcheck omp_max c = Run c') <-> hrg_ranges omp_max c.
Proof.
  intros omp_max c. unfold hrg_ranges. transitivity (hcheck omp_max c = Run c).
  - split; [intros (c' & H); now rewrite <- (hcheck_run _ _ _ H) at 2|eauto].
  - unfold hcheck. rewrite !reject_run, !range_i_spec, !range_d_spec. intuition.
Qed.
(** the whole start of the tools: whatever the arguments, generation is only reached with parameters in range, and unless deg is NaN with n >= 2 *)
Theorem C51_only_in_range : forall stod omp_max args,
  (forall c, gengirg stod omp_max args = Run c -> girg_ranges omp_max c /\ (is_nan (g_deg c) \/ (2 <= g_n c)%Z)) /\
  (forall c, genhrg stod omp_max args = Run c -> hrg_ranges omp_max c /\ (is_nan (h_deg c) \/ (2 <= h_n c)%Z)).
Proof.
  assert (N2 : forall d n, within d (fun x => 1 <= x <= IZR n - 1) false -> is_nan d \/ (2 <= n)%Z).
  { intros [|b|r] n H; [now left|destruct H; discriminate|]. right. cbn in H. apply le_IZR. lra. }
  intros stod omp_max args. split; intros c H.
  - unfold gengirg, banner in H. destruct args as [|a r]; [discriminate|]. destruct (_ || _)%bool; [discriminate|]. destruct (String.eqb _ _); [discriminate|].
    apply bind_run in H as (c' & _ & H). pose proof (gcheck_run _ _ _ H) as <-. assert (G : girg_ranges omp_max c) by (apply C51_gengirg; eauto). split; [exact G|]. apply N2, G.
  - unfold genhrg, banner in H. destruct args as [|a r]; [discriminate|]. destruct (_ || _)%bool; [discriminate|]. destruct (String.eqb _ _); [discriminate|].
    apply bind_run in H as (c' & _ & H). pose proof (hcheck_run _ _ _ H) as <-. assert (G : hrg_ranges omp_max c) by (apply C51_genhrg; eauto). split; [exact G|]. apply N2, G.
Qed.
(** "nan" slips through every check: even n = -5 reaches generation *)
Theorem C51_nan_refuted : forall stod omp_max, stod "nan" = Some DNaN -> (1 <= omp_max)%Z ->
  exists c, gengirg stod omp_max ["-n"; "-5"; "-deg"; "nan"; "-alpha"; "nan"; "-ple"; "nan"] = Run c /\ g_n c = (-5)%Z /\ g_deg c = DNaN /\ g_alpha c = DNaN /\ g_ple c = DNaN.
Proof.
  intros stod omp_max HN HO. unfold gengirg. rewrite banner_none by (cbn; repeat split; discriminate).
  set (args := ["-n"; "-5"; "-deg"; "nan"; "-alpha"; "nan"; "-ple"; "nan"]).
  assert (E : gread stod args = Run {| g_n := -5; g_d := 1; g_ple := DNaN; g_alpha := DNaN; g_deg := DNaN; g_wseed := 12; g_pseed := 130; g_sseed := 1400; g_threads := 1; g_file := "graph"; g_dot := false; g_edge := false |}).
  { unfold gread. cbv zeta. assert (P : parse_args args = [("n", "-5"); ("deg", "nan"); ("alpha", "nan"); ("ple", "nan")]) by reflexivity. rewrite P. unfold read_param.
    cbn [get String.eqb Ascii.eqb Bool.eqb]. rewrite HN. reflexivity. }
  rewrite E. cbn [bindcli]. eexists. split; [|repeat split].
  - unfold gcheck. apply reject_run. split; [reflexivity|]. apply reject_run. split; [reflexivity|]. apply reject_run. split; [reflexivity|]. apply reject_run. split; [reflexivity|]. apply reject_run.
    split; [apply range_i_spec; cbn; lia|reflexivity].
  - reflexivity.
  - reflexivity.
  - reflexivity.
  - reflexivity.
Qed.
Example ex_C51 : exists c, girg_ranges 4 c /\ g_n c = 20%Z.
Proof.
  exists {| g_n := 20; g_d := 2; g_ple := DFin (5 / 2); g_alpha := DInf true; g_deg := DFin 3; g_wseed := 1; g_pseed := 2; g_sseed := 3; g_threads := 2; g_file := "g"; g_dot := false; g_edge := true |}.
  unfold girg_ranges. cbn. repeat split; try lia; try lra.
Qed.

(** ** C52 *)
Local Open Scope string_scope.
(** reading a text as a whitespace separated list of integers *)
Definition read_int (w : string) : option Z := match w with String c r => if Ascii.eqb c "-" then (do z <- read_number r; Some (- z)%Z) else read_number w | "" => None end.
Fixpoint all_some {A} (l : list (option A)) : option (list A) := match l with [] => Some [] | x :: r => do a <- x; do b <- all_some r; Some (a :: b) end.
Fixpoint pairs (l : list Z) : option (list (Z * Z)) := match l with [] => Some [] | [_] => None | a :: b :: r => do p <- pairs r; Some ((a, b) :: p) end.
(** the reader: node count, edge count, then that many pairs *)
Definition read_edge_file (text : string) : option (Z * list (Z * Z)) :=
  do l <- all_some (map read_int (tokens is_space text));
  match l with n :: m :: r => do ps <- pairs r; if (m =? Z.of_nat (List.length ps))%Z then Some (n, ps) else None | _ => None end.
Lemma digit_no_space s : allb is_digit s = true -> allb (fun c => negb (is_space c)) s = true.
Proof. apply allb_imp. intros c H. apply digit_not_special in H as (_ & _ & -> & _). reflexivity. Qed.
Lemma show_Z_word z : show_Z z <> "" /\ allb (fun c => negb (is_space c)) (show_Z z) = true /\ read_int (show_Z z) = Some z.
Proof.
  unfold show_Z. destruct (z <? 0)%Z eqn:E.
  - apply Z.ltb_lt in E. split; [discriminate|]. split; [cbn; apply digit_no_space, show_N_digits|]. cbn [append read_int]. change (Ascii.eqb "-" "-") with true. cbv iota.
    rewrite <- (app_nil_s (show_N _)), read_number_digits; [|apply show_N_ne|apply show_N_digits|reflexivity]. rewrite read_show_0. cbn [obind]. f_equal. lia.
  - apply Z.ltb_ge in E. split; [apply show_N_ne|]. split; [apply digit_no_space, show_N_digits|]. pose proof (show_N_ne (Z.to_N z)) as NE. pose proof (show_N_digits (Z.to_N z)) as D.
    assert (RN : read_number (show_N (Z.to_N z)) = Some z).
    { rewrite <- (app_nil_s (show_N _)), read_number_digits; [|apply show_N_ne|apply show_N_digits|reflexivity]. rewrite read_show_0. f_equal. lia. }
    destruct (show_N (Z.to_N z)) as [|c s]; [congruence|]. cbn [read_int]. cbn in D. apply andb_true_iff in D as [D _]. apply digit_not_special in D as (-> & _). exact RN.
Qed.
Lemma show_N_Z n : show_N n = show_Z (Z.of_N n).
Proof. unfold show_Z. destruct (Z.of_N n <? 0)%Z eqn:E; [apply Z.ltb_lt in E; lia|]. now rewrite N2Z.id. Qed.
Lemma tokens_int z r : starts is_space r = true -> tokens is_space (show_Z z ++ r) = show_Z z :: tokens is_space r.
Proof. intros H. destruct (show_Z_word z) as (A & B & _). now apply tokens_word. Qed.
Lemma tokens_edges es : tokens is_space (cat (map (fun e => show_Z (fst e) ++ " " ++ show_Z (snd e) ++ nl) es)) = flat_map (fun e => [show_Z (fst e); show_Z (snd e)]) es.
Proof.
  induction es as [|e es IH]; [reflexivity|]. cbn [map cat fold_right flat_map]. fold (cat (map (fun e => show_Z (fst e) ++ " " ++ show_Z (snd e) ++ nl) es)).
  rewrite !app_assoc_s, tokens_int by reflexivity. rewrite (tokens_sep is_space " ") by reflexivity. rewrite tokens_int by reflexivity. rewrite (tokens_sep is_space nl) by reflexivity. rewrite IH. reflexivity.
Qed.
Theorem C52_read_back : forall n edges, read_edge_file (edge_file n edges) = Some (n, edges).
Proof.
  intros n edges. unfold read_edge_file, edge_file. rewrite tokens_int by reflexivity. rewrite (tokens_sep is_space " ") by reflexivity. rewrite show_N_Z, tokens_int by reflexivity.
  rewrite (tokens_sep is_space nl), (tokens_sep is_space nl), tokens_edges by reflexivity. cbn [map all_some]. destruct (show_Z_word n) as (_ & _ & ->). destruct (show_Z_word (Z.of_N (N.of_nat (List.length edges)))) as (_ & _ & ->). cbn [obind].
  assert (A : all_some (map read_int (flat_map (fun e => [show_Z (fst e); show_Z (snd e)]) edges)) = Some (flat_map (fun e => [fst e; snd e]) edges)).
  { induction edges as [|e es IH]; [reflexivity|]. cbn [flat_map app map all_some]. destruct (show_Z_word (fst e)) as (_ & _ & ->). destruct (show_Z_word (snd e)) as (_ & _ & ->). rewrite IH. reflexivity. }
  assert (P : pairs (flat_map (fun e => [fst e; snd e]) edges) = Some edges).
  { clear A. induction edges as [|[u v] es IH]; [reflexivity|]. cbn [flat_map app pairs fst snd]. rewrite IH. reflexivity. }
  rewrite A. cbn [obind]. rewrite P. cbn [obind]. rewrite nat_N_Z, Z.eqb_refl. reflexivity.
Qed.
Corollary C52_determines : forall n edges n' edges', edge_file n edges = edge_file n' edges' -> n = n' /\ edges = edges'.
Proof. intros n edges n' edges' H. pose proof (C52_read_back n edges) as A. rewrite H, C52_read_back in A. injection A as <- <-. split; reflexivity. Qed.
Example ex_C52 : edge_file 3 [(0, 2); (2, 1)]%Z = "3 2" ++ nl ++ nl ++ "0 2" ++ nl ++ "2 1" ++ nl /\ read_edge_file ("3 2" ++ nl ++ nl ++ "0 2" ++ nl ++ "2 1" ++ nl) = Some (3, [(0, 2); (2, 1)])%Z.
Proof. split; reflexivity. Qed.

(** ** decimals *)
(** the real number a decimal text denotes *)
Fixpoint frac_value (unit : R) (s : string) : R := match s with "" => 0%R | String c r => match digit c with Some k => (IZR k * unit + frac_value (unit / 10) r)%R | None => 0%R end end.
Fixpoint plain_value (acc : Z) (s : string) : R :=
  match s with
  | "" => IZR acc
  | String c r => if Ascii.eqb c "." then (IZR acc + frac_value (1 / 10) r)%R else match digit c with Some k => plain_value (10 * acc + k) r | None => IZR acc end
  end.
Definition decimal_value (s : string) : R := match s with String c r => if Ascii.eqb c "-" then (- plain_value 0 r)%R else plain_value 0 s | "" => 0%R end.
Lemma frac_digits s : allb is_digit s = true -> forall u, frac_value u s = (IZR (read_digits 0 s) * u * 10 / 10 ^ String.length s)%R.
Proof.
  induction s as [|c s IH]; [intros _ u; cbn; lra|]. cbn [allb frac_value String.length read_digits]. unfold is_digit at 1. destruct (digit c) as [k|]; [|discriminate]. rewrite andb_true_l. intros A u.
  rewrite (IH A), (read_digits_shift (10 * 0 + k) s A), plus_IZR, mult_IZR. replace (10 * 0 + k)%Z with k by lia. rewrite <- pow_IZR. cbn [pow]. assert (0 < 10 ^ String.length s)%R by (apply pow_lt; lra). field. lra.
Qed.
Lemma plain_digits s r acc : allb is_digit s = true -> plain_value acc (s ++ r) = plain_value (read_digits acc s) r.
Proof.
  revert acc. induction s as [|c s IH]; intros acc; [reflexivity|]. cbn [allb]. rewrite andb_true_iff. intros [A B]. pose proof (digit_not_special c A) as (_ & _ & _ & N). cbn [append plain_value read_digits]. rewrite N.
  unfold is_digit in A. destruct (digit c) as [k|]; [|discriminate]. now apply IH.
Qed.
Lemma show_fixed_value p x : decimal_value (show_fixed p x) = ((if Rlt_dec x 0 then -1 else 1) * IZR (round_even (Rabs x * 10 ^ p)) / 10 ^ p)%R.
Proof.
  unfold show_fixed. cbv zeta. set (z := round_even (Rabs x * 10 ^ p)).
  assert (P10 : (0 < 10 ^ p)%R) by (apply pow_lt; lra).
  assert (Z0 : (0 <= z)%Z). { unfold z, round_even. eapply Z.le_trans; [|apply Znearest_ge_floor]. apply Zfloor_lub. apply Rmult_le_pos; [apply Rabs_pos|lra]. }
  set (m := Z.to_N z). set (q := (m / 10 ^ N.of_nat p)%N). set (f := (m mod 10 ^ N.of_nat p)%N).
  assert (F : (f < 10 ^ N.of_nat p)%N) by (apply N.mod_lt, N.pow_nonzero; discriminate).
  assert (M : z = (Z.of_N q * 10 ^ Z.of_nat p + Z.of_N f)%Z).
  { unfold q, f. pose proof (N.div_mod m (10 ^ N.of_nat p) ltac:(apply N.pow_nonzero; discriminate)) as DM. apply (f_equal Z.of_N) in DM.
    rewrite N2Z.inj_add, N2Z.inj_mul, N2Z.inj_pow, nat_N_Z in DM. change (Z.of_N 10) with 10%Z in DM. unfold m in DM at 1. rewrite Z2N.id in DM by exact Z0. rewrite DM. ring. }
  assert (V : plain_value 0 (show_N q ++ show_frac p f) = (IZR z / 10 ^ p)%R).
  { rewrite plain_digits by apply show_N_digits. rewrite read_show_0, M, plus_IZR, mult_IZR, <- pow_IZR. unfold show_frac. destruct (p =? 0)%nat eqn:E.
    - apply Nat.eqb_eq in E as ->. cbn in F. assert (f = 0)%N as -> by lia. cbn. lra.
    - apply Nat.eqb_neq in E. cbv zeta. cbn [append plain_value]. change (Ascii.eqb "." ".") with true. cbv iota. rewrite frac_digits by (apply pad_digits, show_N_digits). rewrite pad_read, read_show_0, pad_length.
      pose proof (show_N_length f p ltac:(lia) F) as L. replace (p - String.length (show_N f) + String.length (show_N f))%nat with p by lia. field. lra. }
  unfold decimal_value. destruct (Rlt_dec x 0).
  - cbn [append]. change (Ascii.eqb "-" "-") with true. cbv iota. rewrite V. field. lra.
  - cbn [append]. pose proof (show_N_ne q) as NE. pose proof (show_N_digits q) as D. destruct (show_N q) as [|c s] eqn:E; [congruence|]. cbn [append] in *. cbn in D. apply andb_true_iff in D as [D _]. apply digit_not_special in D as (-> & _).
    rewrite V. field. lra.
Qed.
Lemma show_fixed_error p x : (Rabs (decimal_value (show_fixed p x) - x) <= / 2 / 10 ^ p)%R.
Proof.
  rewrite show_fixed_value. assert (P10 : (0 < 10 ^ p)%R) by (apply pow_lt; lra). pose proof (Znearest_half (fun k => negb (Z.even k)) (Rabs x * 10 ^ p)) as H. fold (round_even (Rabs x * 10 ^ p)) in H. set (z := IZR (round_even (Rabs x * 10 ^ p))) in *.
  assert (E : (((if Rlt_dec x 0 then -1 else 1) * z / 10 ^ p - x) = (if Rlt_dec x 0 then 1 else -1) * ((Rabs x * 10 ^ p - z) / 10 ^ p))%R).
  { destruct (Rlt_dec x 0); [rewrite (Rabs_left x) by lra|rewrite (Rabs_pos_eq x) by lra]; field; lra. }
  rewrite E, Rabs_mult. replace (Rabs (if Rlt_dec x 0 then 1 else -1)) with 1%R by (destruct (Rlt_dec x 0); [rewrite Rabs_pos_eq|rewrite Rabs_left]; lra).
  unfold Rdiv. rewrite Rmult_1_l, Rabs_mult, (Rabs_pos_eq (/ 10 ^ p)) by (left; now apply Rinv_0_lt_compat). apply Rmult_le_compat_r; [left; now apply Rinv_0_lt_compat|exact H].
Qed.
Definition numeric (c : ascii) : bool := is_digit c || Ascii.eqb c "-" || Ascii.eqb c ".".
Lemma show_fixed_numeric p x : show_fixed p x <> "" /\ allb numeric (show_fixed p x) = true.
Proof.
  assert (I : forall s, allb is_digit s = true -> allb numeric s = true) by (intros s; apply allb_imp; intros c H; unfold numeric; now rewrite H).
  unfold show_fixed. cbv zeta. set (q := (_ / _)%N). set (f := (_ mod _)%N). split.
  - destruct (Rlt_dec x 0); [discriminate|]. cbn [append]. pose proof (show_N_ne q). destruct (show_N q); [congruence|discriminate].
  - rewrite !allb_app, (I _ (show_N_digits q)). replace (allb numeric (if Rlt_dec x 0 then "-" else "")) with true by (destruct (Rlt_dec x 0); reflexivity). unfold show_frac. destruct (p =? 0)%nat; [reflexivity|].
    cbv zeta. cbn [append allb]. rewrite (I _ (pad_digits _ _ (show_N_digits f))). reflexivity.
Qed.
Lemma numeric_special c : numeric c = true -> is_space c = false /\ Ascii.eqb c "010" = false.
Proof. intros H. destruct c as [[] [] [] [] [] [] [] []]; vm_compute in H; try discriminate; split; reflexivity. Qed.

(** ** C59: the coordinates file *)
Definition read_words (text : string) : list string := tokens is_space text.
Fixpoint pair_up {A} (l : list A) : list (A * A) := match l with a :: b :: r => (a, b) :: pair_up r | _ => [] end.
Theorem C59_coordinates : forall n radii angles, (List.length radii = n)%nat -> (List.length angles = n)%nat ->
  exists text, hyp_file n radii angles = Some text /\
    let back := pair_up (map decimal_value (read_words text)) in
    List.length back = n /\ forall i, (i < n)%nat ->
      (Rabs (fst (nth i back (0, 0)) - nth i radii 0) <= / 2 / 10 ^ 17)%R /\ (Rabs (snd (nth i back (0, 0)) - nth i angles 0) <= / 2 / 10 ^ 17)%R.
Proof.
  intros n radii angles Hr Ha. unfold hyp_file. rewrite Hr, Ha, Nat.leb_refl. cbn [andb]. eexists. split; [reflexivity|]. cbv zeta.
  rewrite (firstn_all2 radii) by lia. rewrite (firstn_all2 angles) by lia.
  assert (T : forall l, read_words (cat (map (fun ra => show_fixed 17 (fst ra) ++ " " ++ show_fixed 17 (snd ra) ++ nl) l)) = flat_map (fun ra => [show_fixed 17 (fst ra); show_fixed 17 (snd ra)]) l).
  { assert (W : forall x r, starts is_space r = true -> tokens is_space (show_fixed 17 x ++ r) = show_fixed 17 x :: tokens is_space r).
    { intros x r S. destruct (show_fixed_numeric 17 x) as [NE NU]. apply tokens_word; [exact NE| |exact S]. revert NU. apply allb_imp. intros c C. apply numeric_special in C as [-> _]. reflexivity. }
    unfold read_words. induction l as [|ra l IH]; [reflexivity|]. cbn [map cat fold_right flat_map]. fold (cat (map (fun ra => show_fixed 17 (fst ra) ++ " " ++ show_fixed 17 (snd ra) ++ nl) l)).
    rewrite !app_assoc_s, W by reflexivity. rewrite (tokens_sep is_space " ") by reflexivity. rewrite W by reflexivity. rewrite (tokens_sep is_space nl), IH by reflexivity. reflexivity. }
  rewrite T. clear T.
  assert (P : forall l, pair_up (map decimal_value (flat_map (fun ra => [show_fixed 17 (fst ra); show_fixed 17 (snd ra)]) l)) = map (fun ra => (decimal_value (show_fixed 17 (fst ra)), decimal_value (show_fixed 17 (snd ra)))) l).
  { induction l as [|ra l IH]; [reflexivity|]. cbn [flat_map app map pair_up]. now rewrite IH. }
  rewrite P. split; [rewrite map_length, combine_length; lia|]. intros i Hi. rewrite (nth_indep _ _ (decimal_value (show_fixed 17 (fst (0, 0)%R)), decimal_value (show_fixed 17 (snd (0, 0)%R)))) by (rewrite map_length, combine_length; lia).
  rewrite (map_nth (fun ra : R * R => (decimal_value (show_fixed 17 (fst ra)), decimal_value (show_fixed 17 (snd ra))))), combine_nth by lia. cbn [fst snd]. split; apply show_fixed_error.
Qed.
(** doubles of size at least 1/16 (multiples of 2^-56) are printed with enough digits: equal texts mean equal values *)
Theorem C59_lossless : forall a b x y, x = (IZR a * / IZR (2 ^ 56))%R -> y = (IZR b * / IZR (2 ^ 56))%R -> show_fixed 17 x = show_fixed 17 y -> x = y.
Proof.
  intros a b x y Hx Hy E. pose proof (show_fixed_error 17 x) as Ex. pose proof (show_fixed_error 17 y) as Ey. rewrite E in Ex.
  assert (D : (Rabs (x - y) <= / 10 ^ 17)%R).
  { replace (x - y)%R with ((decimal_value (show_fixed 17 y) - y) - (decimal_value (show_fixed 17 y) - x))%R by ring. eapply Rle_trans; [apply Rabs_triang|]. rewrite Rabs_Ropp. lra. }
  assert (K : (/ 10 ^ 17 < / IZR (2 ^ 56))%R).
  { rewrite (pow_IZR 10 17). change (Z.of_nat 17) with 17%Z. apply Rinv_lt_contravar; [apply Rmult_lt_0_compat; apply IZR_lt; reflexivity|apply IZR_lt; reflexivity]. }
  assert (P : (0 < / IZR (2 ^ 56))%R) by (apply Rinv_0_lt_compat, IZR_lt; reflexivity).
  assert (AB : a = b); [|now subst]. subst x y. rewrite <- Rmult_minus_distr_r, Rabs_mult, (Rabs_pos_eq (/ IZR (2 ^ 56))), <- minus_IZR, <- abs_IZR in D by lra.
  assert (L : (IZR (Z.abs (a - b)) < 1)%R) by nra. apply lt_IZR in L. lia.
Qed.
(** tiny values lose digits: 2^-60 and 0 are written alike *)
Theorem C59_small_values_refuted : show_fixed 17 (/ IZR (2 ^ 60)) = show_fixed 17 0 /\ (/ IZR (2 ^ 60) <> 0)%R.
Proof.
  assert (P : (0 < / IZR (2 ^ 60))%R) by (apply Rinv_0_lt_compat, IZR_lt; reflexivity). split; [|apply Rgt_not_eq; exact P].
  assert (A : round_even (Rabs (/ IZR (2 ^ 60)) * 10 ^ 17) = 0%Z).
  { unfold round_even. apply Znearest_imp. rewrite (Rabs_pos_eq (/ IZR (2 ^ 60))) by (left; exact P). rewrite Rminus_0_r, Rabs_pos_eq by (apply Rmult_le_pos; [lra|apply pow_le; lra]).
    rewrite (pow_IZR 10 17). change (Z.of_nat 17) with 17%Z. apply Rmult_lt_reg_l with (IZR (2 ^ 60)); [apply IZR_lt; reflexivity|]. rewrite <- Rmult_assoc, Rinv_r, Rmult_1_l by (apply not_0_IZR; discriminate).
    apply Rmult_lt_reg_r with 2%R; [lra|]. rewrite Rmult_assoc. rewrite Rinv_l by lra. rewrite Rmult_1_r, <- mult_IZR. apply IZR_lt. reflexivity. }
  assert (B : round_even (Rabs 0 * 10 ^ 17) = 0%Z) by (rewrite Rabs_R0, Rmult_0_l; apply Znearest_imp; rewrite Rminus_0_r, Rabs_R0; lra).
  unfold show_fixed. rewrite A, B. destruct (Rlt_dec _ _); [lra|]. destruct (Rlt_dec _ _); [lra|]. reflexivity.
Qed.

(** ** C53: saveDot *)
Definition is_nl (c : ascii) : bool := Ascii.eqb c "010".
(** the lines of a text that are not empty *)
Definition text_lines (text : string) : list string := tokens is_nl text.
(** the numbers occurring in a line *)
Definition numbers (line : string) : list string := tokens (fun c => negb (numeric c)) line.
Lemma num_word s r : s <> "" -> allb numeric s = true -> starts (fun c => negb (numeric c)) r = true -> tokens (fun c => negb (numeric c)) (s ++ r) = s :: tokens (fun c => negb (numeric c)) r.
Proof. intros A B. apply tokens_word; [exact A|]. revert B. apply allb_imp. intros c ->. reflexivity. Qed.
Lemma digits_numeric s : allb is_digit s = true -> allb numeric s = true.
Proof. apply allb_imp. intros c H. unfold numeric. now rewrite H. Qed.
Lemma show_Z_numeric z : show_Z z <> "" /\ allb numeric (show_Z z) = true.
Proof. split; [apply show_Z_word|]. unfold show_Z. destruct (z <? 0)%Z; [cbn|]; apply digits_numeric, show_N_digits. Qed.
Lemma num_sep j r : allb (fun c => negb (numeric c)) j = true -> tokens (fun c => negb (numeric c)) (j ++ r) = tokens (fun c => negb (numeric c)) r.
Proof. apply tokens_sep. Qed.
(** the lines, without their newline *)
Definition node_line (i : nat) (w : R) (p : list R) : string :=
  tab ++ show_N (N.of_nat i) ++ " [label=" ++ quote ++ show_fixed 2 w ++ quote ++ ", pos=" ++ quote ++ commas (map (show_fixed 6) p) ++ quote ++ "];".
Definition edge_line (e : Z * Z) : string := tab ++ show_Z (fst e) ++ tab ++ "-- " ++ show_Z (snd e) ++ ";".
Fixpoint node_lines (i : nat) (wps : list (R * list R)) : list string := match wps with [] => [] | wp :: r => node_line i (fst wp) (snd wp) :: node_lines (S i) r end.
Lemma not_nl_numeric s : allb numeric s = true -> allb (fun c => negb (is_nl c)) s = true.
Proof. apply allb_imp. intros c H. apply numeric_special in H as [_ H]. unfold is_nl. now rewrite H. Qed.
Lemma commas_nl l : (forall s, In s l -> allb numeric s = true) -> allb (fun c => negb (is_nl c)) (commas l) = true.
Proof.
  intros H. destruct l as [|x l]; [reflexivity|]. cbn [commas]. rewrite allb_app, (not_nl_numeric x) by (apply H; now left). cbn [andb]. assert (H' : forall s, In s l -> allb numeric s = true) by (intros s I; apply H; now right). clear H.
  induction l as [|y l IH]; [reflexivity|]. cbn [map cat fold_right]. rewrite !allb_app. rewrite (not_nl_numeric y) by (apply H'; now left). unfold cat in IH. rewrite IH by (intros s I; apply H'; now right). reflexivity.
Qed.
Lemma fixed_nl p x : allb (fun c => negb (is_nl c)) (show_fixed p x) = true.
Proof. apply not_nl_numeric, show_fixed_numeric. Qed.
Lemma node_line_ok i w p : node_line i w p <> "" /\ allb (fun c => negb (is_nl c)) (node_line i w p) = true.
Proof.
  split; [discriminate|]. unfold node_line. rewrite !allb_app. rewrite (not_nl_numeric _ (digits_numeric _ (show_N_digits _))), fixed_nl, commas_nl; [reflexivity|]. intros s I. apply in_map_iff in I as (x & <- & _). apply show_fixed_numeric.
Qed.
Lemma edge_line_ok e : edge_line e <> "" /\ allb (fun c => negb (is_nl c)) (edge_line e) = true.
Proof.
  split; [discriminate|]. unfold edge_line. rewrite !allb_app. rewrite !(not_nl_numeric _ (proj2 (show_Z_numeric _))). reflexivity.
Qed.
Lemma dot_nodes_eq ws ps i : (List.length ws <= List.length ps)%nat -> dot_nodes i ws ps = Some (cat (map (fun l => l ++ nl) (node_lines i (combine ws ps)))).
Proof.
  revert ps i. induction ws as [|w ws IH]; intros [|p ps] i H; cbn [dot_nodes combine node_lines map cat fold_right]; try reflexivity; [cbn in H; lia|]. cbn in H. rewrite IH by lia. cbn [obind fst snd].
  f_equal. unfold dot_node, node_line. rewrite !app_assoc_s. reflexivity.
Qed.
Lemma lines_cat ls r : (forall l, In l ls -> l <> "" /\ allb (fun c => negb (is_nl c)) l = true) -> text_lines (cat (map (fun l => l ++ nl) ls) ++ r) = (ls ++ text_lines r)%list.
Proof.
  intros H. unfold text_lines. induction ls as [|l ls IH]; [reflexivity|]. cbn [map cat fold_right app]. fold (cat (map (fun l => l ++ nl) ls)). rewrite !app_assoc_s. destruct (H l (or_introl eq_refl)) as [A B].
  rewrite tokens_word by (try assumption; reflexivity). rewrite (tokens_sep is_nl nl) by reflexivity. rewrite IH by (intros; apply H; now right). reflexivity.
Qed.
Lemma node_lines_ok wps : forall i l, In l (node_lines i wps) -> l <> "" /\ allb (fun c => negb (is_nl c)) l = true.
Proof. induction wps as [|wp wps IH]; intros i l; [intros []|]. cbn [node_lines]. intros [<-|I]; [apply node_line_ok|eauto]. Qed.
(** the text consists of the two header lines, one line per node in index order, one line per edge in order, and the closing brace *)
Theorem C53_lines : forall ws ps edges, List.length ws = List.length ps ->
  exists text, dot_file ws ps edges = Some text /\
    text_lines text = (["graph girg {"; (tab ++ "overlap=scale;")%string] ++ node_lines 0 (combine ws ps) ++ map edge_line edges ++ ["}"])%list /\
    List.length (node_lines 0 (combine ws ps)) = List.length ws.
Proof.
  intros ws ps edges H. unfold dot_file. rewrite dot_nodes_eq by lia. cbn [obind]. eexists. split; [reflexivity|]. split.
  - replace (cat (map dot_edge edges)) with (cat (map (fun l => l ++ nl) (map edge_line edges))).
    2:{ rewrite map_map. f_equal. apply map_ext. intros e. unfold dot_edge, edge_line. rewrite !app_assoc_s. reflexivity. }
    unfold text_lines. rewrite (tokens_word is_nl "graph girg {") by (try discriminate; reflexivity). rewrite (tokens_sep is_nl nl) by reflexivity.
    replace (tab ++ "overlap=scale;" ++ nl ++ nl ++ cat (map (fun l => l ++ nl) (node_lines 0 (combine ws ps))) ++ nl ++ cat (map (fun l => l ++ nl) (map edge_line edges)) ++ "}" ++ nl)
      with ((tab ++ "overlap=scale;") ++ nl ++ nl ++ cat (map (fun l => l ++ nl) (node_lines 0 (combine ws ps))) ++ nl ++ cat (map (fun l => l ++ nl) (map edge_line edges)) ++ "}" ++ nl) by reflexivity.
    rewrite (tokens_word is_nl (tab ++ "overlap=scale;")) by (try discriminate; reflexivity). rewrite !(tokens_sep is_nl nl) by reflexivity. fold (text_lines (cat (map (fun l => l ++ nl) (node_lines 0 (combine ws ps))) ++ nl ++ cat (map (fun l => l ++ nl) (map edge_line edges)) ++ "}" ++ nl)).
    rewrite lines_cat by apply node_lines_ok. unfold text_lines at 1. rewrite (tokens_sep is_nl nl) by reflexivity. fold (text_lines (cat (map (fun l => l ++ nl) (map edge_line edges)) ++ "}" ++ nl)).
    rewrite lines_cat; [|intros l I; apply in_map_iff in I as (e & <- & _); apply edge_line_ok]. reflexivity.
  - assert (L : forall i, List.length (node_lines i (combine ws ps)) = List.length (combine ws ps)). { generalize (combine ws ps). induction l as [|wp l IH]; intros i; [reflexivity|]. cbn. now rewrite IH. }
    rewrite L, combine_length. lia.
Qed.
Lemma numbers_node i w p : numbers (node_line i w p) = show_N (N.of_nat i) :: show_fixed 2 w :: map (show_fixed 6) p.
Proof.
  unfold numbers, node_line. rewrite num_sep by reflexivity. rewrite num_word by (try apply show_N_ne; try apply digits_numeric, show_N_digits; reflexivity). f_equal.
  rewrite (num_sep " [label=") by reflexivity. rewrite (num_sep quote) by reflexivity. destruct (show_fixed_numeric 2 w) as [A B]. rewrite num_word by (try assumption; reflexivity). f_equal.
  rewrite (num_sep quote), (num_sep ", pos="), (num_sep quote) by reflexivity.
  assert (G : forall l r, tokens (fun c => negb (numeric c)) (cat (map (fun y => "," ++ y) (map (show_fixed 6) l)) ++ quote ++ r) = (map (show_fixed 6) l ++ tokens (fun c => negb (numeric c)) r)%list).
  { induction l as [|x l IH]; intros r; [apply (num_sep quote); reflexivity|]. cbn [map app].
    change (cat (("," ++ show_fixed 6 x) :: map (fun y => "," ++ y) (map (show_fixed 6) l))) with (("," ++ show_fixed 6 x) ++ cat (map (fun y => "," ++ y) (map (show_fixed 6) l))). rewrite !app_assoc_s.
    rewrite (num_sep ",") by reflexivity. destruct (show_fixed_numeric 6 x) as [A' B']. rewrite num_word; [now rewrite IH|assumption|assumption|]. destruct l; reflexivity. }
  destruct p as [|x p]; [reflexivity|]. cbn [map commas]. rewrite app_assoc_s. destruct (show_fixed_numeric 6 x) as [A' B']. rewrite num_word; [|assumption|assumption|destruct p; reflexivity]. rewrite G. f_equal. apply app_nil_r.
Qed.
Lemma numbers_edge e : numbers (edge_line e) = [show_Z (fst e); "--"; show_Z (snd e)].
Proof.
  unfold numbers, edge_line. rewrite num_sep by reflexivity. destruct (show_Z_numeric (fst e)) as [A B]. rewrite num_word by (try assumption; reflexivity). rewrite (num_sep tab) by reflexivity.
  change ("-- " ++ show_Z (snd e) ++ ";") with ("--" ++ " " ++ show_Z (snd e) ++ ";"). rewrite (num_word "--") by (try discriminate; reflexivity). rewrite (num_sep " ") by reflexivity. destruct (show_Z_numeric (snd e)) as [A' B'].
  rewrite num_word by (try assumption; reflexivity). reflexivity.
Qed.
(** recovering the graph: the numbers of a node line are its index, the weight to 2 decimals and all coordinates to 6 decimals; those of an edge line are its end nodes *)
Theorem C53_recover : forall ws ps edges text, List.length ws = List.length ps -> dot_file ws ps edges = Some text ->
  (forall i, (i < List.length ws)%nat -> exists line label coords, nth_error (text_lines text) (2 + i) = Some line /\ numbers line = show_N (N.of_nat i) :: label :: coords /\
     (Rabs (decimal_value label - nth i ws 0) <= 5 / 1000)%R /\ List.length coords = List.length (nth i ps []) /\
     forall d, (d < List.length coords)%nat -> (Rabs (decimal_value (nth d coords "") - nth d (nth i ps []) 0) <= / 2 / 10 ^ 6)%R) /\
  (forall j u v, nth_error edges j = Some (u, v) -> exists line, nth_error (text_lines text) (2 + List.length ws + j) = Some line /\ exists mid, map read_int (numbers line) = [Some u; mid; Some v]) /\
  List.length (text_lines text) = (3 + List.length ws + List.length edges)%nat.
Proof.
  intros ws ps edges text H E. destruct (C53_lines ws ps edges H) as (t & E' & T & L). rewrite E in E'. injection E' as <-. rewrite T. clear T E.
  assert (LC : List.length (combine ws ps) = List.length ws) by (rewrite combine_length; lia).
  assert (NL : forall wps i j, (j < List.length wps)%nat -> nth_error (node_lines i wps) j = Some (node_line (i + j) (fst (nth j wps (0%R, []))) (snd (nth j wps (0%R, []))))).
  { induction wps as [|wp wps IH]; intros i j Hj; cbn in Hj; [lia|]. destruct j as [|j]; cbn [nth_error node_lines nth]; [now rewrite Nat.add_0_r|]. rewrite IH by lia. now rewrite Nat.add_succ_comm. }
  split; [|split].
  - intros i Hi. exists (node_line i (nth i ws 0%R) (nth i ps [])), (show_fixed 2 (nth i ws 0%R)), (map (show_fixed 6) (nth i ps [])). split; [|split; [apply numbers_node|split]].
    + cbn [app plus nth_error]. rewrite nth_error_app1 by lia. rewrite NL by lia. rewrite combine_nth by exact H. reflexivity.
    + pose proof (show_fixed_error 2 (nth i ws 0%R)). lra.
    + rewrite map_length. split; [reflexivity|]. intros d Hd. rewrite (nth_indep _ "" (show_fixed 6 0)) by now rewrite map_length. rewrite map_nth. apply show_fixed_error.
  - intros j u v Hj. exists (edge_line (u, v)). split.
    + cbn [app plus nth_error]. rewrite nth_error_app2 by lia. rewrite nth_error_app1 by (rewrite map_length; apply nth_error_Some; rewrite L; replace (List.length ws + j - List.length ws)%nat with j by lia; congruence).
      rewrite L. replace (List.length ws + j - List.length ws)%nat with j by lia. now rewrite (map_nth_error edge_line j edges Hj).
    + exists (read_int "--"). rewrite numbers_edge. cbn [map fst snd]. destruct (show_Z_word u) as (_ & _ & ->). destruct (show_Z_word v) as (_ & _ & ->). reflexivity.
  - cbn [app List.length]. rewrite (app_length (node_lines 0 (combine ws ps))), L, app_length, map_length. cbn [List.length]. lia.
Qed.
(** more weights than positions: undefined behaviour *)
Theorem C53_too_few_positions_refuted : forall ws ps edges, (List.length ps < List.length ws)%nat -> dot_file ws ps edges = None.
Proof.
  intros ws ps edges H. unfold dot_file. replace (dot_nodes 0 ws ps) with (@None string); [reflexivity|]. symmetry. revert H. generalize 0%nat. revert ps. induction ws as [|w ws IH]; intros [|p ps] i H; cbn in H; try lia; [reflexivity|]. cbn [dot_nodes]. rewrite IH by lia. reflexivity.
Qed.
Example ex_C53 : exists text, dot_file [1; 2]%R [[1 / 2]; [1 / 4]]%R [(0, 1)]%Z = Some text /\ List.length (text_lines text) = 6%nat /\ nth_error (text_lines text) 4 = Some (tab ++ "0" ++ tab ++ "-- 1;").
Proof.
  destruct (C53_lines [1; 2]%R [[1 / 2]; [1 / 4]]%R [(0, 1)]%Z eq_refl) as (text & E & T & _). exists text. split; [exact E|]. rewrite T. split; reflexivity.
Qed.
Example ex_C59 : hyp_file 1 [1; 2]%R [3]%R <> None /\ hyp_file 2 [1; 2]%R [3]%R = None.
Proof. split; [discriminate|reflexivity]. Qed.
Print Assumptions C50_last_occurrence.
Print Assumptions C50_gengirg.
Print Assumptions C50_genhrg.
Print Assumptions C50_stoi.
Print Assumptions C51_gengirg.
Print Assumptions C51_genhrg.
Print Assumptions C51_only_in_range.
Print Assumptions C51_nan_refuted.
Print Assumptions C52_read_back.
Print Assumptions C53_lines.
Print Assumptions C53_recover.
Print Assumptions C59_coordinates.
Print Assumptions C59_lossless.
Print Assumptions C59_small_values_refuted.
