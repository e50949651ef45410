(** Lemmas on the text the tools read and write. *)
From Coq Require Import Arith NArith ZArith List Bool Reals String Ascii DecimalString DecimalN Lia Lra.
From Flocq Require Import Core.Generic_fmt.
From Verif Require Import Base Scaling_Model Cli_Model.
Import ListNotations.
Local Open Scope string_scope.

(** ** strings *)
Lemma app_assoc_s a b c : (a ++ b) ++ c = a ++ b ++ c.
Proof. induction a as [|x a IH]; cbn; [reflexivity|now rewrite IH]. Qed.
Lemma app_nil_s a : a ++ "" = a.
Proof. induction a as [|x a IH]; cbn; [reflexivity|now rewrite IH]. Qed.
Lemma cat_app a b : cat (a ++ b)%list = cat a ++ cat b.
Proof. induction a as [|x a IH]; cbn; [reflexivity|]. unfold cat in IH. now rewrite IH, app_assoc_s. Qed.
Fixpoint allb (P : ascii -> bool) (s : string) : bool := match s with "" => true | String c r => P c && allb P r end.
Lemma allb_app P a b : allb P (a ++ b) = allb P a && allb P b.
Proof. induction a as [|x a IH]; cbn; [reflexivity|]. now rewrite IH, andb_assoc. Qed.
Lemma allb_imp (P Q : ascii -> bool) s : (forall c, P c = true -> Q c = true) -> allb P s = true -> allb Q s = true.
Proof. intros H. induction s as [|c s IH]; cbn; [auto|]. rewrite !andb_true_iff. intros [A B]. auto. Qed.
Definition starts (P : ascii -> bool) (s : string) : bool := match s with "" => true | String c _ => P c end.

(** ** splitting a text at separators *)
Fixpoint tokens (sep : ascii -> bool) (s : string) : list string :=
  match s with
  | "" => []
  | String c r =>
    if sep c then tokens sep r
    else match r with
         | "" => [String c ""]
         | String c' _ => if sep c' then String c "" :: tokens sep r else match tokens sep r with w :: ws => String c w :: ws | [] => [String c ""] end
         end
  end.
Lemma tokens_sep sep j r : allb sep j = true -> tokens sep (j ++ r) = tokens sep r.
Proof. induction j as [|c j IH]; cbn; [reflexivity|]. rewrite andb_true_iff. intros [A B]. rewrite A. auto. Qed.
Lemma tokens_word sep w r : w <> "" -> allb (fun c => negb (sep c)) w = true -> starts sep r = true -> tokens sep (w ++ r) = w :: tokens sep r.
Proof.
  intros Hw Ha Hr. induction w as [|c w IH]; [congruence|]. cbn in Ha. apply andb_true_iff in Ha as [Hc Ha]. apply negb_true_iff in Hc.
  destruct w as [|c' w].
  - cbn [append tokens]. rewrite Hc. destruct r as [|c' r]; [reflexivity|]. cbn in Hr. rewrite Hr. reflexivity.
  - specialize (IH ltac:(discriminate) Ha). cbn [append] in *. cbn [tokens] in *. rewrite Hc. cbn in Ha. apply andb_true_iff in Ha as [Hc' Ha]. apply negb_true_iff in Hc'.
    rewrite Hc' in *. rewrite IH. reflexivity.
Qed.

(** ** numbers *)
Definition is_digit (c : ascii) : bool := match digit c with Some _ => true | None => false end.
Lemma digits_uint d : allb is_digit (NilEmpty.string_of_uint d) = true.
Proof. induction d; cbn; auto. Qed.
Lemma show_N_digits n : allb is_digit (show_N n) = true.
Proof. unfold show_N, NilZero.string_of_uint. destruct (N.to_uint n); try reflexivity; apply digits_uint. Qed.
Lemma show_N_ne n : show_N n <> "".
Proof. unfold show_N, NilZero.string_of_uint. destruct (N.to_uint n); discriminate. Qed.
Lemma read_acc d acc : read_digits (Zpos acc) (NilEmpty.string_of_uint d) = Zpos (Pos.of_uint_acc d acc).
Proof.
  revert acc. induction d; intros acc; cbn [NilEmpty.string_of_uint read_digits Pos.of_uint_acc]; try reflexivity;
    (match goal with |- context [digit ?c] => let v := eval vm_compute in (digit c) in change (digit c) with v end); cbv iota beta;
    rewrite <- IHd; f_equal; lia.
Qed.
Lemma read_0 d : read_digits 0 (NilEmpty.string_of_uint d) = Z.of_N (N.of_uint d).
Proof.
  induction d; cbn [NilEmpty.string_of_uint read_digits N.of_uint Pos.of_uint]; try reflexivity;
    (match goal with |- context [digit ?c] => let v := eval vm_compute in (digit c) in change (digit c) with v end); cbv iota beta.
  - exact IHd.
  - apply (read_acc d 1).
  - apply (read_acc d 2).
  - apply (read_acc d 3).
  - apply (read_acc d 4).
  - apply (read_acc d 5).
  - apply (read_acc d 6).
  - apply (read_acc d 7).
  - apply (read_acc d 8).
  - apply (read_acc d 9).
Qed.
Lemma read_show_0 n : read_digits 0 (show_N n) = Z.of_N n.
Proof.
  unfold show_N, NilZero.string_of_uint. rewrite <- (DecimalN.Unsigned.of_to n) at 2. destruct (N.to_uint n) eqn:E; try (rewrite <- read_0; reflexivity).
Qed.
(** digits followed by something else *)
Lemma read_digits_app acc s r : allb is_digit s = true -> starts (fun c => negb (is_digit c)) r = true -> read_digits acc (s ++ r) = read_digits acc s.
Proof.
  revert acc. induction s as [|c s IH]; intros acc; cbn.
  - intros _. destruct r as [|c r]; [reflexivity|]. cbn. unfold is_digit. destruct (digit c); [discriminate|reflexivity].
  - unfold is_digit at 1. destruct (digit c) as [k|]; [|discriminate]. cbn. intros. now apply IH.
Qed.
Lemma read_number_digits s r : s <> "" -> allb is_digit s = true -> starts (fun c => negb (is_digit c)) r = true -> read_number (s ++ r) = Some (read_digits 0 s).
Proof.
  destruct s as [|c s]; [congruence|]. cbn. unfold is_digit at 1. destruct (digit c) as [k|]; [|discriminate]. cbn. intros _ A B. now rewrite read_digits_app by assumption.
Qed.
Lemma digit_not_special c : is_digit c = true -> Ascii.eqb c "-" = false /\ Ascii.eqb c "+" = false /\ is_space c = false /\ Ascii.eqb c "." = false.
Proof.
  intros H. destruct c as [[] [] [] [] [] [] [] []]; vm_compute in H; try discriminate; repeat split; reflexivity.
Qed.
(** the number of digits *)
Lemma read_digits_shift acc s : allb is_digit s = true -> (read_digits acc s = acc * 10 ^ Z.of_nat (String.length s) + read_digits 0 s)%Z.
Proof.
  revert acc. induction s as [|c s IH]; intros acc; cbn [read_digits String.length allb]; [intros _; cbn; lia|]. rewrite andb_true_iff. unfold is_digit at 1. destruct (digit c) as [k|]; [|intros [? _]; discriminate].
  intros [_ A]. rewrite (IH (10 * acc + k)%Z A), (IH (10 * 0 + k)%Z A), Nat2Z.inj_succ, Z.pow_succ_r by lia. ring.
Qed.
Lemma digit_range c k : digit c = Some k -> (0 <= k <= 9)%Z.
Proof. unfold digit. destruct (_ && _)%bool eqn:E; [|discriminate]. intros H. injection H as <-. apply andb_true_iff in E as [A B]. apply Z.leb_le in A, B. split; assumption. Qed.
Lemma read_digits_nonneg acc s : (0 <= acc)%Z -> (0 <= read_digits acc s)%Z.
Proof.
  revert acc. induction s as [|c s IH]; intros acc H; cbn [read_digits]; [exact H|]. destruct (digit c) as [k|] eqn:E; [|exact H]. apply digit_range in E. apply IH. lia.
Qed.
Lemma show_N_length n p : (1 <= p)%nat -> (n < 10 ^ N.of_nat p)%N -> (String.length (show_N n) <= p)%nat.
Proof.
  intros Hp Hn. assert (H0 : n = 0%N \/ exists c s k, show_N n = String c s /\ digit c = Some k /\ (1 <= k)%Z).
  { assert (U : N.to_uint n = Decimal.unorm (N.to_uint n)) by (rewrite <- DecimalN.Unsigned.to_of, DecimalN.Unsigned.of_to; reflexivity).
    pose proof (DecimalN.Unsigned.of_to n) as OT. unfold show_N, NilZero.string_of_uint.
    destruct (N.to_uint n) eqn:E; try (right; do 3 eexists; split; [reflexivity|]; split; [vm_compute; reflexivity|lia]).
    - left. rewrite <- OT. reflexivity.
    - left. assert (X : forall d, Decimal.nzhead d <> Decimal.D0 u). { clear. induction d; cbn; try discriminate. exact IHd. }
      unfold Decimal.unorm in U. destruct (Decimal.nzhead (Decimal.D0 u)) eqn:Z; try (exfalso; apply (X (Decimal.D0 u)); congruence).
      + injection U as ->. now rewrite <- OT.
  }
  destruct H0 as [->|(c & s & k & E & Dk & Hk)]; [exact Hp|]. pose proof (show_N_digits n) as A. pose proof (read_show_0 n) as Rn. rewrite E in *. cbn [String.length allb read_digits] in *. rewrite Dk in Rn.
  apply andb_true_iff in A as [_ A]. rewrite read_digits_shift in Rn by exact A. pose proof (read_digits_nonneg 0 s ltac:(lia)) as NN.
  assert (L : (10 ^ Z.of_nat (String.length s) <= Z.of_N n)%Z) by (rewrite <- Rn; pose proof (Z.pow_pos_nonneg 10 (Z.of_nat (String.length s)) ltac:(lia) ltac:(lia)) as PP; pose proof (Z.mul_le_mono_nonneg_r 1 k (10 ^ Z.of_nat (String.length s)) ltac:(lia) Hk); lia).
  assert (M : (10 ^ Z.of_nat (String.length s) < 10 ^ Z.of_nat p)%Z).
  { apply Z.le_lt_trans with (1 := L). rewrite <- nat_N_Z. change 10%Z with (Z.of_N 10). rewrite <- N2Z.inj_pow. lia. }
  apply Z.pow_lt_mono_r_iff in M; lia.
Qed.
Lemma pad_length k s : String.length (pad_left k s) = (k + String.length s)%nat.
Proof. induction k as [|k IH]; cbn; [reflexivity|now rewrite IH]. Qed.
Lemma pad_digits k s : allb is_digit s = true -> allb is_digit (pad_left k s) = true.
Proof. intros H. induction k as [|k IH]; [exact H|exact IH]. Qed.
Lemma pad_read k s : read_digits 0 (pad_left k s) = read_digits 0 s.
Proof. induction k as [|k IH]; [reflexivity|exact IH]. Qed.
