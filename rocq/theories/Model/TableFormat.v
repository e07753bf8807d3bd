(** Model of the text the benchmark writes: CBenchmark.py:167-170 (header line) and 319-326
    (write_results), with the Python % formatting operators these lines use. *)
From Coq Require Import List Bool Arith NArith QArith Qround Qabs Ascii String.
Import ListNotations.
From Verif Require Import Prelude.Py Prelude.QBase.
Open Scope string_scope.

(** A decimal digit. *)
Definition digit (n : N) : ascii := ascii_of_N (48 + n).

(** Decimal numeral of a natural number (the %d conversion used at CBenchmark.py:322 and 324 and the
    digits of %f). The number of bits bounds the number of digits. *)
Fixpoint dec_aux (fuel : nat) (n : N) (acc : string) : string :=
  let acc' := String (digit (n mod 10)) acc in
  match fuel with
  | O => acc'
  | S f => if (n <? 10)%N then acc' else dec_aux f (n / 10)%N acc'
  end.
Definition dec (n : N) : string := dec_aux (N.size_nat n) n "".

(** Left padding of a conversion to its minimum width. *)
Fixpoint rep_char (c : ascii) (k : nat) : string :=
  match k with O => "" | S j => String c (rep_char c j) end.
Definition padl (c : ascii) (w : nat) (s : string) : string := rep_char c (w - String.length s) ++ s.

(** CBenchmark.py:322: %02d and %04d (flag 0, width w). Arguments are natural numbers: dims and
    nsamples are never negative. *)
Definition fmt_d (w : nat) (n : nat) : string := padl "0" w (dec (N.of_nat n)).

(** Nearest integer of a non-negative number, ties to even (correctly rounded decimal conversion). *)
Definition round_even (q : Q) : N :=
  let f := Qfloor q in
  let r := (q - inject_Z f)%Q in
  let up := match Qcompare r (1 # 2) with
            | Lt => false
            | Gt => true
            | Eq => Z.odd f
            end in
  Z.to_N (if up then f + 1 else f)%Z.

(** The conversion %.pf: sign, integer digits, point, p digits; CBenchmark.py:323-324. "nan", "inf"
    and "-inf" for the special values. Simplified: a negative zero prints like zero. *)
Definition fixed (p : nat) (v : fl Q) : string :=
  match v with
  | NaN => "nan"
  | PInf => "inf"
  | NInf => "-inf"
  | Fin q =>
      let s := (10 ^ N.of_nat p)%N in
      let n := round_even (Qabs q * inject_Z (Z.of_N s)) in
      (if Qltb q 0 then "-" else "") ++ dec (n / s) ++ "." ++ padl "0" p (dec (n mod s))
  end.

(** %w.pf *)
Definition fmt_f (w p : nat) (v : fl Q) : string := padl " " w (fixed p v).

(** What write_results receives and asks the method for (CBenchmark.py:320-326): the dimension, the
    number of samples, the dictionary of metric results in insertion order, then NESS, the method
    and target names, acceptance rate and the three counters. *)
Record row := mkRow {
  r_dims : nat; r_count : nat; r_results : list (string * fl Q);
  r_ness : fl Q; r_method : string; r_target : string; r_acc : fl Q;
  r_qs : nat; r_qe : nat; r_pi : nat }.

(** The newline character. *)
Definition nl : string := String "010" "".

(** CBenchmark.py:322-326: the line written for a row. There is no separator between the metric values
    and the NESS conversion. *)
Definition render (r : row) : string :=
  fmt_d 2 (r_dims r) ++ " " ++ fmt_d 4 (r_count r) ++ " " ++
  String.concat " " (map (fun kv => fmt_f 9 5 (snd kv)) (r_results r)) ++
  fmt_f 9 3 (r_ness r) ++ " " ++ r_method r ++ " " ++ r_target r ++ " " ++
  fmt_f 5 3 (r_acc r) ++ " " ++ fmt_d 0 (r_qs r) ++ " " ++ fmt_d 0 (r_qe r) ++ " " ++ fmt_d 0 (r_pi r) ++ nl.

(** CBenchmark.py:167-170: the header line for the configured metric list. *)
Definition header (ms : list string) : string :=
  "dims output_samples " ++ String.concat " " ms ++
  " NESS method target_d accept_rate proposal_samples proposal_evals target_evals" ++ nl.

(** The result file: the header, then the rows appended in order. *)
Definition file_text (ms : list string) (rows : list row) : string :=
  header ms ++ String.concat "" (map render rows).
