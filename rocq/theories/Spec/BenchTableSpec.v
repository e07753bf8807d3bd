(** What the result table has to say: columns, and how a line shows a result row. *)
From Coq Require Import String List NArith QArith.
Import ListNotations.
From Verif Require Import Prelude.Py Model.TableFormat Spec.TableSpec.
Open Scope list_scope.

(** The metric names that can be configured, with the label their results are stored under. *)
Definition labels : list (string * string) :=
  [("KLD", "KL"); ("JSD", "JSD"); ("EVMSE", "EVMSE"); ("T", "time"); ("MEM", "memory")]%string.
Definition known : list string := ["KLD"; "JSD"; "EVMSE"; "T"; "MEM"]%string.

(** The column headings for a metric list. *)
Definition headings (ms : list string) : list string :=
  ["dims"; "output_samples"]%string ++ ms ++
  ["NESS"; "method"; "target_d"; "accept_rate"; "proposal_samples"; "proposal_evals"; "target_evals"]%string.

(** The line shows the row under these headings: as many fields as headings; dimension and sample count;
    each metric's own result in its own column; then the remaining columns in order. *)
Definition reads_as (ms : list string) (r : row) (line : list string) : Prop :=
  length line = length (headings ms) /\
  (exists t, nth_error line 0 = Some t /\ read_nat t = Some (N.of_nat (r_dims r))) /\
  (exists t, nth_error line 1 = Some t /\ read_nat t = Some (N.of_nat (r_count r))) /\
  (forall i m, nth_error ms i = Some m -> exists key v t,
     In (m, key) labels /\ nth_error (r_results r) i = Some (key, v) /\
     nth_error line (2 + i) = Some t /\ shown 5 t v) /\
  (exists t, nth_error line (2 + length ms) = Some t /\ shown 3 t (r_ness r)) /\
  nth_error line (3 + length ms) = Some (r_method r) /\
  nth_error line (4 + length ms) = Some (r_target r) /\
  (exists t, nth_error line (5 + length ms) = Some t /\ shown 3 t (r_acc r)) /\
  (exists t, nth_error line (6 + length ms) = Some t /\ read_nat t = Some (N.of_nat (r_qs r))) /\
  (exists t, nth_error line (7 + length ms) = Some t /\ read_nat t = Some (N.of_nat (r_qe r))) /\
  (exists t, nth_error line (8 + length ms) = Some t /\ read_nat t = Some (N.of_nat (r_pi r))).
