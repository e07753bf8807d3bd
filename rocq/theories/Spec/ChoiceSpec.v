(** Averages over independent, equally likely choices. *)
From Coq Require Import List Reals.
Import ListNotations.
Open Scope R_scope.

(** All ways of choosing k numbers below n, one after the other. *)
Fixpoint all_choices (n k : nat) : list (list nat) :=
  match k with
  | O => [[]]
  | S k' => flat_map (fun i => map (cons i) (all_choices n k')) (seq 0 n)
  end.

(** The plain average of a list of numbers. *)
Definition plain_average (l : list R) : R := fold_right Rplus 0 l / INR (length l).
