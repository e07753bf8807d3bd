(** Means over independent draws from finitely many equally likely points, with real values (no reference to the model). *)
From Coq Require Import List Reals.
Import ListNotations.
From Verif Require Import Spec.DivergenceSpec.
Open Scope R_scope.

Definition mean_over {X : Type} (pts : list X) (f : X -> R) : R := total (map f pts) / INR (length pts).
(** The mean of f over n independent draws. *)
Fixpoint mean_draws {X : Type} (pts : list X) (n : nat) (f : list X -> R) : R :=
  match n with
  | O => f []
  | S k => mean_over pts (fun x => mean_draws pts k (fun xs => f (x :: xs)))
  end.
Definition square (x : R) : R := x * x.
(** The points a uniform draw of resolution G reaches in [a, b]. *)
Definition segment_points (a b : R) (G : nat) : list R := map (fun k => a + (b - a) * (INR k / INR G)) (seq 0 G).
