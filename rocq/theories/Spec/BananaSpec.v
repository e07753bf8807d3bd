(** The twisted Gaussian behind the banana target (no reference to the model). *)
From Coq Require Import List Reals.
From Verif Require Import Spec.NormalSpec.
Open Scope R_scope.

(** First coordinate: mean 0, variance 100/3. Second coordinate, given the first: mean 3 - 0.03 x^2, variance 1. *)
Definition twisted (x y : R) : R := gauss1 0 (100 / 3) x * gauss1 (3 - 3 / 100 * (x * x)) 1 y.

(** The mass of the unnormalised target. *)
Definition banana_mass : R := 2 * PI * sqrt (100 / 3).
