(** The criterion that an adaptation of a mixture proposal is meant to improve, independent of the sampler: the log likelihood
    of the proposal density q on a batch of points, each point counting with a weight. *)
From Coq Require Import List QArith Reals Qreals.
Import ListNotations.
Open Scope R_scope.

Fixpoint loglik (w q : list Q -> Q) (xs : list (list Q)) : R :=
  match xs with [] => 0 | x :: r => Q2R (w x) * ln (Q2R (q x)) + loglik w q r end.
(** Weighted total of a function, for instance a log density, over a batch of points of any kind. *)
Fixpoint weighted_R {X : Type} (w logq : X -> R) (xs : list X) : R :=
  match xs with [] => 0 | x :: r => w x * logq x + weighted_R w logq r end.
