(** Estimates from weighted samples. *)
From Coq Require Import List Reals.
Import ListNotations.
Open Scope R_scope.

(** The estimate of the mean of f from samples xs with weights ws. *)
Fixpoint weighted_mean {X : Type} (f : X -> R) (ws : list R) (xs : list X) : R :=
  match ws, xs with w :: ws', x :: xs' => w * f x + weighted_mean f ws' xs' | _, _ => 0 end.
