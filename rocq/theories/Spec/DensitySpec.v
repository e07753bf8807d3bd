(** Independent notions about densities (no reference to the model). *)
From Coq Require Import List QArith Reals Qreals.
Import ListNotations.
From Verif Require Import Prelude.Py.
Open Scope R_scope.

(** Log density values that stand for a density: finite, or -inf for density zero. *)
Definition log_value (l : fl R) : Prop := match l with Fin _ => True | NInf => True | _ => False end.

(** The density a log value stands for. *)
Definition density_of (l : fl R) : R := match l with Fin a => exp a | _ => 0 end.

(** [l] is the logarithm of the non-negative number [d]; -inf exactly at zero. *)
Definition log_of (l : fl R) (d : R) : Prop := (0 < d /\ l = Fin (ln d)) \/ (d = 0 /\ l = NInf).

(** Weighted sum of numbers. *)
Fixpoint weighted_sum (ws : list Q) (ds : list R) : R :=
  match ws, ds with w :: ws', d :: ds' => Q2R w * d + weighted_sum ws' ds' | _, _ => 0 end.
