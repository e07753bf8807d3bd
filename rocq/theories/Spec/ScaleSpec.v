(** Targets that differ by a positive constant, and what it means for two results to say the same about the target. *)
From Coq Require Import List QArith.
Import ListNotations.
From Verif Require Import Prelude.Py.
Open Scope Q_scope.

(** The second density is c times the first. *)
Definition scaled (c : Q) (pi pi' : list Q -> Q) : Prop := forall x, pi' x == c * pi x.
(** The same for log densities: they differ by the constant k; infinite values agree. *)
Definition shifted (k : Q) (lp lp' : list Q -> fl Q) : Prop :=
  forall x, match lp x, lp' x with Fin a, Fin b => b == a + k | PInf, PInf => True | NInf, NInf => True | NaN, NaN => True | _, _ => False end.
(** A float that is k times another; infinities and NaN agree. *)
Definition times (k : Q) (x y : fl Q) : Prop :=
  match x, y with Fin a, Fin b => b == k * a | PInf, PInf => True | NInf, NInf => True | NaN, NaN => True | _, _ => False end.
(** Weights that are the same after normalisation: one common positive factor. *)
Definition proportional (ws ws' : list (fl Q)) : Prop := exists k, 0 < k /\ Forall2 (times k) ws ws'.
(** The same weights. *)
Definition same_weights (ws ws' : list (fl Q)) : Prop := Forall2 (times 1) ws ws'.
