(** Equality of floating point values: same special value, or equal rationals. *)
From Coq Require Import QArith.
From Verif Require Import Prelude.Py.

Definition feqQ (x y : fl Q) : Prop :=
  match x, y with
  | Fin a, Fin b => a == b
  | PInf, PInf | NInf, NInf | NaN, NaN => True
  | _, _ => False
  end.
