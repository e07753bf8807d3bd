(** Points where a density has mass. *)
From Coq Require Import QArith.
From Verif Require Import Prelude.Py.

(** A log density that belongs to a positive density: neither minus infinity nor NaN. *)
Definition has_mass (l : fl Q) : Prop := match l with Fin _ => True | PInf => True | _ => False end.
