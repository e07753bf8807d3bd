(** Boxes around the origin (no reference to the model). *)
From Coq Require Import List QArith.
Import ListNotations.
Open Scope Q_scope.

(** The box is its own mirror image. *)
Definition centred (lo hi : list Q) : Prop := Forall2 (fun l h => l + h == 0) lo hi.
(** No coordinate is further from the origin than half the width of the box. *)
Fixpoint near_origin (lo hi x : list Q) : Prop :=
  match lo, hi, x with
  | [], [], [] => True
  | l :: lo', h :: hi', a :: x' => - ((h - l) / 2) <= a <= (h - l) / 2 /\ near_origin lo' hi' x'
  | _, _, _ => False
  end.
