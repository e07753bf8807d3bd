(** Axis-aligned boxes of rational points (independent of the model). *)
From Coq Require Import List QArith.
Import ListNotations.
Open Scope Q_scope.

(** [in_box lo hi x]: x has the dimension of the box and every coordinate is between the bounds. *)
Fixpoint in_box (lo hi x : list Q) : Prop :=
  match lo, hi, x with
  | [], [], [] => True
  | l :: lo', h :: hi', a :: x' => l <= a /\ a <= h /\ in_box lo' hi' x'
  | _, _, _ => False
  end.

(** A box that is not inverted in any dimension. *)
Fixpoint is_box (lo hi : list Q) : Prop :=
  match lo, hi with
  | [], [] => True
  | l :: lo', h :: hi' => l <= h /\ is_box lo' hi'
  | _, _ => False
  end.
