(** Independent description of evaluation grids (no reference to the model). *)
From Coq Require Import List ZArith QArith Qround.
Import ListNotations.
Open Scope Q_scope.

(** Number of points along a dimension of the given range. *)
Definition points_along (range resolution : Q) : Z := Z.max 1 (Qfloor (range / resolution)).

(** Product of natural numbers. *)
Definition nprod (l : list nat) : nat := fold_right Nat.mul 1%nat l.

(** Componentwise order of corners, strict. *)
Definition strictly_below (lo hi : list Q) : Prop := Forall2 (fun l h => l < h) lo hi.

(** Equality of points as rational vectors. *)
Definition same_point (x y : list Q) : Prop := Forall2 Qeq x y.

(** The points of one dimension are evenly spread from l to h: the gaps are all equal. *)
Definition evenly_spread (lh : Q * Q) (pts : list Q) : Prop :=
  forall i, (S i < length pts)%nat ->
    (nth (S i) pts 0 - nth i pts 0) * inject_Z (Z.of_nat (length pts - 1)) == snd lh - fst lh.
