(** Order of numbers in a list (independent of the model). *)
From Coq Require Import List QArith.
Import ListNotations.
Open Scope Q_scope.

Definition non_decreasing (l : list Q) : Prop :=
  forall i j, (i <= j)%nat -> (j < length l)%nat -> nth i l 0 <= nth j l 0.
