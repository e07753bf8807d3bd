(** A function observed under additive noise (no reference to the model). *)
From Coq Require Import List Arith QArith.
Import ListNotations.
Open Scope Q_scope.

(** [y] is an n x d array whose entry (i, j) is entry i d + j of the function values plus entry (i, j) of the noise. *)
Definition observed (d n : nat) (fx : list Q) (noise y : list (list Q)) : Prop :=
  length y = n /\
  (forall i r, nth_error y i = Some r -> length r = d) /\
  (forall i j r e, nth_error y i = Some r -> nth_error noise i = Some e -> (j < d)%nat ->
     nth j r 0 == nth (i * d + j) fx 0 + nth j e 0).

(** [e] is what is left of the observation after taking away the function values. *)
Definition residual (d i : nat) (fx y e : list Q) : Prop :=
  length e = d /\ forall j, (j < d)%nat -> nth j e 0 == nth j y 0 - nth (i * d + j) fx 0.

Definition same_row (x y : list Q) : Prop := Forall2 Qeq x y.
