(** Waiting with a deadline (no reference to the model). *)
From Coq Require Import List Arith QArith.
Open Scope Q_scope.

(** Poll [k] is the first at which [P] holds of the polled entry. *)
Definition first_poll {A} (P : A -> Prop) (tape : list A) (k : nat) : Prop :=
  (exists x, nth_error tape k = Some x /\ P x) /\
  forall j x, (j < k)%nat -> nth_error tape j = Some x -> ~ P x.

(** The clock never goes back. *)
Definition monotone (t0 : Q) (clock : list Q) : Prop :=
  (forall t, In t clock -> t0 <= t) /\
  forall i j x y, (i <= j)%nat -> nth_error clock i = Some x -> nth_error clock j = Some y -> x <= y.

(** Every poll takes at least [delta]. *)
Definition ticking (delta t0 : Q) (clock : list Q) : Prop :=
  forall k t, nth_error clock k = Some t -> t0 + inject_Z (Z.of_nat k) * delta <= t.
