(** Nearest points (independent of the model). *)
From Coq Require Import List QArith.
Import ListNotations.
Open Scope Q_scope.

Fixpoint dist2 (x y : list Q) : Q := match x, y with a :: x', b :: y' => (a - b) * (a - b) + dist2 x' y' | _, _ => 0 end.
Definition nearest (l : list (list Q)) (x : list Q) (i : nat) : Prop :=
  exists p, nth_error l i = Some p /\ forall q, In q l -> dist2 p x <= dist2 q x.
(** A multinomial draw: how often each of the [m] categories came up in [n] trials. *)
Definition drawn (n m : nat) (counts : list nat) : Prop := length counts = m /\ fold_right Nat.add 0%nat counts = n.
