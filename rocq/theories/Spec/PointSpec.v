(** Independent notions for point masses (no reference to the model). *)
From Coq Require Import List QArith Qabs.
Import ListNotations.
Open Scope Q_scope.

(** Within the given absolute and relative tolerance in every coordinate. *)
Definition within (atol rtol : Q) (c x : list Q) : Prop :=
  Forall2 (fun a b => Qabs (a - b) <= atol + rtol * Qabs b) c x.

(** The same point. *)
Definition same_point (c x : list Q) : Prop := Forall2 Qeq c x.

(** Strictly inside the box. *)
Definition strictly_inside (a b c : list Q) : Prop := Forall2 Qlt a c /\ Forall2 Qlt c b.
