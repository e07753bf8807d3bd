(** Asking for samples in instalments: one request for n1 and a later one for n2, against a single request for n2. *)
From Coq Require Import List QArith.
Import ListNotations.
Open Scope Q_scope.

(** The first part of a sequence of random events. *)
Definition initial {A : Type} (used l : list A) : Prop := exists rest, l = used ++ rest.
(** The same random events, read with a clock that stays below the limit. *)
Definition in_time {A : Type} (same : A -> A -> Prop) (clock : A -> Q) (limit : Q) (events again : list A) : Prop :=
  Forall2 same events again /\ Forall (fun r => clock r < limit) again.
