(** Sets of random numbers of positive measure (no reference to the model). *)
From Coq Require Import List QArith.
Open Scope Q_scope.

(** Intervals of positive length within [0, 1). *)
Definition subintervals (l : list (Q * Q)) : Prop := Forall (fun i => 0 <= fst i /\ fst i < snd i /\ snd i <= 1) l.
(** The k-th random number falls into the k-th interval; those beyond the list are arbitrary. *)
Definition falls (u : nat -> Q) (l : list (Q * Q)) : Prop := forall k lo hi, nth_error l k = Some (lo, hi) -> lo <= u k < hi.
