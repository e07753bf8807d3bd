(** Jumps between finitely many states (no reference to the model). States are the numbers below k; [F i j] is the probability
    that an attempt from i is accepted at j. *)
From Coq Require Import List Arith QArith.
Import ListNotations.
From Verif Require Import Prelude.QBase.
Open Scope Q_scope.

(** Total of g over the states. *)
Definition over (k : nat) (g : nat -> Q) : Q := Qsum (map g (seq 0 k)).
(** Probability that an attempt from state i is accepted. *)
Definition rate (k : nat) (F : nat -> nat -> Q) (i : nat) : Q := over k (F i).
(** Share of state i under the masses m. *)
Definition share (k : nat) (m : nat -> Q) (i : nat) : Q := m i / over k m.
(** Probability of the set B under shares p. *)
Definition chance (k : nat) (p : nat -> Q) (B : nat -> bool) : Q := over k (fun i => if B i then p i else 0).
(** Attempts between any two states balance under the masses m. *)
Definition balanced (k : nat) (m : nat -> Q) (F : nat -> nat -> Q) : Prop :=
  forall i j, (i < k)%nat -> (j < k)%nat -> m i * F i j == m j * F j i.
(** Points in one of the states, given by their tests, and points in the states of a set b. *)
Definition in_state {X : Type} (k : nat) (at_ : nat -> X -> bool) (x : X) : Prop := exists j, (j < k)%nat /\ at_ j x = true.
Definition states_in {X : Type} (k : nat) (at_ : nat -> X -> bool) (b : nat -> bool) (x : X) : bool :=
  existsb (fun j => andb (at_ j x) (b j)) (seq 0 k).
(** An attempt from every state is accepted somewhere with positive chance. *)
Definition lively (k : nat) (F : nat -> nat -> Q) : Prop :=
  (forall i j, (i < k)%nat -> (j < k)%nat -> 0 <= F i j) /\ (forall i, (i < k)%nat -> 0 < rate k F i /\ rate k F i <= 1).
(** Masses with a positive total. *)
Definition masses (k : nat) (m : nat -> Q) : Prop := (forall i, (i < k)%nat -> 0 <= m i) /\ 0 < over k m.
