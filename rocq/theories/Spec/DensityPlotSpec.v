(** What a picture of a function of two variables shows. *)
From Coq Require Import List QArith.
Import ListNotations.
Open Scope Q_scope.

(** The table [z] has one row for every ordinate and one column for every abscissa, and holds the values of f there. *)
Definition shows {A : Type} (eqv : A -> A -> Prop) (xs ys : list Q) (z : list (list A)) (f : Q -> Q -> A) : Prop :=
  length z = length ys /\ (forall row, In row z -> length row = length xs) /\
  forall i j x y, nth_error ys i = Some y -> nth_error xs j = Some x ->
    exists row v, nth_error z i = Some row /\ nth_error row j = Some v /\ eqv v (f x y).
(** A contour line at height l exists: the function is at most l somewhere and above it somewhere else. *)
Definition crossed (z : list (list Q)) (l : Q) : Prop :=
  (exists row v, In row z /\ In v row /\ v <= l) /\ (exists row v, In row z /\ In v row /\ l < v).
(** Heights in equal steps. *)
Definition equal_steps (ls : list Q) (h : Q) : Prop := forall i a b, nth_error ls i = Some a -> nth_error ls (S i) = Some b -> b == a + h.
