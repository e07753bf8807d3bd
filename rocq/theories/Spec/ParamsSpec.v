(** What a user can observe of a distribution object, and when editing or reusing the parameters it was built from shows.
    Independent of the model. *)
From Coq Require Import List Reals.
Import ListNotations.
From Verif Require Import Prelude.Py.
Open Scope R_scope.

(** Dimension, support, density at every point, arrays the draws are made with. *)
Record behaviour : Type := mkBehaviour { b_dims : nat; b_support : list (list R); b_density : list R -> fl R; b_draws : list (list R) * list (list R) }.
Definition same_density_and_draws (a b : behaviour) : Prop :=
  b_dims a = b_dims b /\ (forall x, b_density a x = b_density b x) /\ b_draws a = b_draws b.
Definition same_behaviour (a b : behaviour) : Prop := same_density_and_draws a b /\ b_support a = b_support b.

(** Two states of the arrays that differ at most in the first [n] ones: those that existed when there were [n] arrays. *)
Definition differ_below {A : Type} (n : nat) (h g : list A) : Prop :=
  length g = length h /\ forall a, (n <= a)%nat -> nth_error g a = nth_error h a.

(** Volume of a box. *)
Fixpoint box_volume (lo hi : list R) : R :=
  match lo, hi with a :: lo', b :: hi' => (b - a) * box_volume lo' hi' | _, _ => 1 end.
(** A point within the bounds. *)
Definition within (lo hi x : list R) : Prop :=
  length x = length lo /\ length x = length hi /\ forall i, (i < length x)%nat -> nth i lo 0 <= nth i x 0 <= nth i hi 0.
(** A point inside a half-open box. *)
Definition inside_box (lo hi x : list R) : Prop :=
  length x = length lo /\ length x = length hi /\ forall i, (i < length x)%nat -> nth i lo 0 < nth i x 0 <= nth i hi 0.
