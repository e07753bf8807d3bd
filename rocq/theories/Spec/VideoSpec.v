(** Pictures. *)
From Coq Require Import Arith.

(** Two pictures, given by width, height and the colour in column x of row y, are the same. *)
Definition same_picture {C : Type} (w h : nat) (f : nat -> nat -> C) (w' h' : nat) (f' : nat -> nat -> C) : Prop :=
  w = w' /\ h = h' /\ forall x y, x < w -> y < h -> f x y = f' x y.
