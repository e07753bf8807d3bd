(** Regularity of functions on a cube and their integrals (independent of the model). *)
From Coq Require Import List QArith Qabs Reals Qreals.
Import ListNotations.
From Verif Require Import Spec.TreeSpec.

(** Moving every coordinate by at most [h] inside the cube changes the value by at most [L * h]. *)
Definition lipschitz (f : list Q -> Q) (whole : cell) (L : Q) : Prop :=
  (0 <= L /\ forall x y h, in_closed whole x -> in_closed whole y -> (forall j, Qabs (nth j x 0 - nth j y 0) <= h) -> Qabs (f x - f y) <= L * h)%Q.

(** [J] is the integral of [f] over the cube: it lies between the lower and the upper sum of every partition into cubes. *)
Definition is_integral (f : list Q -> Q) (whole : cell) (J : R) : Prop :=
  forall l : list (cell * (Q * Q)), tiles (map fst l) whole ->
  (forall c a b, In (c, (a, b)) l -> 0 < snd c /\ forall x, in_closed c x -> a <= f x /\ f x <= b)%Q ->
  (Q2R (mass (map (fun e => (fst e, fst (snd e))) l)) <= J <= Q2R (mass (map (fun e => (fst e, snd (snd e))) l)))%R.

(** Sum of [w * g x] over weighted points. *)
Definition weighted_sum (g : list Q -> Q) (l : list (list Q * Q)) : Q := fold_right (fun xw s => snd xw * g (fst xw) + s)%Q 0%Q l.
