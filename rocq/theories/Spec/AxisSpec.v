(** Plane geometry of an axis with ticks. *)
From Coq Require Import Reals.
Open Scope R_scope.

Definition dist2 (p q : R * R) : R := sqrt ((fst p - fst q) * (fst p - fst q) + (snd p - snd q) * (snd p - snd q)).
Definition middle (l : (R * R) * (R * R)) : R * R := ((fst (fst l) + fst (snd l)) / 2, (snd (fst l) + snd (snd l)) / 2).
(** The point that divides the segment in the ratio s to 1 - s. *)
Definition along (l : (R * R) * (R * R)) (s : R) : R * R :=
  (fst (fst l) + s * (fst (snd l) - fst (fst l)), snd (fst l) + s * (snd (snd l) - snd (fst l))).
Definition perpendicular (l m : (R * R) * (R * R)) : Prop :=
  (fst (snd l) - fst (fst l)) * (fst (snd m) - fst (fst m)) + (snd (snd l) - snd (fst l)) * (snd (snd m) - snd (fst m)) = 0.
(** On which side of the line through l a point lies: positive on the left, negative on the right. *)
Definition side (l : (R * R) * (R * R)) (p : R * R) : R :=
  (fst (snd l) - fst (fst l)) * (snd p - snd (fst l)) - (snd (snd l) - snd (fst l)) * (fst p - fst (fst l)).
