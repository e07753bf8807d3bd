(** Families of boxes that cut up a box without overlap (independent of the model). A box is open below and closed above. *)
From Coq Require Import List QArith.
Import ListNotations.
From Verif Require Import Spec.UniformSpec.
Open Scope Q_scope.

Definition inside (b : list Q * list Q) (x : list Q) : Prop := half_open (fst b) (snd b) x.
Definition box_volume (b : list Q * list Q) : Q := volume (fst b) (snd b).
Definition sum_over {I : Type} (f : I -> Q) (ids : list I) : Q := fold_right (fun i v => f i + v) 0 ids.

(** Every point of the whole lies in exactly one box, no box leaves it, none is empty, and the volumes add up. *)
Definition cuts_up {I : Type} (ids : list I) (box : I -> list Q * list Q) (whole : list Q * list Q) : Prop :=
  NoDup ids /\
  (forall x, inside whole x <-> exists i, In i ids /\ inside (box i) x) /\
  (forall i j x, In i ids -> In j ids -> inside (box i) x -> inside (box j) x -> i = j) /\
  (forall i, In i ids -> corners (fst (box i)) (snd (box i))) /\
  sum_over (fun i => box_volume (box i)) ids == box_volume whole.

(** Numbers with a finite binary expansion. *)
Definition dyadic (z : Q) : Prop := exists (m : Z) (e : nat), z * inject_Z (2 ^ Z.of_nat e) == inject_Z m.
