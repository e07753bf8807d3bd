(** Independent description of uniform distributions on boxes (no reference to the model). *)
From Coq Require Import List QArith Qminmax.
Import ListNotations.
Open Scope Q_scope.

(** Centre and radii of a box with positive radii: one radius per dimension, or one for all. *)
Fixpoint radii_ok (center radius : list Q) : Prop :=
  match center, radius with
  | [], [] => True
  | _ :: c, r :: rs => 0 < r /\ radii_ok c rs
  | _, _ => False
  end.
Definition shape_ok (center radius : list Q) : Prop :=
  radii_ok center radius \/ (exists r, radius = [r] /\ 0 < r /\ center <> []).

(** The box [lo, hi] around the centre. *)
Definition corner (op : Q -> Q -> Q) (center radius : list Q) : list Q :=
  match radius with
  | [r] => map (fun c => op c r) center
  | _ => map (fun cr => op (fst cr) (snd cr)) (combine center radius)
  end.

(** Volume of the box [lo, hi], and of what it has in common with [a, b]. *)
Fixpoint volume (lo hi : list Q) : Q :=
  match lo, hi with l :: lo', h :: hi' => (h - l) * volume lo' hi' | _, _ => 1 end.
Fixpoint overlap_volume (lo hi a b : list Q) : Q :=
  match lo, hi, a, b with
  | l :: lo', h :: hi', x :: a', y :: b' =>
      Qmax 0 (Qmin y h - Qmax x l) * overlap_volume lo' hi' a' b'
  | _, _, _, _ => 1
  end.

(** Open on the lower faces, closed on the upper ones. *)
Fixpoint half_open (lo hi x : list Q) : Prop :=
  match lo, hi, x with
  | [], [], [] => True
  | l :: lo', h :: hi', a :: x' => l < a /\ a <= h /\ half_open lo' hi' x'
  | _, _, _ => False
  end.
Fixpoint interior (lo hi x : list Q) : Prop :=
  match lo, hi, x with
  | [], [], [] => True
  | l :: lo', h :: hi', a :: x' => l < a /\ a < h /\ interior lo' hi' x'
  | _, _, _ => False
  end.

(** Every coordinate of the query box meets the support. *)
Fixpoint boxes_meet (lo hi a b : list Q) : Prop :=
  match lo, hi, a, b with
  | [], [], [], [] => True
  | l :: lo', h :: hi', x :: a', y :: b' => x <= h /\ l <= y /\ boxes_meet lo' hi' a' b'
  | _, _, _, _ => False
  end.

(** Ordered corners, strictly. *)
Definition corners (a b : list Q) : Prop := Forall2 Qlt a b.
