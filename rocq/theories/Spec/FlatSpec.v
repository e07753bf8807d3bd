(** Densities that are constant on a box. *)
From Coq Require Import List QArith.
Import ListNotations.
From Verif Require Import Prelude.Py Spec.Box.
Open Scope Q_scope.

(** [flat lo hi c pi]: the density has the value c everywhere in the box (nothing is said about the outside). *)
Definition flat (lo hi : list Q) (c : Q) (pi : list Q -> Q) : Prop := forall x, in_box lo hi x -> pi x == c.
(** The same for a log density; outside the box it is minus infinity or at most c. *)
Definition flat_log (lo hi : list Q) (c : Q) (lp : list Q -> fl Q) : Prop :=
  (forall x, in_box lo hi x -> exists v, lp x = Fin v /\ v == c) /\
  (forall x, ~ in_box lo hi x -> lp x = NInf \/ exists v, lp x = Fin v /\ v <= c).
(** A number forced into [l, h]. *)
Definition forced (l h a b : Q) : Prop := (a < l -> b == l) /\ (h < a -> b == h) /\ (l <= a -> a <= h -> b == a).
(** [moved lo hi x d y]: y is x + d, every coordinate forced into the box. *)
Fixpoint moved (lo hi x d y : list Q) : Prop :=
  match lo, hi, x, d, y with
  | [], [], [], [], [] => True
  | l :: lo', h :: hi', a :: x', e :: d', b :: y' => forced l h (a + e) b /\ moved lo' hi' x' d' y'
  | _, _, _, _, _ => False
  end.
(** [walked lo hi x ds y]: y is reached from x by the displacements ds, none of them refused. *)
Inductive walked (lo hi : list Q) : list Q -> list (list Q) -> list Q -> Prop :=
| walked_nil x : walked lo hi x [] x
| walked_cons x d y ds z : moved lo hi x d y -> walked lo hi y ds z -> walked lo hi x (d :: ds) z.
