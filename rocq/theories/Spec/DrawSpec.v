(** Uniform draws as a generator with finitely many outcomes makes them (no reference to the model). *)
From Coq Require Import List Arith QArith.
Import ListNotations.
From Verif Require Import Prelude.QBase.
Open Scope Q_scope.

(** Every point equally likely. *)
Definition equally {X : Type} (pts : list X) : list (Q * X) := map (fun x => (1 / Qnat (length pts), x)) pts.
(** A unit draw with resolution G: 0, 1/G, ..., (G-1)/G (G is 2^53 for the generator of numpy). *)
Definition unit_grid (G : nat) : list Q := map (fun k => Qnat k / Qnat G) (seq 0 G).
(** The points that independent uniform draws of this resolution reach in the box [a, b]. *)
Fixpoint box_grid (G : nat) (a b : list Q) : list (list Q) :=
  match a, b with
  | lo :: a', hi :: b' => flat_map (fun u => map (cons (lo + (hi - lo) * u)) (box_grid G a' b')) (unit_grid G)
  | _, _ => [[]]
  end.
Definition average {X : Type} (pts : list X) (f : X -> Q) : Q := Qsum (map f pts) / Qnat (length pts).
Definition sq (x : Q) : Q := x * x.
