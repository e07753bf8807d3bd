(** Weighted means of points (independent of the model). *)
From Coq Require Import List QArith.
Import ListNotations.
Open Scope Q_scope.

Fixpoint total_weight (w : list Q) : Q := match w with [] => 0 | a :: r => a + total_weight r end.

(** sum_i w_i * x_i[j] *)
Fixpoint weighted_sum (j : nat) (x : list (list Q)) (w : list Q) : Q :=
  match x, w with
  | p :: x', a :: w' => a * nth j p 0 + weighted_sum j x' w'
  | _, _ => 0
  end.

(** Coordinate j of the weighted mean. *)
Definition weighted_mean (j : nat) (x : list (list Q)) (w : list Q) : Q :=
  weighted_sum j x w / total_weight w.

(** Squared distance of two d-dimensional points given by their coordinates. *)
Fixpoint sq_distance (d : nat) (a b : nat -> Q) : Q :=
  match d with
  | O => 0
  | S k => sq_distance k a b + (a k - b k) * (a k - b k)
  end.
