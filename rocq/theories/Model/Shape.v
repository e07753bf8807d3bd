(** Model of CDistribution._check_shape, ais_benchmarks/distributions/distributions.py. *)
From Coq Require Import List Bool Arith.
Import ListNotations.
From Verif Require Import Prelude.Py.

(** A numpy array passed to a density query: a vector, an n x width array (its rows), or an array with
    another number of axes. *)
Inductive ndarray (X : Type) : Type :=
| Arr1 (v : list X)
| Arr2 (width : nat) (rows : list (list X))
| ArrN (ndim : nat).
Arguments Arr1 {X} v.
Arguments Arr2 {X} width rows.
Arguments ArrN {X} ndim.

(** distributions.py:128-147 _check_shape: the rows of the accepted batch. [x[0]] of an empty batch is
    an IndexError (line 141). *)
Definition check_shape {X : Type} (dims : nat) (x : ndarray X) : res (list (list X)) :=
  match x with
  | Arr1 v => if (length v =? dims)%nat then Ok [v] else Raise ValueError
  | Arr2 _ [] => Raise IndexError
  | Arr2 w rows => if (w =? dims)%nat then Ok rows else Raise ValueError
  | ArrN _ => Raise ValueError
  end.
