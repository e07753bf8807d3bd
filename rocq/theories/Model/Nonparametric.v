(** Model of ais_benchmarks/distributions/nonparametric: CNearestNeighbor.py and CKernelDensity.py. *)
From Coq Require Import List Bool Arith QArith Reals Qreals.
Import ListNotations.
From Verif Require Import Prelude.Py Prelude.QBase Model.Base.
Open Scope Q_scope.

(** CNearestNeighbor.py:8-21: the stored samples and weights, and the points the search tree was built from. *)
Record nn := mkNN { nn_dims : nat; nn_samples : list vec; nn_weights : list Q; nn_tree : list vec }.
(** CNearestNeighbor.py:8-21 __init__. Line 21 builds the tree from the name [samples], which is not a local variable:
    [global] is the module's variable of that name. It exists only when the file is run as a program (lines 45-66);
    after an import it does not. Simplified: the assertions on the keys of the dictionary are taken to hold. *)
Definition nn_new (global : option (list vec)) (samples : list vec) (weights : list Q) : res nn :=
  match samples with
  | [] => Raise IndexError
  | x :: _ => match global with None => Raise NameError | Some g => Ok (mkNN (length x) samples weights g) end
  end.

(** scipy.spatial.KDTree.query with k = 1 for one row: the index of a closest point. Simplified: of several closest
    points the first is returned; scipy does not say which one is. *)
Fixpoint closest (g : list vec) (x : vec) : nat :=
  match g with
  | [] => 0
  | [_] => 0
  | a :: r => let k := closest r x in if Qltb (sqdist (nth k r []) x) (sqdist a x) then S k else 0
  end.
(** CNearestNeighbor.py:23-25 log_prob for one row. *)
Definition nn_log_prob (s : nn) (x : vec) : res Q :=
  match nth_error (nn_weights s) (closest (nn_tree s) x) with Some w => Ok w | None => Raise IndexError end.
(** CNearestNeighbor.py:31-32 prob for one row. *)
Definition nn_prob (s : nn) (x : vec) : res R := match nn_log_prob s x with Ok w => Ok (exp (Q2R w)) | Raise e => Raise e end.
(** self.samples[idxs] for an array of non-negative integers. *)
Fixpoint take_rows (l : list vec) (idxs : list nat) : res (list vec) :=
  match idxs with
  | [] => Ok []
  | i :: r => match nth_error l i with
              | None => Raise IndexError
              | Some x => match take_rows l r with Ok xs => Ok (x :: xs) | Raise e => Raise e end
              end
  end.
(** CNearestNeighbor.py:27-29 sample: np.random.multinomial(nsamples, weights) gives, for each weight, how often it was
    drawn; [counts] is what it gave. *)
Definition nn_sample (s : nn) (counts : list nat) : res (list vec) := take_rows (nn_samples s) counts.

(** CKernelDensity.py:8-36 __init__ with fit: line 35 calls CMixtureModel, whose constructor has one parameter, with two.
    Simplified: the assertions on the keys of the dictionary are taken to hold. *)
Definition kde_new (samples : list vec) (weights : list Q) (callable : bool) : res (list (vec * Q)) :=
  match samples with
  | [] => Raise IndexError
  | _ => if callable then Raise TypeError else Raise AssertionError
  end.
