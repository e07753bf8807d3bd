(** Model of ais_benchmarks/distributions/parametric/CMultivariateExponential.py. *)
From Coq Require Import List Bool Arith Reals.
Import ListNotations.
From Verif Require Import Prelude.Py Prelude.QBase Prelude.RBase Model.Shape.
Open Scope R_scope.

(** CMultivariateExponential.py:24-26: scale = 1 / mean and log_scale = log(scale * e) of one dimension. *)
Definition exp_scale (m : R) : R := 1 / m.
Definition exp_log_scale (m : R) : R := ln (exp_scale m * exp 1).

(** CMultivariateExponential.py:35, 43: np.all(samples > 0) of one row. *)
Definition positive_row (x : list R) : bool := forallb (fun a => Rltb 0 a) x.

(** CMultivariateExponential.py:36-37 for one inlier row. *)
Definition exp_row (mean x : list R) : R := Rsum (map2 (fun m a => - exp_scale m * a * exp_log_scale m) mean x).

(** CMultivariateExponential.py:31-39 log_prob: zero for the rows that are not positive. *)
Definition exp_log_prob (mean : list R) (x : ndarray R) : res (list R) :=
  bind (check_shape (length mean) x) (fun rows =>
  Ok (map (fun r => if positive_row r then exp_row mean r else 0) rows)).

(** res[mask] = vals with res initially zero. *)
Fixpoint scatter (mask : list bool) (vals : list R) : list R :=
  match mask with
  | [] => []
  | true :: m => match vals with v :: vs => v :: scatter m vs | [] => 0 :: scatter m [] end
  | false :: m => 0 :: scatter m vals
  end.

(** CMultivariateExponential.py:41-45 prob. A flat vector fails at np.all(axis=1); arrays with three or
    more axes fail at the masking or in log_prob (which error is not distinguished here). *)
Definition exp_prob (mean : list R) (x : ndarray R) : res (list R) :=
  match x with
  | Arr1 _ => Raise AxisError
  | ArrN _ => Raise ValueError
  | Arr2 w rows =>
      bind (exp_log_prob mean (Arr2 w (filter positive_row rows))) (fun ls =>
      Ok (scatter (map positive_row rows) (map exp ls)))
  end.
