(** Model of the benchmark densities d03_maxwell.py, d04_laplace.py and d10_symmetric_pareto.py in
    ais_benchmarks/distributions/benchden. *)
From Coq Require Import List Bool Arith Reals.
Import ListNotations.
From Verif Require Import Prelude.Py Prelude.RBase Model.Shape Model.Exponential.
Open Scope R_scope.

(** samples.reshape(len, dims, 1) with dims = 1 (d03_maxwell.py:30-35, d04_laplace.py:30-35): one number
    per row; an empty batch of any width is accepted. *)
Definition reshape1 (x : ndarray R) : res (list R) :=
  match x with
  | Arr1 [a] => Ok [a]
  | Arr1 _ => Raise ValueError
  | Arr2 _ [] => Ok []
  | Arr2 1 rows => Ok (map (fun r => nth 0 r 0) rows)
  | Arr2 _ _ => Raise ValueError
  | ArrN _ => Raise ValueError
  end.

(** d03_maxwell.py:29-43 log_prob. *)
Definition maxwell_log_prob (x : ndarray R) : res (list R) :=
  bind (reshape1 x) (fun vs => Ok (map (fun a => if Rltb 0 a then ln a - a * a / 2 else 0) vs)).

(** d03_maxwell.py:45-49 prob. Arrays with three or more axes fail (error not distinguished). *)
Definition maxwell_prob (x : ndarray R) : res (list R) :=
  match x with
  | Arr1 _ => Raise AxisError
  | ArrN _ => Raise ValueError
  | Arr2 w rows =>
      bind (maxwell_log_prob (Arr2 w (filter positive_row rows))) (fun ls =>
      Ok (scatter (map positive_row rows) (map exp ls)))
  end.

(** d04_laplace.py:29-42: the results form an n x 1 array, one entry per row. *)
Definition laplace_log_prob (x : ndarray R) : res (list (list R)) :=
  bind (reshape1 x) (fun vs => Ok (map (fun a => [ln (1 / 2) - Rabs a]) vs)).
Definition laplace_prob (x : ndarray R) : res (list (list R)) :=
  bind (laplace_log_prob x) (fun ls => Ok (map (map exp) ls)).

(** d10_symmetric_pareto.py:32-35 prob and 29-30 log_prob (dims = 1). *)
Definition pareto_prob (x : ndarray R) : res (list R) :=
  bind (check_shape 1 x) (fun rows =>
  Ok (concat (map (map (fun a => 1 / (4 * Rpower (1 + Rabs a) (3 / 2)))) rows))).
Definition pareto_log_prob (x : ndarray R) : res (list (fl R)) :=
  bind (pareto_prob x) (fun ps => Ok (map (fun p => fln (Fin p)) ps)).
