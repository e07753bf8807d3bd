(** Model of ais_benchmarks/distributions/rare/banana2d.py. *)
From Coq Require Import List Bool Arith Reals.
Import ListNotations.
From Verif Require Import Prelude.Py Model.Shape.
Open Scope R_scope.

(** banana2d.py:37-38 logdensity. *)
Definition banana_logdensity (x1 x2 : R) : R :=
  - (5 / 10) * (3 / 100 * x1 * x1 + (x2 + 3 / 100 * (x1 * x1 - 100)) ^ 2).

(** banana2d.py:28-33: the accepted batch as pairs. A vector or an array is reshaped to n x 2 x 1, which needs
    2 n elements; an array without rows has none, whatever its width. *)
Definition banana_rows (x : ndarray R) : res (list (R * R)) :=
  let pair (r : list R) := (nth 0 r 0, nth 1 r 0) in
  match x with
  | Arr1 v => if (length v =? 2)%nat then Ok [pair v] else Raise ValueError
  | Arr2 w rows => if (length rows * w =? length rows * 2)%nat then Ok (map pair rows) else Raise ValueError
  | ArrN _ => Raise ValueError
  end.

(** banana2d.py:27-35 log_prob and 40-41 prob. *)
Definition banana_log_prob (x : ndarray R) : res (list R) :=
  (let* rows := banana_rows x in Ok (map (fun p => banana_logdensity (fst p) (snd p)) rows))%py.
Definition banana_prob (x : ndarray R) : res (list R) :=
  (let* ls := banana_log_prob x in Ok (map exp ls))%py.
