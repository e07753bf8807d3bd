(** Model of ais_benchmarks/distributions/parametric/CMultivariateDelta.py. *)
From Coq Require Import List Bool Arith QArith Qabs.
Import ListNotations.
From Verif Require Import Prelude.Py Prelude.QBase Model.Shape.
Open Scope Q_scope.

(** np.isclose(a, b) with its default tolerances, for finite numbers (CMultivariateDelta.py:30, 39). *)
Definition isclose (a b : Q) : bool := Qle_bool (Qabs (a - b)) ((1 # 100000000) + (1 # 100000) * Qabs b).

(** CMultivariateDelta.py:30, 39: np.all(np.isclose(self.loc, samples), axis=1) for one row; rows have the width of
    loc after _check_shape. *)
Fixpoint all_close (loc x : list Q) : bool :=
  match loc, x with
  | c :: loc', a :: x' => isclose c a && all_close loc' x'
  | _, _ => true
  end.

(** CMultivariateDelta.py:35-42 prob. *)
Definition delta_prob (loc : list Q) (x : ndarray Q) : res (list (fl Q)) :=
  (let* rows := check_shape (length loc) x in Ok (map (fun r => if all_close loc r then PInf else Fin 0) rows))%py.

(** CMultivariateDelta.py:26-33 log_prob. *)
Definition delta_log_prob (loc : list Q) (x : ndarray Q) : res (list (fl Q)) :=
  (let* rows := check_shape (length loc) x in Ok (map (fun r => if all_close loc r then PInf else NInf) rows))%py.

(** CMultivariateDelta.py:23-24 sample: np.full((n, dims), loc). *)
Definition delta_sample (loc : list Q) (n : nat) : list (list Q) := map (fun _ => loc) (seq 0 n).

(** CMultivariateDelta.py:47-51 integral, for corners of the width of loc. The name [center] of line 49 is bound only by
    the demonstration code below line 63, so the imported module has no such name. *)
Definition delta_integral (a b : list Q) : res Q :=
  if forallb (fun ab => Qltb (fst ab) (snd ab)) (combine a b) then Raise NameError else Raise AssertionError.
