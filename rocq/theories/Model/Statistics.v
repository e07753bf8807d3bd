(** Model of ais_benchmarks/metrics/statistics.py. *)
From Coq Require Import List Bool Arith QArith.
Import ListNotations.
From Verif Require Import Prelude.Py Prelude.QBase.
Open Scope Q_scope.

(** statistics.py:40-41: x / sum(x) entrywise, numpy division. *)
Definition normalise (p : list Q) : list (fl Q) := map (fun a => fdivQ a (Qsum p)) p.

(** statistics.py:43-44: sum(samples * prob, axis 0), one coordinate at a time; column j. *)
Definition fmulQ (x : Q) (y : fl Q) : fl Q :=
  match y with
  | Fin b => Fin (x * b)
  | NaN => NaN
  | PInf => if Qeq_bool x 0 then NaN else if Qltb 0 x then PInf else NInf
  | NInf => if Qeq_bool x 0 then NaN else if Qltb 0 x then NInf else PInf
  end.
Definition ev_coord (samples : list vec) (prob : list (fl Q)) (j : nat) : fl Q :=
  fsumQ (map2 (fun x p => fmulQ (nth j x 0) p) samples prob).

(** statistics.py:45: inner product of the difference with itself; [d] is the dimension. *)
Definition fsq (x : fl Q) : fl Q := match x with Fin a => Fin (a * a) | NaN => NaN | _ => PInf end.

(** statistics.py:37-47 compute_from_samples; [p], [q] are the density values at the samples. *)
Definition evmse (d : nat) (samples : list vec) (p q : list Q) : fl Q :=
  fsumQ (map (fun j => fsq (fsubQ (ev_coord samples (normalise p) j)
                                  (ev_coord samples (normalise q) j))) (seq 0 d)).
