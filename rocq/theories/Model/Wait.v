(** Model of CDistribution.wait_for_ready, ais_benchmarks/distributions/distributions.py. *)
From Coq Require Import List Bool Arith QArith.
Import ListNotations.
From Verif Require Import Prelude.Py Prelude.QBase.
Open Scope Q_scope.

(** How a call ended: with True, with an exception, or not yet (the tape is over). *)
Inductive waited : Type := WTrue | WRaise (e : exn) | WPending.

(** distributions.py:288-294 wait_for_ready. One tape entry per turn of the loop: the clock read by the loop condition
    and the answer of is_ready (asked only if the condition holds). [t0] is the clock at the start of the call. *)
Fixpoint wait_for_ready (timeout t0 : Q) (tape : list (Q * bool)) : waited :=
  match tape with
  | [] => WPending
  | (t, ready) :: tape' =>
      if Qltb (t - t0) timeout then (if ready then WTrue else wait_for_ready timeout t0 tape') else WRaise TimeoutError
  end.

(** CGenericNoisyFunction.py:44-45 wait_for_ready returns None at once; not modelled further. *)
