(** Python-level results: exceptions as values, loop outcomes, IEEE special values.
    Not a model of any file in /repo; used by all model files. *)
From Coq Require Import List.
Import ListNotations.

(** Exception classes that the modelled code can raise. *)
Inductive exn : Type :=
| ValueError | IndexError | TypeError | NameError | AssertionError | RecursionError
| TimeoutError | ZeroDivisionError | AttributeError | KeyError | UnboundLocalError
| AxisError | NotImplementedError | OverflowError | PlainException.

(** Result of a Python call: a value, or a raised exception. *)
Inductive res (A : Type) : Type :=
| Ok (a : A)
| Raise (e : exn).
Arguments Ok {A} a.
Arguments Raise {A} e.

Definition bind {A B : Type} (x : res A) (f : A -> res B) : res B :=
  match x with Ok a => f a | Raise e => Raise e end.

Declare Scope py_scope.
Delimit Scope py_scope with py.
Notation "'let*' x ':=' a 'in' b" := (bind a (fun x => b))
  (at level 200, x pattern, a at level 100, b at level 200) : py_scope.

(** Outcome of a method call that contains [while] loops driven by a tape of external
    events. [Done s]: the call returned, the object is now in state [s].
    [Running s]: the tape ended while a loop condition still held.
    [Failed e s]: exception [e] was raised, leaving the object in state [s]. *)
Inductive outcome (S : Type) : Type :=
| Done (s : S)
| Running (s : S)
| Failed (e : exn) (s : S).
Arguments Done {S} s.
Arguments Running {S} s.
Arguments Failed {S} e s.

(** The state in which an outcome leaves the object. *)
Definition out_state {S : Type} (o : outcome S) : S :=
  match o with Done s => s | Running s => s | Failed _ s => s end.

(** A floating point value: finite (exact, no rounding), infinities, or not-a-number. *)
Inductive fl (A : Type) : Type :=
| Fin (a : A)
| PInf
| NInf
| NaN.
Arguments Fin {A} a.
Arguments PInf {A}.
Arguments NInf {A}.
Arguments NaN {A}.
