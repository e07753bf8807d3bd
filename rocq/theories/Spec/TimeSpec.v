(** Calls with a time limit (no reference to the model). A call repeats turns; every turn r of the tape ends with the reading
    [clock r] of the time since the call began. *)
From Coq Require Import List Arith QArith.
Import ListNotations.
From Verif Require Import Prelude.Py.
Open Scope Q_scope.

(** No turn begins after a reading at or past the limit: what follows that turn on the tape is not used. *)
Definition no_late_work {S R : Type} (clock : R -> Q) (call : Q -> list R -> outcome S) : Prop :=
  forall limit before r after, limit <= clock r ->
  call limit (before ++ r :: after) = call limit (before ++ [r]) /\ forall s, call limit (before ++ [r]) <> Running s.
(** The call gives up before n samples are held only when the limit was passed: by the first reading e0 or after a turn. *)
Definition no_early_stop {S R : Type} (clock : R -> Q) (held : S -> nat) (n : nat) (e0 : Q) (call : Q -> list R -> outcome S) : Prop :=
  forall limit tape s, call limit tape = Done s -> (held s < n)%nat -> limit <= e0 \/ exists r, In r tape /\ limit <= clock r.
