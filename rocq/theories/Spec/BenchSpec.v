(** Vocabulary for the calls made by one repetition of a benchmark: (request, timeout, length returned).
    Independent of the model. *)
From Coq Require Import List Arith QArith.
Import ListNotations.

(** Calls whose first request is n and whose later requests exceed the previous result by batch; every
    call gets the whole time limit. *)
Inductive requests : nat -> nat -> Q -> list (nat * Q * nat) -> Prop :=
| req_nil n b t : requests n b t []
| req_cons n b t l cs : requests (l + b) b t cs -> requests n b t ((n, t, l) :: cs).

(** Sample counts that stay below m until the last one, which reaches it. *)
Inductive stops_at (m : nat) : list nat -> Prop :=
| stops_last l : (m <= l)%nat -> stops_at m [l]
| stops_more l ls : (l < m)%nat -> stops_at m ls -> stops_at m (l :: ls).

(** Counts that never decrease, and counts that always increase. *)
Fixpoint nondecreasing (l : list nat) : Prop :=
  match l with
  | a :: ((b :: _) as r) => (a <= b)%nat /\ nondecreasing r
  | _ => True
  end.
Fixpoint increasing (l : list nat) : Prop :=
  match l with
  | a :: ((b :: _) as r) => (a < b)%nat /\ increasing r
  | _ => True
  end.
