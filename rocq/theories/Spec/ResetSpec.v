(** Later lives of an object: what a sequence of operations can make of it (independent of the samplers). *)
From Coq Require Import List.
Import ListNotations.
From Verif Require Import Prelude.Py.

(** [leads_to run later a b]: the operations [later] (latest first, with a flag that says whether each returned or
    raised an exception the caller caught) take the object from state a to state b. *)
Inductive leads_to {Op St : Type} (run : Op -> St -> outcome St) (a : St) : list (Op * bool) -> St -> Prop :=
| leads_stay : leads_to run a [] a
| leads_returned o later b c : leads_to run a later b -> run o b = Done c -> leads_to run a ((o, true) :: later) c
| leads_raised o later b e c : leads_to run a later b -> run o b = Failed e c -> leads_to run a ((o, false) :: later) c.
