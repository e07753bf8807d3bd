(** Which evaluations two lists ask for (no reference to the model). *)
From Coq Require Import List Arith.
Import ListNotations.

(** The evaluations [js] are all pairs of a target and a method, targets in the outer order. *)
Definition all_pairs {T M J : Type} (ts : list T) (ms : list M) (job : T -> M -> J -> Prop) (js : list J) : Prop :=
  length js = length ts * length ms /\
  forall i k t m, nth_error ts i = Some t -> nth_error ms k = Some m ->
    exists j, nth_error js (i * length ms + k) = Some j /\ job t m j.
