(** Independent notions about streams of lines (no reference to the model). *)
From Coq Require Import List.
Import ListNotations.

(** The list with the optional element in front. *)
Definition opt_list {A} (o : option A) : list A := match o with Some a => [a] | None => [] end.

(** [l] is obtained from [m] by leaving elements out: order is kept and nothing is repeated. *)
Inductive subsequence {A} : list A -> list A -> Prop :=
| sub_nil m : subsequence [] m
| sub_take a l m : subsequence l m -> subsequence (a :: l) (a :: m)
| sub_skip a l m : subsequence l m -> subsequence l (a :: m).
