(** Partitions of the positions 0..n-1 given by boolean masks (independent of the model). *)
From Coq Require Import List Arith.
Import ListNotations.

Definition member (m : list bool) (i : nat) : Prop := nth i m false = true.
Definition partitions (n : nat) (masks : list (list bool)) : Prop :=
  masks <> [] /\
  (forall m, In m masks -> length m = n /\ exists i, i < n /\ member m i) /\
  (forall i, i < n -> exists j, j < length masks /\ member (nth j masks []) i /\
     forall j', j' < length masks -> member (nth j' masks []) i -> j' = j).
