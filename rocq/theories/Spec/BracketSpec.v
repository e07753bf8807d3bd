(** Well-bracketed use of a pre/post metric: which (start, end) readings a history contains. *)
From Coq Require Import List QArith.
Import ListNotations.
From Verif Require Import Model.Performance.

(** Readings may be taken (MCompute) at any moment; every pre is closed by a post. *)
Inductive bracketed : list mop -> list (Q * Q) -> Prop :=
| br_nil : bracketed [] []
| br_compute ops ps : bracketed ops ps -> bracketed (MCompute :: ops) ps
| br_pair a b k ops ps : bracketed ops ps ->
    bracketed (MPre a :: repeat MCompute k ++ MPost b :: ops) ((a, b) :: ps).
