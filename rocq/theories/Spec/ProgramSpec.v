(** The rows of an evaluation. *)
From Coq Require Import List.
Import ListNotations.

(** [evaluated f ts rows err]: the rows of the targets ts in their order, as far as the first one whose evaluation ends with an exception. *)
Inductive evaluated {R E : Type} (f : nat -> list R * option E) : list nat -> list R -> option E -> Prop :=
| eval_end : evaluated f [] [] None
| eval_error t ts rows e : f t = (rows, Some e) -> evaluated f (t :: ts) rows (Some e)
| eval_next t ts rows rest err : f t = (rows, None) -> evaluated f ts rest err -> evaluated f (t :: ts) (rows ++ rest) err.
