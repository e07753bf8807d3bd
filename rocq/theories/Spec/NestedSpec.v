(** Prior mass of the shells of nested sampling (independent of the model). *)
From Coq Require Import List Reals.
Import ListNotations.
Open Scope R_scope.

(** Expected prior mass enclosed after i replacements with N live points. *)
Definition enclosed (N i : nat) : R := exp (- (INR i / INR N)).
(** Shell of the i-th recorded likelihood as the sampler uses it. *)
Definition shell (N i : nat) : R := match i with O => 1 | S j => enclosed N j - enclosed N i end.
