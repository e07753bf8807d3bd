(** Independent description of Metropolis-Hastings transitions. *)
From Coq Require Import Reals.
Open Scope R_scope.

(** Acceptance probability of a move from a point of target density [pi_old] to one of density [pi_new],
    [q_taken] being the proposal density of the move and [q_back] that of the reverse move. *)
Definition accept_prob (pi_new pi_old q_back q_taken : R) : R := Rmin 1 ((pi_new * q_back) / (pi_old * q_taken)).
