(** Independent description of a Metropolis-Hastings move (no reference to the model). *)
From Coq Require Import QArith.
Open Scope Q_scope.

(** Acceptance test in log form: log u < log pi(y) + log q(x|y) - (log pi(x) + log q(y|x)). *)
Definition mh_rule (log_u log_pi_x log_pi_y log_q_y_given_x log_q_x_given_y : Q) : Prop :=
  log_u < (log_pi_y + log_q_x_given_y) - (log_pi_x + log_q_y_given_x).
