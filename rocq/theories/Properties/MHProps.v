(** Properties C29-C32, C66 and the Metropolis-Hastings part of C64. *)
From Coq Require Import List Bool Arith QArith.
Import ListNotations.
From Verif Require Import Prelude.Py Prelude.QBase Model.Base Model.MetropolisHastings
  Spec.Box Spec.MHSpec Proofs.MHProofs Proofs.MHBook Proofs.MHLabels Proofs.MHWitness.
Open Scope Q_scope.

(** C29. In every history, and at every moment of the next operation [o], all visited points and all
    returned samples are inside the space, although the first state [x0] need not be. [op_ok] only
    says that the drawn displacements have the dimension of the space. *)
Theorem C29_mh_confined :
  forall P, is_box (mh_lo P) (mh_hi P) ->
  forall x0 ops s o,
    length x0 = length (mh_lo P) -> Forall (op_ok P) (o :: ops) -> mh_reachable P x0 ops s ->
    Forall (in_box (mh_lo P) (mh_hi P)) (mh_traj (out_state (mh_run P o s))) /\
    Forall (in_box (mh_lo P) (mh_hi P)) (samples (mh_core (out_state (mh_run P o s)))).
Proof. exact confined_everywhere. Qed.
Print Assumptions C29_mh_confined.

(** C29. The rows returned by sample(n) are inside the space. *)
Theorem C29_mh_sample_confined :
  forall P, is_box (mh_lo P) (mh_hi P) ->
  forall x0 ops s lp timeout n tape,
    length x0 = length (mh_lo P) -> Forall (op_ok P) ops -> steps_ok P tape -> mh_reachable P x0 ops s ->
    Forall (in_box (mh_lo P) (mh_hi P)) (snd (fst (mh_sample P lp timeout n tape s))).
Proof. exact sample_rows_confined. Qed.
Print Assumptions C29_mh_sample_confined.

Example C29_mh_confined_example :
  is_box (mh_lo wP) (mh_hi wP) /\ length wx0 = length (mh_lo wP) /\
  Forall (op_ok wP) [wop; wop] /\ mh_reachable wP wx0 [wop] ws1 /\
  length (mh_traj ws1) = 6%nat /\ length (samples (mh_core ws1)) = 2%nat.
Proof. exact confined_example. Qed.

(** C30. Labels, trajectory and counters agree at every moment of every history. *)
Theorem C30_mh_bookkeeping :
  forall P x0 ops s o, mh_reachable P x0 ops s ->
    let s' := out_state (mh_run P o s) in
    length (mh_types s') = length (mh_traj s') /\
    num_q_samples (mh_core s') = length (mh_traj s') /\
    num_pi_evals (mh_core s') = (2 * length (mh_traj s'))%nat /\
    num_q_evals (mh_core s') = (2 * length (mh_traj s'))%nat.
Proof. exact book_everywhere. Qed.
Print Assumptions C30_mh_bookkeeping.

(** C30. With at least one step per sample, steps started before the time limit, and no direct
    calls of sample() (whose rows are returned but not held), the points labelled SAMPLE are as many
    as the samples held ([op_timely]). *)
Theorem C30_mh_sample_labels :
  forall P, mh_steps P <> O ->
  forall x0 ops s, Forall op_timely ops -> mh_reachable P x0 ops s ->
    length (filter is_sample (mh_types s)) = length (samples (mh_core s)).
Proof. exact labelled_reachable. Qed.
Print Assumptions C30_mh_sample_labels.

Example C30_mh_labels_example :
  mh_steps wP <> O /\ Forall op_timely [wop] /\ mh_reachable wP wx0 [wop] ws1 /\
  mh_types ws1 = [BURN_IN; REJECT; SAMPLE; REJECT; REJECT; SAMPLE].
Proof. exact labels_example. Qed.

(** C31 (full statement: sample(n) returns n rows) is false. *)
Theorem C31_mh_sample_n_refuted :
  exists P lp timeout n tape s s' rows t',
    0 < timeout /\ mh_sample P lp timeout n tape s = (Done s', rows, t') /\ length rows <> n.
Proof. exact sample_n_refuted. Qed.
Print Assumptions C31_mh_sample_n_refuted.

(** C31, what holds: sample(n) returns n*n rows (so n rows only for n = 0 and n = 1). *)
Theorem C31_mh_sample_rows_partial :
  forall P lp timeout n tape s s' rows t',
    mh_sample P lp timeout n tape s = (Done s', rows, t') -> length rows = (n * n)%nat.
Proof. exact sample_rows. Qed.
Print Assumptions C31_mh_sample_rows_partial.

(** C32 (full statement: the state after a step passed the acceptance test) is false: when the time
    limit expires the last refused proposal becomes the state. *)
Theorem C32_mh_moves_accepted_refuted :
  exists P lp timeout tape x s x' s',
    0 < timeout /\ mcmc_step P lp timeout tape x s = SDone x' s' /\
    (forall a, In a tape -> mh_accept P lp x x' a = false) /\ x' <> x.
Proof. exact timed_out_move_refuted. Qed.
Print Assumptions C32_mh_moves_accepted_refuted.

(** C32, what holds: if no clock reading reaches the limit, the new state is the first proposal of
    the sequence that passes the test, all earlier ones having failed it. *)
Theorem C32_mh_moves_accepted_partial :
  forall P lp timeout tape x s x' s',
    0 < timeout -> (forall a, In a tape -> at_clock a < timeout) ->
    mcmc_step P lp timeout tape x s = SDone x' s' ->
    exists rej a rest, tape = rej ++ a :: rest /\
      x' = vclip (vadd x (at_delta a)) (mh_lo P) (mh_hi P) /\
      mh_accept P lp x x' a = true /\
      Forall (fun b => mh_accept P lp x (vclip (vadd x (at_delta b)) (mh_lo P) (mh_hi P)) b = false) rej.
Proof. exact step_accepted. Qed.
Print Assumptions C32_mh_moves_accepted_partial.

(** C32. For finite log densities the test is the Metropolis-Hastings rule, with the density of the
    displacement y - x as q(y|x). *)
Theorem C32_mh_acceptance_rule :
  forall P lp x y a lu px py fw bw,
    at_logu a = Fin lu -> lp x = Fin px -> lp y = Fin py ->
    mh_lq P (vsub y x) = Fin fw -> mh_lq P (vsub x y) = Fin bw ->
    mh_accept P lp x y a = true <-> mh_rule lu px py fw bw.
Proof. exact accept_rule. Qed.
Print Assumptions C32_mh_acceptance_rule.

(** C32. A proposal of zero target density is never accepted. *)
Theorem C32_mh_zero_density_rejected :
  forall P lp x y a fw bw,
    lp y = NInf -> mh_lq P (vsub y x) = Fin fw -> mh_lq P (vsub x y) = Fin bw ->
    mh_accept P lp x y a = false.
Proof. exact accept_zero_density. Qed.
Print Assumptions C32_mh_zero_density_rejected.

Example C32_mh_step_example :
  0 < 60 /\ (forall a, In a [down; up] -> at_clock a < 60) /\
  exists x' s', mcmc_step wP wlp 60 [down; up] [1#2; 1] (mh_new [1#2; 1]) = SDone x' s' /\
    x' = [clip1 (Qplus (1#2) (1#2)) 0 1; clip1 (Qplus 1 5) 0 2].
Proof. exact step_example. Qed.

Example C32_mh_rule_example :
  at_logu up = Fin (-1) /\ wlp [1#2; 1] = Fin (4 * (1#2)) /\ wlp [1; 2] = Fin (4 * 1) /\
  mh_lq wP (vsub [1; 2] [1#2; 1]) = Fin 0 /\ mh_rule (-1) (4 * (1#2)) (4 * 1) 0 0.
Proof. exact rule_example. Qed.

(** C66. importance_sample keeps earlier samples, never exceeds the request, fills it exactly when
    the clock stays below the limit, and returns equal weights summing to one. *)
Theorem C66_mh_request :
  forall P lp n timeout tape pick s s',
    mh_importance_sample P lp n timeout tape pick s = Done s' ->
    (exists added, samples (mh_core s') = samples (mh_core s) ++ added) /\
    (length (samples (mh_core s')) <= Nat.max n (length (samples (mh_core s))))%nat /\
    (0 < timeout -> (forall e, In e tape -> ie_clock e < timeout) ->
      length (samples (mh_core s')) = Nat.max n (length (samples (mh_core s)))) /\
    weights (mh_core s') = repeat (1 / Qnat (length (samples (mh_core s')))) (length (samples (mh_core s'))) /\
    Qsum (weights (mh_core s')) == 1.
Proof. exact is_request. Qed.
Print Assumptions C66_mh_request.

Example C66_mh_request_example :
  mh_importance_sample wP wlp 2 60 [mkIs wsteps1 1; mkIs wsteps2 2] (fun i => i) (mh_new wx0) = Done ws1 /\
  0 < 60 /\ (forall e, In e [mkIs wsteps1 1; mkIs wsteps2 2] -> ie_clock e < 60).
Proof. exact is_example. Qed.

(** C64 for Metropolis-Hastings (full statement: after reset the object behaves as newly
    constructed) is false: the chain position survives. *)
Theorem C64_mh_reset_refuted :
  exists P x0 ops s1 lp timeout n tape pick r1 r2,
    mh_reachable P x0 ops s1 /\
    mh_importance_sample P lp n timeout tape pick (mh_reset s1) = Done r1 /\
    mh_importance_sample P lp n timeout tape pick (mh_new x0) = Done r2 /\
    samples (mh_core r1) <> samples (mh_core r2).
Proof. exact reset_refuted. Qed.
Print Assumptions C64_mh_reset_refuted.
