(** Properties C25-C28: rejection sampling. *)
From Coq Require Import List Bool Arith QArith.
Import ListNotations.
From Verif Require Import Prelude.Py Prelude.QBase Model.Base Model.Rejection Spec.RejectionSpec
  Proofs.RejectionProofs Proofs.RejectionEffort Proofs.RejectionWitness.
Open Scope Q_scope.

(** C25. A call that returns keeps the earlier samples in order, never exceeds the request, fills it
    exactly when no clock reading reached the timeout, and gives every sample weight 1/len. *)
Theorem C25_rejection_request :
  forall P target n timeout e0 tape pick c c',
    (forall x, 0 <= rj_q P x * rj_scaling P) ->
    rej_reachable P c ->
    rej_importance_sample P target n timeout e0 tape pick c = Done c' ->
    (exists added, samples c' = samples c ++ added) /\
    (length (samples c') <= Nat.max n (length (samples c)))%nat /\
    (e0 < timeout -> (forall r, In r tape -> rr_clock r < timeout) ->
       length (samples c') = Nat.max n (length (samples c))) /\
    weights c' = repeat (1 / Qnat (length (samples c'))) (length (samples c')) /\
    Qsum (weights c') == 1.
Proof. exact rej_request. Qed.
Print Assumptions C25_rejection_request.

(** C25. The call does not go on once the clock has passed the timeout. *)
Theorem C25_rejection_terminates :
  forall P target n timeout e0 tape pick c,
    (exists r, In r tape /\ timeout <= rr_clock r) ->
    forall c', rej_importance_sample P target n timeout e0 tape pick c <> Running c'.
Proof. exact rej_terminates. Qed.
Print Assumptions C25_rejection_terminates.

(** Two calls: 2 then 3 samples, with two rounds in the first one; all hypotheses hold. *)
Example C25_rejection_example :
  (forall x, 0 <= rj_q exP x * rj_scaling exP) /\
  rej_reachable exP ex_c1 /\ length (samples ex_c1) = 2%nat /\
  rej_importance_sample exP ex_target 3 60 0 [ex_r1; ex_r2] (fun i => i) ex_c1 = Done ex_c2 /\
  length (samples ex_c2) = 3%nat.
Proof. exact ex_request. Qed.

Example C25_rejection_terminates_example :
  exists r, In r [ex_r1; ex_late] /\ 60 <= rr_clock r.
Proof. exact ex_terminates. Qed.

(** C26. The samples after a call are exactly those of the textbook procedure: in each round the
    missing number of points is drawn, x is kept iff u * (scaling * q(x)) < target(x). *)
Theorem C26_rejection_rule :
  forall P target n timeout e0 tape pick c c',
    (forall x, 0 <= rj_q P x * rj_scaling P) ->
    rej_importance_sample P target n timeout e0 tape pick c = Done c' ->
    exists used rest, tape = used ++ rest /\
      samples c' = held_after target (fun x => rj_q P x * rj_scaling P) n (samples c)
                     (map (fun r => (rr_draw r, rr_u r)) used).
Proof. exact rej_rule. Qed.
Print Assumptions C26_rejection_rule.

(** C26. A point of zero target density is never added. *)
Theorem C26_rejection_positive :
  forall P target n timeout e0 tape pick c c',
    (forall x, 0 <= rj_q P x * rj_scaling P) ->
    (forall r i, In r tape -> 0 <= rr_u r i) ->
    rej_importance_sample P target n timeout e0 tape pick c = Done c' ->
    forall x, In x (samples c') -> In x (samples c) \/ 0 < target x.
Proof. exact rej_positive. Qed.
Print Assumptions C26_rejection_positive.

(** One accepted and one refused point in the first round. *)
Example C26_rejection_example :
  rej_importance_sample exP ex_target 2 60 0 [ex_r1; ex_r2] (fun i => i) core_init = Done ex_c1 /\
  rr_draw ex_r1 1%nat = [1#8] /\ ~ In [1#8] (samples ex_c1) /\ In (rr_draw ex_r1 0%nat) (samples ex_c1).
Proof. exact ex_rule. Qed.

(** C27 (full statement: the three counters equal the number of points drawn/evaluated) is false. *)
Theorem C27_rejection_counters_exact_refuted :
  exists P c, (forall x, 0 <= rj_q P x * rj_scaling P) /\ rej_reachable P c /\
    num_pi_evals c <> length (ghost_drawn c) /\ num_q_samples c <> length (ghost_drawn c).
Proof. exact ex_counters. Qed.
Print Assumptions C27_rejection_counters_exact_refuted.

(** C27, part that holds: the counters never under-report, and both evaluation counters agree. *)
Theorem C27_rejection_counters_partial :
  forall P c, rej_reachable P c ->
    num_q_evals c = num_pi_evals c /\ (num_pi_evals c <= num_q_samples c)%nat /\
    (length (ghost_drawn c) <= num_pi_evals c)%nat /\
    (length (samples c) <= length (ghost_drawn c))%nat.
Proof. exact rej_counters. Qed.
Print Assumptions C27_rejection_counters_partial.

(** C27, part that holds: each round of a call adds the requested number n to every counter,
    whatever the number of points still missing. *)
Theorem C27_rejection_counter_law_partial :
  forall P target n timeout e0 tape pick c c',
    (forall x, 0 <= rj_q P x * rj_scaling P) ->
    rej_importance_sample P target n timeout e0 tape pick c = Done c' ->
    exists used rest, tape = used ++ rest /\
      samples c' = held_after target (fun x => rj_q P x * rj_scaling P) n (samples c)
                     (map (fun r => (rr_draw r, rr_u r)) used) /\
      num_q_samples c' = (num_q_samples c + length used * n)%nat /\
      num_q_evals c' = (num_q_evals c + length used * n)%nat /\
      num_pi_evals c' = (num_pi_evals c + length used * n)%nat.
Proof. exact rej_counter_law. Qed.
Print Assumptions C27_rejection_counter_law_partial.

(** C27, part that holds: over every history since the last reset, the evaluation counters are the rounds run times
    the request of their call, and the sample counter also has the points returned by sample(). Every reachable
    state has such a history. *)
Theorem C27_rejection_effort_history_partial :
  forall P, (forall x, 0 <= rj_q P x * rj_scaling P) ->
    (forall a b c, rej_worked P a b c ->
       num_q_samples c = (a + b)%nat /\ num_q_evals c = b /\ num_pi_evals c = b) /\
    (forall c, rej_reachable P c -> exists a b, rej_worked P a b c).
Proof. intros P H. split; [exact (rej_worked_counters P H)|exact (reachable_worked P)]. Qed.
Print Assumptions C27_rejection_effort_history_partial.

Example C27_rejection_effort_example : exists c, rej_worked exP 3 4 c /\ num_q_samples c = 7%nat.
Proof.
  eexists. split; [|shelve].
  eapply (rw_sample exP 0 4 ex_c1 (fun i => i) 3).
  - exact (rw_call exP 0 0 core_init (mkRejCall ex_target 2 60 0 [ex_r1; ex_r2] (fun i => i)) ex_c1 (rw_init exP) (or_introl ex_c1_run)).
  - vm_compute. reflexivity.
  Unshelve. reflexivity.
Qed.

(** C27, part that holds: the acceptance rate is a rate. *)
Theorem C27_rejection_acceptance_rate :
  forall P c a, rej_reachable P c -> get_acceptance_rate c = Ok a -> 0 < a <= 1.
Proof. exact rej_acceptance. Qed.
Print Assumptions C27_rejection_acceptance_rate.

Example C27_rejection_acceptance_example :
  rej_reachable exP ex_c1 /\ exists a, get_acceptance_rate ex_c1 = Ok a /\ a == 1#2.
Proof. exact ex_acceptance. Qed.

(** C28 (full statement: every call returns) is false: time runs out before the first acceptance. *)
Theorem C28_rejection_returns_refuted :
  exists P target n timeout e0 tape pick,
    (forall x, 0 <= rj_q P x * rj_scaling P) /\ (0 < rj_kde P)%nat /\ (0 < n)%nat /\ 0 < timeout /\
    (exists x, 0 < target x) /\
    exists c', rej_importance_sample P target n timeout e0 tape pick core_init = Failed ValueError c'.
Proof. exact ex_fails. Qed.
Print Assumptions C28_rejection_returns_refuted.

(** C28, part that holds: with a sample already held, or one accepted in the first round, no
    exception is raised. *)
Theorem C28_rejection_returns_partial :
  forall P target n timeout e0 tape pick c,
    (forall x, 0 <= rj_q P x * rj_scaling P) ->
    (0 < rj_kde P)%nat ->
    (samples c <> [] \/
     (exists r i, head tape = Some r /\ e0 < timeout /\ (i < n - length (samples c))%nat /\
        keeps target (fun x => rj_q P x * rj_scaling P) (rr_draw r i) (rr_u r i))) ->
    forall e c', rej_importance_sample P target n timeout e0 tape pick c <> Failed e c'.
Proof. exact rej_returns. Qed.
Print Assumptions C28_rejection_returns_partial.

Example C28_rejection_returns_example :
  samples ex_c1 <> [] /\
  (exists r i, head [ex_r1; ex_r2] = Some r /\ 0 < 60 /\ (i < 2 - length (samples core_init))%nat /\
     keeps ex_target (fun x => rj_q exP x * rj_scaling exP) (rr_draw r i) (rr_u r i)).
Proof. exact ex_returns. Qed.
