(** Property C33: acceptance rule and law of a Metropolis-Hastings step. *)
From Coq Require Import List Bool Arith QArith Reals.
Import ListNotations.
From Verif Require Import Prelude.Py Prelude.QBase Model.Base Model.MetropolisHastings Model.MHLaw
  Spec.MHLawSpec Proofs.MHLawProofs Proofs.MHAcceptProofs.

(** C33. A proposed move is accepted exactly for the draws u below the Metropolis-Hastings probability,
    hence with that probability, also when the target or the way back has density zero. *)
Theorem C33_acceptance_probability : forall pi_new pi_old q_back q_taken u : R,
  (0 <= pi_new -> 0 < pi_old -> 0 <= q_back -> 0 < q_taken -> 0 < u < 1 ->
   (mh_accepted (mh_alpha pi_new pi_old q_back q_taken) u = true <-> u < accept_prob pi_new pi_old q_back q_taken))%R.
Proof. exact acceptance_rule. Qed.
Print Assumptions C33_acceptance_probability.

(** C33 (first half of the property). One attempt is in detailed balance with the target, for every pair of
    states and every proposal. *)
Theorem C33_detailed_balance_partial : forall px py qxy qyx : R,
  (0 <= px -> 0 <= py -> 0 <= qxy -> 0 <= qyx ->
   px * qxy * accept_prob py px qyx qxy = py * qyx * accept_prob px py qxy qyx)%R.
Proof. exact balance. Qed.
Print Assumptions C33_detailed_balance_partial.

Example C33_acceptance_example :
  (mh_accepted (mh_alpha 1 2 1 1) (1/4) = true /\ mh_accepted (mh_alpha 0 2 1 1) (1/4) = false /\
   2 * 1 * accept_prob 1 2 1 1 = 1)%R.
Proof.
  assert (A : accept_prob 1 2 1 1 = (1/2)%R).
  { unfold accept_prob, Rmin. destruct (Rle_dec 1 (1 * 1 / (2 * 1))); Lra.lra. }
  assert (B : accept_prob 0 2 1 1 = 0%R).
  { unfold accept_prob, Rmin. destruct (Rle_dec 1 (0 * 1 / (2 * 1))); Lra.lra. }
  split; [|split].
  - apply acceptance_rule; try Lra.lra.
  - apply not_true_iff_false. rewrite acceptance_rule; Lra.lra.
  - rewrite A. Lra.lra.
Qed.

Open Scope Q_scope.
(** C33. Law of one step of the sampler: attempts are repeated from the same state until one is accepted,
    so the probability of having moved into any set B after at most n attempts is the probability of an
    accepted attempt into B, divided by the probability that an attempt is accepted, times the
    probability that one of the n attempts was accepted. For every law of attempts ([om]: weights summing
    to one), every target, proposal, set B, and clocks below the time limit. *)
Theorem C33_step_law : forall P lp timeout om x s (B : vec -> bool) n,
  Qsum (map fst om) == 1 -> 0 < timeout -> (forall wa, In wa om -> at_clock (snd wa) < timeout) ->
  let into B := Qsum (map (fun wa => let y := mh_propose P x (snd wa) in
                           fst wa * (if mh_accept P lp x y (snd wa) && B y then 1 else 0)) om) in
  step_prob P lp timeout om n x s B * into (fun _ => true)
  == into B * (1 - Qpow (1 - into (fun _ => true)) n).
Proof. intros. now apply step_law. Qed.
Print Assumptions C33_step_law.

(** C33 (second half of the property) is false: rejected attempts are repeated instead of counting as a step, so
    the target is not stationary. Uniform target on 0, 1, 2 and symmetric displacement -1 or +1: started from the
    target (probability 1/3 each), the step puts at least 1/2 of the mass on the point 1 as soon as two attempts
    are possible, in the limit 2/3. *)
Theorem C33_not_stationary_refuted : exists P lp om (tgt : Q -> Q),
  Qsum (map fst om) == 1 /\ tgt 0 + tgt 1 + tgt 2 == 1 /\
  (forall a, Qlt 0 (tgt a) -> lp [a] = Fin 0 /\ tgt a = 1 # 3) /\
  (forall a, tgt a = 0 -> lp [a] = NInf) /\
  forall s n, (2 <= n)%nat ->
    tgt 1 < tgt 0 * step_prob P lp 1 om n [0] s (at_point 1)
            + tgt 1 * step_prob P lp 1 om n [1] s (at_point 1)
            + tgt 2 * step_prob P lp 1 om n [2] s (at_point 1).
Proof.
  exists wP, wlp, wom, (fun a => if Qeq_bool a 0 || Qeq_bool a 1 || Qeq_bool a 2 then 1 # 3 else 0).
  split; [reflexivity|]. split; [reflexivity|]. split; [|split].
  - intros a. unfold wlp. destruct (_ || _ || _); [auto|discriminate].
  - intros a. unfold wlp. destruct (_ || _ || _); [discriminate|auto].
  - intros s n H. pose proof (wstep n s H) as W. eapply Qlt_le_trans; [|exact W]. reflexivity.
Qed.
Print Assumptions C33_not_stationary_refuted.

Example C33_step_law_example :
  step_prob wP wlp 1 wom 3 [0] (mh_new [0]) (at_point 1) == 7 # 8 /\
  step_prob wP wlp 1 wom 1 [1] (mh_new [0]) (at_point 2) == 1 # 2.
Proof. split; vm_compute; reflexivity. Qed.
