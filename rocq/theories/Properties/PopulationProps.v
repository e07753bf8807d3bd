(** Properties C39-C42 and C70. *)
From Coq Require Import List Bool Arith Lia QArith Lqa.
Import ListNotations.
From Verif Require Import Prelude.Py Prelude.QBase Prelude.QFacts Model.Base Model.Mixture Model.Population
  Spec.Box Spec.PopulationSpec Proofs.PopulationProofs Proofs.PopulationHistory Proofs.PopulationWitness.
Open Scope Q_scope.

(** C39. Request: in every history, a call that returns leaves the object alone if it already holds n samples;
    otherwise it ends below n + N*K samples, and at or above n unless the clock ran out. The number of samples
    is always a multiple of N*K, with one weight each. *)
Theorem C39_dm_request :
  forall P us ops s, length us = pp_N P -> Forall (fun e => pop_op_ok P (fst e)) ops -> pop_reachable DM P us ops s ->
  forall pi n timeout tape s', pop_call DM P pi n timeout tape s = Done s' ->
  ((n <= length (pop_samples s))%nat -> s' = s) /\
  ((length (pop_samples s) < n)%nat -> (length (pop_samples s') < n + pp_N P * pp_K P)%nat) /\
  (0 < timeout -> Forall (fun r => pr_clock r < timeout) tape -> (n <= length (pop_samples s'))%nat) /\
  (exists t, length (pop_samples s') = t * (pp_N P * pp_K P))%nat /\ length (pop_weights s') = length (pop_samples s').
Proof.
  intros P us ops s U O R pi n timeout tape s' E. destruct (books_reachable _ _ _ _ _ U O R) as (t & B).
  destruct (pop_loop_request _ _ _ _ _ _ _ _ _ E) as (X & Y & Z).
  pose proof (books_loop DM P pi n timeout tape 0 s _ _ _ B) as L. unfold pop_call in E. rewrite E in L.
  destruct L as (t' & B'). destruct B as (B1 & _). destruct B' as (_ & B2 & B3 & _). rewrite B1 in Y.
  repeat split; auto. eauto.
Qed.
Print Assumptions C39_dm_request.
Example C39_dm_request_example :
  length wus = pp_N wpop /\ pop_reachable DM wpop wus [] w0 /\ pop_call DM wpop wpi 4 1 [wround] w0 = Done wdm /\
  Forall (fun r => pr_clock r < 1) [wround] /\ length (pop_samples wdm) = 4%nat.
Proof.
  split; [reflexivity|]. split; [apply pop_init|]. split; [exact wdm_run|]. split; [|vm_compute; reflexivity].
  repeat constructor.
Qed.

(** C39. Weights: in every history the stored weights are finite and non-negative; when one is positive the
    returned weights are their shares: non-negative, summing to one, proportional. *)
Theorem C39_dm_weights :
  forall P us ops s, pop_params_ok P -> us_ok P us -> Forall (fun e => pop_op_ok P (fst e)) ops -> pop_reachable DM P us ops s ->
  exists ws, pop_weights s = map Fin ws /\ Forall (fun w => 0 <= w) ws /\
    (Exists (fun w => 0 < w) ws -> exists out, pop_returned s = map Fin out /\ shares ws out).
Proof.
  intros P us ops s A B C D. destruct (good_reachable _ _ _ _ _ A B C D) as (_ & ws & W & F).
  exists ws. repeat split; auto. intros E. apply (returned_shares s ws); auto.
Qed.
Print Assumptions C39_dm_weights.
Example C39_dm_weights_example :
  pop_params_ok wpop /\ us_ok wpop wus /\ pop_reachable DM wpop wus [(wcall [wround], true)] wdm /\
  Exists (fun w => match w with Fin a => 0 < a | _ => False end) (pop_weights wdm).
Proof.
  split; [apply wparams_ok|]. split; [apply wus_ok|]. split; [apply wdm_reach|]. vm_compute. constructor. reflexivity.
Qed.

(** C39. Counters (full statement: also the proposal-evaluation counter equals the number of proposal density
    evaluations). In every history without a raising call since the last reset, both counters are the number of
    samples (plus what sample() was asked for). *)
Theorem C39_dm_counters_partial :
  forall P us ops s, length us = pp_N P -> Forall (fun e => pop_op_ok P (fst e)) ops -> pop_reachable DM P us ops s ->
  pop_pi_evals s = (length (pop_samples s) + since_reset (map raised ops) * (pp_N P * pp_K P))%nat /\
  pop_q_samples s = (pop_pi_evals s + since_reset (map asked ops))%nat.
Proof.
  intros P us ops s U O R. destruct (books_reachable _ _ _ _ _ U O R) as (t & B1 & B2 & B3 & B4 & B5 & B6 & B7 & _).
  unfold dqs, dps in *. split; lia.
Qed.
Print Assumptions C39_dm_counters_partial.
Example C39_dm_counters_example :
  length wus = pp_N wpop /\ pop_reachable DM wpop wus [(wcall [wround], true)] wdm /\
  since_reset (map raised [(wcall [wround], true)]) = 0%nat /\ pop_pi_evals wdm = 4%nat.
Proof. split; [reflexivity|]. split; [apply wdm_reach|]. split; vm_compute; reflexivity. Qed.

(** The proposal-evaluation counter stays at zero in every history, whatever was evaluated. *)
Theorem C39_dm_q_evals_refuted :
  exists P us ops s, pop_params_ok P /\ us_ok P us /\ Forall (fun e => pop_op_ok P (fst e)) ops /\
    pop_reachable DM P us ops s /\ pop_q_evals s = 0%nat /\ pop_qdens s = 8%nat.
Proof.
  exists wpop, wus, [(wcall [wround], true)], wdm. split; [apply wparams_ok|]. split; [apply wus_ok|].
  split; [constructor; [apply wcall_ok; constructor; [apply wround_ok|constructor]|constructor]|].
  split; [apply wdm_reach|]. split; vm_compute; reflexivity.
Qed.
Print Assumptions C39_dm_q_evals_refuted.
Theorem C39_dm_q_evals_zero :
  forall P us ops s, length us = pp_N P -> Forall (fun e => pop_op_ok P (fst e)) ops -> pop_reachable DM P us ops s ->
  pop_q_evals s = 0%nat /\ pop_qdens s = (pop_pi_evals s * pp_N P)%nat.
Proof.
  intros P us ops s U O R. destruct (books_reachable _ _ _ _ _ U O R) as (t & B1 & B2 & B3 & B4 & B5 & B6 & B7 & _).
  unfold dps in *. split; auto. rewrite B5, B7. lia.
Qed.
Print Assumptions C39_dm_q_evals_zero.
(** A call whose batch misses the target's support raises, and leaves the counters ahead of the samples. *)
Theorem C39_dm_counters_refuted :
  exists P us pi n timeout tape s', pop_params_ok P /\ us_ok P us /\ pop_op_ok P (PopCall pi n timeout tape) /\
    pop_call DM P pi n timeout tape (pop_new P us) = Failed ValueError s' /\
    pop_samples s' = [] /\ pop_pi_evals s' = 4%nat /\ pop_q_samples s' = 4%nat.
Proof.
  exists wpop, wus, wpi, 4%nat, 1, [wbad], wfailed. split; [apply wparams_ok|]. split; [apply wus_ok|].
  split; [apply (wcall_ok [wbad]); constructor; [apply wbad_ok|constructor]|].
  split; [exact wfailed_run|]. repeat split; vm_compute; reflexivity.
Qed.
Print Assumptions C39_dm_counters_refuted.

(** C40. In every history, what a returning call adds is a sequence of batches of N*K samples; every sample is
    weighted by target density over the equal mixture of the proposals in force before the adaptation, and each
    adaptation moves every proposal mean to a sample of that batch with positive weight. *)
Theorem C40_dm_run :
  forall P us ops s, pop_params_ok P -> us_ok P us -> Forall (fun e => pop_op_ok P (fst e)) ops -> pop_reachable DM P us ops s ->
  forall pi n timeout tape s', pop_op_ok P (PopCall pi n timeout tape) -> pop_call DM P pi n timeout tape s = Done s' ->
  exists xs ws, pop_samples s' = pop_samples s ++ xs /\ pop_weights s' = pop_weights s ++ map Fin ws /\
    population_run pi (pp_comp P) (pp_N P * pp_K P) resampled (pop_means s) xs ws (pop_means s').
Proof.
  intros P us ops s A B C D pi n timeout tape s' [Pi F] E.
  destruct (good_reachable _ _ _ _ _ A B C D) as (M & _).
  assert (Mn : pop_means s <> []) by (intros Z; rewrite Z in M; destruct A as (_ & N & _); simpl in M; lia).
  pose proof (dm_run P pi n timeout tape s s' A Pi F Mn E) as G. rewrite M in G. exact G.
Qed.
Print Assumptions C40_dm_run.
Example C40_dm_run_example :
  pop_params_ok wpop /\ us_ok wpop wus /\ pop_reachable DM wpop wus [] w0 /\ pop_op_ok wpop (wcall [wround]) /\
  pop_call DM wpop wpi 4 1 [wround] w0 = Done wdm /\ pop_means wdm = [[1]; [1 # 2]].
Proof.
  split; [apply wparams_ok|]. split; [apply wus_ok|]. split; [apply pop_init|].
  split; [apply wcall_ok; constructor; [apply wround_ok|constructor]|]. split; [exact wdm_run|vm_compute; reflexivity].
Qed.

(** C40. The batch consists of K draws of each proposal in turn, and the turn raises exactly when the target is
    zero at every sample of the batch. *)
Theorem C40_dm_batch :
  forall P us ops s, pop_params_ok P -> us_ok P us -> Forall (fun e => pop_op_ok P (fst e)) ops -> pop_reachable DM P us ops s ->
  forall pi r, (forall x, 0 <= pi x) ->
  (forall j k, (j < pp_N P)%nat -> (k < pp_K P)%nat ->
     nth_error (pop_draws P (pop_means s) r) (j * pp_K P + k) = Some (pr_draw r j k)) /\
  length (pop_draws P (pop_means s) r) = (pp_N P * pp_K P)%nat /\
  (forall s', pop_iter DM P pi r s = Done s' -> pop_samples s' = pop_samples s ++ pop_draws P (pop_means s) r) /\
  ((exists e s', pop_iter DM P pi r s = Failed e s') <->
   forall j k, (j < pp_N P)%nat -> (k < pp_K P)%nat -> pi (pr_draw r j k) == 0).
Proof.
  intros P us ops s A B C D pi r Pi. destruct (good_reachable _ _ _ _ _ A B C D) as (M & _).
  destruct A as (A1 & N & K & Cp).
  assert (Mn : pop_means s <> []) by (intros Z; rewrite Z in M; simpl in M; lia).
  assert (G : forall j k, (j < pp_N P)%nat -> (k < pp_K P)%nat ->
     nth_error (pop_draws P (pop_means s) r) (j * pp_K P + k) = Some (pr_draw r j k)).
  { intros j k J Kk. apply pop_draws_nth; congruence. }
  split; auto. split; [rewrite pop_draws_length, M; auto|].
  split; [intros s' Q; apply (pop_iter_done _ _ _ _ _ _ Q)|].
  rewrite (dm_iter_fails_iff P pi r s Cp Mn K Pi). rewrite Forall_forall. split.
  - intros F j k J Kk. apply F. apply (nth_error_In _ (j * pp_K P + k)). auto.
  - intros F x X. unfold pop_draws in X. apply in_flat_map in X. destruct X as (j & J & X). apply in_map_iff in X.
    destruct X as (k & <- & Kk). apply in_seq in J. apply in_seq in Kk. apply F; lia.
Qed.
Print Assumptions C40_dm_batch.
Example C40_dm_batch_example :
  pop_reachable DM wpop wus [] w0 /\ (exists s', pop_iter DM wpop wpi wround w0 = Done s') /\
  (exists e s', pop_iter DM wpop wpi wbad w0 = Failed e s').
Proof. split; [apply pop_init|]. split; [eexists; vm_compute; reflexivity|eexists; eexists; vm_compute; reflexivity]. Qed.

(** C41. In every history, and at every moment of the next operation, all proposal means are in the space. *)
Theorem C41_lais_means :
  forall P us ops s o, is_box (pp_lo P) (pp_hi P) -> us_ok P us -> Forall (fun e => pop_op_ok P (fst e)) ops ->
  pop_op_ok P o -> pop_reachable LAIS P us ops s ->
  Forall (in_box (pp_lo P) (pp_hi P)) (pop_means s) /\
  Forall (in_box (pp_lo P) (pp_hi P)) (pop_means (out_state (pop_run LAIS P o s))).
Proof. intros P us ops s o A B C D E. exact (means_in_reachable P us ops s o A B C D E). Qed.
Print Assumptions C41_lais_means.
Example C41_lais_means_example :
  is_box (pp_lo wpop) (pp_hi wpop) /\ us_ok wpop wus /\ pop_op_ok wpop (wcall [wround]) /\
  pop_reachable LAIS wpop wus [(wcall [wround], true)] wlais /\ pop_means wlais = [[0]; [4 # 8]] /\ pop_means w0 <> pop_means wlais.
Proof.
  split; [apply wparams_ok|]. split; [apply wus_ok|]. split; [apply wcall_ok; constructor; [apply wround_ok|constructor]|].
  split; [apply wlais_reach|]. split; vm_compute; [reflexivity|discriminate].
Qed.

(** C42. Effort after t iterations since construction or reset (plus what sample() was asked for). *)
Theorem C42_lais_effort :
  forall P us ops s, length us = pp_N P -> Forall (fun e => pop_op_ok P (fst e)) ops -> pop_reachable LAIS P us ops s ->
  exists t, let N := pp_N P in let K := pp_K P in let L := pp_L P in
    length (pop_samples s) = (t * (N * K))%nat /\ length (pop_weights s) = (t * (N * K))%nat /\
    pop_q_samples s = (t * (N * K + N * L) + since_reset (map asked ops))%nat /\
    pop_pi_evals s = (t * (N * K + 2 * (N * L)))%nat.
Proof.
  intros P us ops s U O R. destruct (books_reachable _ _ _ _ _ U O R) as (t & B1 & B2 & B3 & B4 & B5 & B6 & B7 & B8).
  exists t. specialize (B8 eq_refl). rewrite B8 in *. unfold dqs, dps in *. cbv zeta. repeat split; try lia.
Qed.
Print Assumptions C42_lais_effort.
Example C42_lais_effort_example :
  length wus = pp_N wpop /\ pop_reachable LAIS wpop wus [(wcall [wround], true)] wlais /\
  length (pop_samples wlais) = 4%nat /\ pop_q_samples wlais = 8%nat /\ pop_pi_evals wlais = 12%nat.
Proof. split; [reflexivity|]. split; [apply wlais_reach|]. repeat split; vm_compute; reflexivity. Qed.

(** C70. What a returning call of layered AIS adds: batches weighted against the equal mixture of the proposals
    before their walk, and walks of L Metropolis steps of every mean. *)
Theorem C70_lais_run :
  forall P us ops s, pop_params_ok P -> us_ok P us -> Forall (fun e => pop_op_ok P (fst e)) ops -> pop_reachable LAIS P us ops s ->
  forall pi n timeout tape s', pop_op_ok P (PopCall pi n timeout tape) -> pop_call LAIS P pi n timeout tape s = Done s' ->
  exists xs ws, pop_samples s' = pop_samples s ++ xs /\ pop_weights s' = pop_weights s ++ map Fin ws /\
    population_run pi (pp_comp P) (pp_N P * pp_K P) (walked pi (pp_lo P) (pp_hi P) (pp_L P)) (pop_means s) xs ws (pop_means s').
Proof.
  intros P us ops s A B C D pi n timeout tape s' Oo E. pose proof Oo as [Pi F].
  destruct (good_reachable _ _ _ _ _ A B C D) as (M & _).
  assert (Mn : pop_means s <> []) by (intros Z; rewrite Z in M; destruct A as (_ & N & _); simpl in M; lia).
  destruct (means_in_reachable P us ops s (PopCall pi n timeout tape) (proj1 A) B C Oo D) as [In _].
  pose proof (lais_run P pi n timeout tape s s' A Pi F Mn In E) as G. rewrite M in G. exact G.
Qed.
Print Assumptions C70_lais_run.
(** C70. A walk never leaves the support of the target once inside. *)
Theorem C70_walk_support :
  forall pi lo hi evs x y, (forall x, 0 <= pi x) -> Forall (fun e => 0 <= snd e < 1) evs ->
  walk pi lo hi evs x y -> 0 < pi x -> 0 < pi y.
Proof. exact walk_pos. Qed.
Print Assumptions C70_walk_support.
(** C70. Every call fulfils the request unless the clock ran out, never raises, and the returned weights are shares. *)
Theorem C70_lais_request :
  forall P us ops s, pop_params_ok P -> us_ok P us -> Forall (fun e => pop_op_ok P (fst e)) ops -> pop_reachable LAIS P us ops s ->
  (forall o e s', pop_run LAIS P o s <> Failed e s') /\
  (forall pi n timeout tape s', pop_call LAIS P pi n timeout tape s = Done s' ->
    ((n <= length (pop_samples s))%nat -> s' = s) /\
    ((length (pop_samples s) < n)%nat -> (length (pop_samples s') < n + pp_N P * pp_K P)%nat) /\
    (0 < timeout -> Forall (fun r => pr_clock r < timeout) tape -> (n <= length (pop_samples s'))%nat)) /\
  exists ws, pop_weights s = map Fin ws /\ Forall (fun w => 0 <= w) ws /\
    (Exists (fun w => 0 < w) ws -> exists out, pop_returned s = map Fin out /\ shares ws out).
Proof.
  intros P us ops s A B C D. destruct (good_reachable _ _ _ _ _ A B C D) as (M & ws & W & F). split; [|split].
  - intros o e s' E. destruct o as [pi n timeout tape|m|us']; try discriminate. simpl in E. unfold pop_call in E.
    destruct (books_reachable _ _ _ _ _ (proj1 B) C D) as (t & Bk).
    pose proof (books_loop LAIS P pi n timeout tape 0 s _ _ _ Bk) as L. rewrite E in L.
    destruct L as (t' & _ & _ & _ & _ & _ & _ & _ & Z). specialize (Z eq_refl). discriminate.
  - intros pi n timeout tape s' E. destruct (pop_loop_request _ _ _ _ _ _ _ _ _ E) as (X & Y & Z). rewrite M in Y. auto.
  - exists ws. repeat split; auto. intros E. apply (returned_shares s ws); auto.
Qed.
Print Assumptions C70_lais_request.
Example C70_lais_example :
  pop_params_ok wpop /\ us_ok wpop wus /\ pop_reachable LAIS wpop wus [] w0 /\ pop_op_ok wpop (wcall [wround]) /\
  pop_call LAIS wpop wpi 4 1 [wround] w0 = Done wlais /\ length (pop_samples wlais) = 4%nat /\ 0 < wpi [1].
Proof.
  split; [apply wparams_ok|]. split; [apply wus_ok|]. split; [apply pop_init|].
  split; [apply wcall_ok; constructor; [apply wround_ok|constructor]|]. split; [exact wlais_run|]. split; vm_compute; reflexivity.
Qed.

