(** Property C128. *)
From Coq Require Import List Bool Arith Lia QArith Lqa Reals Qreals.
Import ListNotations.
From Verif Require Import Prelude.Py Prelude.QBase Prelude.QFacts Prelude.RBase Model.Base Model.Rejection Model.MetropolisHastings Model.Population.
From Verif Require Import Model.Nested.
From Verif Require Import Spec.Box Spec.SupportSpec.
From Verif Require Import Proofs.RejectionWitness Proofs.MHWitness Proofs.PopulationProofs Proofs.PopulationHistory Proofs.PopulationWitness.
From Verif Require Import Proofs.NestedProofs Proofs.NestedHistory Proofs.NestedWeights Proofs.NestedWitness Proofs.SupportProofs Proofs.MasslessProofs.
Open Scope Q_scope.

(** C128. Rejection sampling: on an object without samples a call for a target that is zero everywhere never returns
    normally; as long as the clock is below the limit it goes on, and then it raises. *)
Theorem C128_rejection :
  forall P pi n timeout e0 tape pick c, massless pi -> (forall x, 0 <= rj_q P x * rj_scaling P) -> (forall r i, In r tape -> 0 <= rr_u r i) -> samples c = [] ->
    (exists c', rej_importance_sample P pi n timeout e0 tape pick c = Running c' \/ exists e, rej_importance_sample P pi n timeout e0 tape pick c = Failed e c') /\
    ((1 <= n)%nat -> e0 < timeout -> Forall (fun r => rr_clock r < timeout) tape -> exists c', rej_importance_sample P pi n timeout e0 tape pick c = Running c').
Proof.
  intros P pi n timeout e0 tape pick c M Q U S0. split.
  - pose proof (massless_loop P pi n timeout tape M Q U e0 c) as E. unfold rej_importance_sample. destruct (rej_loop P pi n timeout tape e0 c) as [c1|c1|e c1]; cbn [out_state] in E.
    + unfold rej_finish. cbn [samples]. rewrite E, S0. unfold update_model. destruct (rj_kde P); eauto.
    + eauto.
    + eauto.
  - intros N L F. destruct (massless_loop_running P pi n timeout tape M Q U F e0 c L) as (c' & E); [rewrite S0; simpl; lia|]. exists c'. unfold rej_importance_sample. now rewrite E.
Qed.
Print Assumptions C128_rejection.
Example C128_rejection_example :
  massless (fun _ => 0) /\ (forall x, 0 <= rj_q exP x * rj_scaling exP) /\ samples core_init = [] /\
  (forall r i, In r [ex_r1] -> 0 <= rr_u r i) /\ Forall (fun r => rr_clock r < 60) [ex_r1].
Proof.
  split; [intros x; reflexivity|]. split; [intros x; vm_compute; discriminate|]. split; [reflexivity|].
  split; [|repeat constructor]. intros r i [<-|[]]. destruct i as [|[|i]]; vm_compute; discriminate.
Qed.

(** C128. Deterministic mixture: after every history, a call for more samples raises at its first batch and adds nothing. *)
Theorem C128_dm :
  forall P us ops s, pop_params_ok P -> us_ok P us -> Forall (fun e => pop_op_ok P (fst e)) ops -> pop_reachable DM P us ops s ->
  forall pi n timeout r tape, massless pi -> (length (pop_samples s) < n)%nat -> 0 < timeout ->
  exists s', pop_call DM P pi n timeout (r :: tape) s = Failed ValueError s' /\ pop_samples s' = pop_samples s /\ pop_weights s' = pop_weights s.
Proof.
  intros P us ops s A B C D pi n timeout r tape M L T. destruct (good_reachable _ _ _ _ _ A B C D) as (Me & _).
  assert (N : pop_means s <> []) by (intros Z; rewrite Z in Me; destruct A as (_ & N & _); simpl in Me; lia).
  destruct (dm_iter_fails P pi r s M A N) as (s' & E & S1 & W1). exists s'. split; auto. unfold pop_call. cbn [pop_loop].
  rewrite (proj2 (Nat.ltb_lt _ _) L), (proj2 (Qltb_true 0 timeout) T), E. reflexivity.
Qed.
Print Assumptions C128_dm.
(** An object that holds four samples of another target, asked for five. *)
Example C128_dm_example :
  pop_params_ok wpop /\ us_ok wpop wus /\ Forall (fun e => pop_op_ok wpop (fst e)) [(wcall [wround], true)] /\ pop_reachable DM wpop wus [(wcall [wround], true)] wdm /\
  massless (fun _ => 0) /\ (length (pop_samples wdm) < 5)%nat.
Proof.
  split; [apply wparams_ok|]. split; [apply wus_ok|]. split; [constructor; [|constructor]; apply wcall_ok; constructor; [apply wround_ok|constructor]|].
  split; [exact wdm_reach|]. split; [intros x; reflexivity|]. vm_compute. lia.
Qed.

(** C128. Layered sampling: in every history of calls for such targets all returned weights are NaN, and no proposal moves. *)
Theorem C128_lais :
  forall P us ops s, pop_params_ok P -> us_ok P us -> Forall (fun e => pop_op_ok P (fst e) /\ massless_op (fst e)) ops -> pop_reachable LAIS P us ops s ->
  Forall (fun w => w = NaN) (pop_returned s) /\
  forall pi n timeout tape s', massless pi -> pop_call LAIS P pi n timeout tape s = Done s' -> pop_means s' = pop_means s.
Proof.
  intros P us ops s A B F R. destruct (lais_zeros P us ops s A B F R) as (N & ws & W & Z). split.
  - unfold pop_returned. rewrite W. now apply normalise_nan.
  - intros pi n timeout tape s' M E. destruct A as (_ & _ & _ & C). destruct (lais_loop_zero P pi n timeout tape M C 0 s N) as (G & _). unfold pop_call in E. rewrite E in G. exact G.
Qed.
Print Assumptions C128_lais.
(** A call that returns four samples. *)
Example C128_population_example :
  pop_params_ok wpop /\ us_ok wpop wus /\ pop_op_ok wpop (PopCall (fun _ => 0) 4 1 [wround]) /\ massless_op (PopCall (fun _ => 0) 4 1 [wround]) /\
  exists s, pop_reachable LAIS wpop wus [(PopCall (fun _ => 0) 4 1 [wround], true)] s /\ length (pop_returned s) = 4%nat.
Proof.
  split; [apply wparams_ok|]. split; [apply wus_ok|]. split; [|split; [intros x; reflexivity|]].
  - split; [intros x; apply Qle_refl|]. constructor; [apply wround_ok|constructor].
  - eexists. split; [eapply pop_done; [apply pop_init|vm_compute; reflexivity]|reflexivity].
Qed.

(** C128. Nested sampling: in every history of calls for such targets every weight is NaN. *)
Theorem C128_nested :
  forall P us ops s, start_ok P us -> Forall (ns_op_ok P) ops -> Forall (ns_target massless) ops -> nested_reachable P us ops s ->
    Forall (fun w => w = NaN) (nested_weights (ns_N P) (map Q2R (ns_L s))).
Proof.
  intros P us ops s S0 OK KK R. pose proof (massless_L P us ops s S0 OK KK R) as F. destruct (ns_L s) as [|l L].
  - simpl. constructor.
  - apply weights_zero; [|discriminate]. rewrite Forall_map. eapply Forall_impl; [|exact F]. intros a H. rewrite (Qeq_eqR _ _ H). apply RMicromega.Q2R_0.
Qed.
Print Assumptions C128_nested.
Example C128_nested_example :
  exists s, start_ok nP nus /\ ns_op_ok nP (NsCall (fun _ => 0) 2 60 [rep1; rep2] (fun i => i)) /\ nested_reachable nP nus [NsCall (fun _ => 0) 2 60 [rep1; rep2] (fun i => i)] s /\
    length (ns_L s) = 2%nat.
Proof.
  eexists. split; [exact n_start|]. split; [repeat constructor|]. split; [apply nested_next with (ns_new nP nus); [constructor|left; vm_compute; reflexivity]|reflexivity].
Qed.

(** C128 (full statement: no call returns a sample with a positive weight) is false of Metropolis-Hastings: when the clock runs out
    during a step the refused point is returned with weight one. *)
Theorem C128_mh_refuted :
  exists P lp x0 timeout n tape pick s, 0 < timeout /\ (forall x, lp x = NInf) /\ mh_reachable P x0 [OpIS lp timeout n tape pick] s /\
    weights (mh_core s) = [1].
Proof.
  exists wP, (fun _ => NInf), [1 # 2; 1], 60, 1%nat, [mkIs [mkStep 0 [late_down]; mkStep 0 [late_down]] 1], (fun i => i). eexists.
  split; [reflexivity|]. split; [reflexivity|]. split; [eapply mh_reach_op; [constructor|]; left; vm_compute; reflexivity|reflexivity].
Qed.
Print Assumptions C128_mh_refuted.
(** C128, what holds for Metropolis-Hastings: in every history without such cut-offs the object never gets a sample, and
    no further call without cut-offs returns normally. *)
Theorem C128_mh_partial :
  forall P lp x0 ops s, (0 < mh_steps P)%nat -> (forall x, ~ has_mass (lp x)) -> Forall (support_op lp) ops -> mh_reachable P x0 ops s ->
  samples (mh_core s) = [] /\
  forall n timeout tape pick, Forall (call_timely timeout) tape -> forall s', mh_importance_sample P lp n timeout tape pick s <> Done s'.
Proof.
  intros P lp x0 ops s K Z F R. pose proof (mass_reachable P lp x0 ops s K F R) as M.
  assert (NO : forall s, massive lp s -> samples (mh_core s) = []).
  { intros a A. unfold massive in A. destruct (samples (mh_core a)) as [|x l]; auto. inversion A; subst. exfalso. eapply Z; eauto. }
  split; [auto|]. intros n timeout tape pick T s'. unfold mh_importance_sample.
  pose proof (NO _ (is_loop_mass P lp timeout n tape K T 0 s M)) as G. destruct (mh_is_loop P lp timeout n tape 0 s) as [s1|s1|e s1]; try discriminate.
  cbn [out_state] in G. cbv zeta. rewrite G. unfold update_model. destruct (mh_kde P); discriminate.
Qed.
Print Assumptions C128_mh_partial.
(** An object that raised for want of samples, and a call whose proposals are all refused in time. *)
Example C128_mh_example :
  (0 < mh_steps wP)%nat /\ (forall x : vec, ~ has_mass ((fun _ : vec => NInf) x)) /\ Forall (support_op (fun _ => NInf)) [OpIS (fun _ => NInf) 60 0 [] (fun i => i)] /\
  (exists s, mh_reachable wP [0; 0] [OpIS (fun _ => NInf) 60 0 [] (fun i => i)] s) /\ Forall (call_timely 60) [mkIs [mkStep 0 [down; up; down]; mkStep 1 [up]] 1].
Proof.
  split; [simpl; lia|]. split; [intros x H; exact H|]. split; [repeat constructor|].
  split; [eexists; eapply mh_reach_op; [constructor|]; right; eexists; vm_compute; reflexivity|].
  constructor; [|constructor]. constructor; [|constructor; [|constructor]]; (split; [reflexivity|]); intros a H; simpl in H;
    repeat (destruct H as [<-|H]; [reflexivity|]); destruct H.
Qed.
