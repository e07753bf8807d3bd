(** The kernel density model held by the sample-based methods. *)
From Coq Require Import List Bool Arith Lia QArith Lqa.
Import ListNotations.
From Verif Require Import Prelude.Py Prelude.QBase Prelude.QFacts Model.Base Model.Rejection
  Model.MetropolisHastings Proofs.BaseProofs.
Open Scope Q_scope.

Definition kde_ok (k : nat) (c : core) : Prop :=
  forall m, model c = Some m -> length m = k /\ Forall (fun x => In x (samples c)) m.

Lemma kde_grow k c c' added : kde_ok k c -> samples c' = samples c ++ added -> model c' = model c -> kde_ok k c'.
Proof.
  intros H S M m E. rewrite M in E. destruct (H m E) as [L F]. split; auto.
  eapply Forall_impl; [|exact F]. intros x Hx. rewrite S. apply in_or_app; auto.
Qed.

Lemma kde_same k c c' : kde_ok k c -> samples c' = samples c -> model c' = model c -> kde_ok k c'.
Proof. intros H S M. apply (kde_grow k c c' []); auto. now rewrite app_nil_r. Qed.

Lemma kde_query k pick c : kde_ok k c -> kde_ok k (out_state (core_query k pick c)).
Proof.
  intros H. unfold core_query. destruct (model c) eqn:M; auto.
  destruct (update_model k pick (samples c)) as [m|e] eqn:E; auto.
  intros m'. simpl. intros [= <-]. apply update_model_ok in E. tauto.
Qed.

Lemma kde_sample k pick n c : kde_ok k c -> kde_ok k (out_state (core_sample k pick n c)).
Proof.
  intros H. unfold core_sample. destruct (model c) eqn:M.
  - simpl. eapply kde_same; eauto.
  - destruct (update_model k pick (samples c)) as [m|e] eqn:E; auto.
    intros m'. simpl. intros [= <-]. apply update_model_ok in E. tauto.
Qed.

(** ** Rejection *)
Lemma kde_rej_loop P t n timeout tape : forall e0 c,
  kde_ok (rj_kde P) c -> kde_ok (rj_kde P) (out_state (rej_loop P t n timeout tape e0 c)).
Proof.
  induction tape as [|r tape IH]; intros e0 c H; cbn [rej_loop]; destruct (_ && _); auto.
  apply IH. eapply kde_grow; [exact H|reflexivity|reflexivity].
Qed.

Lemma kde_rej_call P t n timeout e0 tape pick c :
  kde_ok (rj_kde P) c -> kde_ok (rj_kde P) (out_state (rej_importance_sample P t n timeout e0 tape pick c)).
Proof.
  intros H. unfold rej_importance_sample. pose proof (kde_rej_loop P t n timeout tape e0 c H) as G.
  destruct (rej_loop _ _ _ _ _ _ _) as [c1|c1|e c1]; auto. unfold rej_finish. cbn [samples].
  destruct (update_model _ _ _) as [m|e] eqn:E; simpl in *.
  - intros m' [= <-]. simpl. apply update_model_ok in E. tauto.
  - eapply kde_same; eauto.
Qed.

Lemma kde_rej_reachable P c : rej_reachable P c -> kde_ok (rj_kde P) c.
Proof.
  induction 1 as [| c H IH | c pick m H IH | c pick H IH | c k c' H IH Hc].
  - intros m; discriminate.
  - intros m; discriminate.
  - now apply kde_sample.
  - now apply kde_query.
  - pose proof (kde_rej_call P (rc_target k) (rc_n k) (rc_timeout k) (rc_e0 k) (rc_tape k) (rc_pick k) c IH) as J.
    destruct Hc as [Hc|[e Hc]]; rewrite Hc in J; exact J.
Qed.

(** ** Metropolis-Hastings: samples and model of the core are untouched by steps *)
Definition keeps_core (s s' : mh) : Prop :=
  samples (mh_core s') = samples (mh_core s) /\ model (mh_core s') = model (mh_core s).

Lemma kc_refl s : keeps_core s s. Proof. split; auto. Qed.
Lemma kc_trans a b c : keeps_core a b -> keeps_core b c -> keeps_core a c.
Proof. unfold keeps_core. intuition congruence. Qed.

Lemma kc_step_loop P lp timeout x_old tape : forall acc el x_new s,
  match mh_step_loop P lp timeout x_old tape acc el x_new s with
  | SDone _ s' | SRunning s' | SFail _ s' => keeps_core s s'
  end.
Proof.
  induction tape as [|a t IH]; intros acc el x_new s; cbn [mh_step_loop];
    destruct (negb acc && Qltb el timeout); try apply kc_refl;
    try (destruct (set_last _ _); split; reflexivity).
  pose proof (IH (mh_accept P lp x_old (mh_propose P x_old a) a) (at_clock a) (mh_propose P x_old a)
                 (mh_record (mh_propose P x_old a) s)) as G.
  destruct (mh_step_loop _ _ _ _ _ _ _ _ _); exact G.
Qed.

Lemma kc_advance P lp timeout lab tape s : keeps_core s (out_state (mh_advance P lp timeout lab tape s)).
Proof.
  unfold mh_advance, mcmc_step. pose proof (kc_step_loop P lp timeout (mh_current s) tape false 0 (mh_current s) s) as G.
  destruct (mh_step_loop _ _ _ _ _ _ _ _ _); auto. destruct (set_last _ _); exact G.
Qed.

Lemma kc_steps_n P lp timeout n : forall tape s,
  keeps_core s (out_state (fst (mh_steps_n P lp timeout n tape s))).
Proof.
  induction n as [|n IH]; intros tape s; simpl; [apply kc_refl|].
  destruct tape as [|e t]; simpl; [apply kc_refl|].
  pose proof (kc_advance P lp (timeout - se_elapsed e) DECORRELATION (se_attempts e) s) as G.
  destruct (mh_advance _ _ _ _ _ _); simpl in *; auto. eapply kc_trans; eauto.
Qed.

Lemma kc_mcmc P lp timeout n : forall tape s acc,
  keeps_core s (out_state (fst (fst (mcmc P lp timeout n tape s acc)))).
Proof.
  induction n as [|n IH]; intros tape s acc; simpl; [apply kc_refl|].
  pose proof (kc_steps_n P lp timeout (mh_steps P) tape s) as G.
  destruct (mh_steps_n P lp timeout (mh_steps P) tape s) as [[s1|s1|e s1] t1]; simpl in *; auto.
  destruct (set_last (mh_types s1) SAMPLE); simpl; auto.
  eapply kc_trans; [|apply IH]. exact G.
Qed.

Lemma kc_burn P lp n : forall tape s, keeps_core s (out_state (fst (mh_burn P lp n tape s))).
Proof.
  induction n as [|n IH]; intros tape s; simpl; [apply kc_refl|].
  destruct tape as [|e t]; simpl; [apply kc_refl|].
  pose proof (kc_advance P lp 60 BURN_IN (se_attempts e) s) as G.
  destruct (mh_advance _ _ _ _ _ _); simpl in *; auto. eapply kc_trans; eauto.
Qed.

Lemma kc_sample_loop P lp timeout n k : forall tape s acc,
  keeps_core s (out_state (fst (fst (mh_sample_loop P lp timeout n k tape s acc)))).
Proof.
  induction k as [|k IH]; intros tape s acc; simpl; [apply kc_refl|].
  pose proof (kc_mcmc P lp timeout n tape s (@nil vec)) as G.
  destruct (mcmc P lp timeout n tape s []) as [[[s1|s1|e s1] rows] t1]; simpl in *; auto.
  eapply kc_trans; [exact G|apply IH].
Qed.

Lemma kc_sample P lp timeout n tape s :
  keeps_core s (out_state (fst (fst (mh_sample P lp timeout n tape s)))).
Proof.
  unfold mh_sample. destruct (mh_is_init s); [apply kc_sample_loop|].
  pose proof (kc_burn P lp (mh_burnin P) tape s) as G.
  destruct (mh_burn P lp (mh_burnin P) tape s) as [[s1|s1|e s1] t1]; simpl in *; auto.
  eapply kc_trans; [|apply kc_sample_loop]. exact G.
Qed.

Lemma kde_is P lp n timeout tape pick s :
  kde_ok (mh_kde P) (mh_core s) ->
  kde_ok (mh_kde P) (mh_core (out_state (mh_importance_sample P lp n timeout tape pick s))).
Proof.
  intros H. unfold mh_importance_sample.
  assert (G : kde_ok (mh_kde P) (mh_core (out_state (mh_is_loop P lp timeout n tape 0 s)))).
  { generalize 0 as el. revert s H. induction tape as [|e t IH]; intros s H el; cbn [mh_is_loop];
      destruct (_ && _); auto.
    pose proof (kc_sample P lp timeout 1 (ie_steps e) s) as [K1 K2].
    destruct (mh_sample P lp timeout 1 (ie_steps e) s) as [[[s1|s1|x s1] rows] t1]; simpl in *.
    - apply IH. simpl. eapply kde_grow; [exact H| |exact K2]. simpl. now rewrite K1.
    - eapply kde_same; eauto.
    - eapply kde_same; eauto. }
  destruct (mh_is_loop _ _ _ _ _ _ _) as [s1|s1|e s1]; auto.
  destruct (update_model _ _ _) as [m|e] eqn:E; simpl in *.
  - intros m' [= <-]. simpl. apply update_model_ok in E. tauto.
  - eapply kde_same; eauto.
Qed.

Lemma kde_mh_reachable P x0 ops s : mh_reachable P x0 ops s -> kde_ok (mh_kde P) (mh_core s).
Proof.
  induction 1 as [|ops s o s' H IH Hr]; [intros m; discriminate|].
  assert (G : kde_ok (mh_kde P) (mh_core (out_state (mh_run P o s)))).
  { destruct o; simpl.
    - intros m; discriminate.
    - unfold mh_query. pose proof (kde_query (mh_kde P) pick (mh_core s) IH) as J.
      destruct (core_query _ _ _); exact J.
    - destruct (kc_sample P lp timeout n tape s) as [K1 K2]. eapply kde_same; eauto.
    - apply kde_is; auto. }
  destruct Hr as [Hr|[e Hr]]; rewrite Hr in G; exact G.
Qed.

(** After a call that returned, the model is present. *)
Lemma kde_rej_present P t n timeout e0 tape pick c c' :
  rej_importance_sample P t n timeout e0 tape pick c = Done c' ->
  exists m, model c' = Some m /\ length m = rj_kde P /\ Forall (fun x => In x (samples c')) m.
Proof.
  unfold rej_importance_sample. destruct (rej_loop _ _ _ _ _ _ _) as [c1|c1|e c1]; try discriminate.
  unfold rej_finish. cbn [samples]. destruct (update_model _ _ _) as [m|e] eqn:E; [|discriminate].
  intros [= <-]. exists m. simpl. apply update_model_ok in E. tauto.
Qed.

Lemma kde_mh_present P lp n timeout tape pick s s' :
  mh_importance_sample P lp n timeout tape pick s = Done s' ->
  exists m, model (mh_core s') = Some m /\ length m = mh_kde P /\ Forall (fun x => In x (samples (mh_core s'))) m.
Proof.
  unfold mh_importance_sample. destruct (mh_is_loop _ _ _ _ _ _ _) as [c1|c1|e c1]; try discriminate.
  destruct (update_model _ _ _) as [m|e] eqn:E; [|discriminate].
  intros [= <-]. exists m. simpl. apply update_model_ok in E. tauto.
Qed.
