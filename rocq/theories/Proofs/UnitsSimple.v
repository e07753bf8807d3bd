(** Metropolis-Hastings and rejection sampling in other coordinates. *)
From Coq Require Import List Bool Arith Lia QArith Lqa.
Import ListNotations.
From Verif Require Import Prelude.Py Prelude.QBase Prelude.QFacts Model.Base Model.Rejection Model.MetropolisHastings Spec.ScaleSpec Spec.UnitsSpec Spec.UnitsOps Proofs.ScaleBase Proofs.UnitsBase.
Open Scope Q_scope.

Section Units.
Variables (a : Q) (b : list Q).
Hypothesis A : 0 < a.
Notation R := (recoord a b).

Definition core_units (c c' : core) : Prop :=
  recoords a b (samples c) (samples c') /\ weights c' = weights c /\ num_q_samples c' = num_q_samples c /\ num_q_evals c' = num_q_evals c /\ num_pi_evals c' = num_pi_evals c /\
  recoords_opt a b (model c) (model c') /\ recoords a b (ghost_drawn c) (ghost_drawn c').

Section MH.
Variables (P P' : mh_params).
Hypothesis Sp : mh_space a b P P'.
Definition mh_rel (s s' : mh) : Prop :=
  core_units (mh_core s) (mh_core s') /\ R (mh_current s) (mh_current s') /\ mh_is_init s' = mh_is_init s /\ recoords a b (mh_traj s) (mh_traj s') /\ mh_types s' = mh_types s.
Lemma diff_shift k u u' v v' : log_shift k u u' -> log_shift k v v' -> times 1 (fsubQ u v) (fsubQ u' v').
Proof. destruct u, u', v, v'; simpl; try tauto. intros E E'. rewrite E, E'. ring. Qed.
Section Target.
Variables (lp lp' : vec -> fl Q).
Hypothesis Lp : relog a b lp lp'.
Lemma mh_accept_units x x' y y' e e' : R x x' -> R y y' -> attempt_units a b e e' -> mh_accept P' lp' x' y' e' = mh_accept P lp x y e.
Proof.
  intros X Y (_ & U & _). unfold mh_accept. rewrite U. destruct Lp as (k & K). destruct Sp as (_ & _ & _ & _ & _ & k2 & K2).
  apply (times_lt 1); [reflexivity|apply times_refl|]. apply times_add.
  - apply (diff_shift k); auto.
  - apply (diff_shift k2); apply K2; now apply recoord_sub.
Qed.
Lemma mh_propose_units x x' e e' : R x x' -> attempt_units a b e e' -> R (mh_propose P x e) (mh_propose P' x' e').
Proof. intros X (D & _). destruct Sp as (L & H & _). apply recoord_clip; auto. now apply recoord_add. Qed.
Definition step_rel (r r' : stepres) : Prop :=
  match r, r' with SDone x s, SDone x' s' => R x x' /\ mh_rel s s' | SRunning s, SRunning s' => mh_rel s s' | SFail e s, SFail e' s' => e = e' /\ mh_rel s s' | _, _ => False end.
Lemma mh_record_units y y' s s' : R y y' -> mh_rel s s' -> mh_rel (mh_record y s) (mh_record y' s').
Proof.
  intros Y ((C1 & C2 & C3 & C4 & C5 & C6 & C7) & M2 & M3 & M4 & M5). unfold mh_rel, core_units; simpl. rewrite C3, C4, C5, M5. repeat split; auto. apply app_rel; auto.
Qed.
Lemma mh_step_units timeout x x' tape tape' : R x x' -> Forall2 (attempt_units a b) tape tape' -> forall acc el y y' s s', R y y' -> mh_rel s s' ->
  step_rel (mh_step_loop P lp timeout x tape acc el y s) (mh_step_loop P' lp' timeout x' tape' acc el y' s').
Proof.
  intros X F. induction F as [|e e' t t' E F IH]; intros acc el y y' s s' Y M; cbn [mh_step_loop]; destruct (_ && _); try exact M;
    try (replace (mh_types s') with (mh_types s) by (symmetry; apply M); destruct (set_last (mh_types s) ACCEPT); simpl; auto;
         split; [exact Y|]; destruct M as (M1 & M2 & M3 & M4 & M5); split; [exact M1|]; repeat split; auto; fail).
  rewrite (mh_accept_units x x' _ _ e e' X (mh_propose_units x x' e e' X E) E). replace (at_clock e') with (at_clock e) by (symmetry; apply E).
  apply IH; [now apply mh_propose_units|]. apply mh_record_units; auto. now apply mh_propose_units.
Qed.
Lemma mh_advance_units timeout lab tape tape' s s' : Forall2 (attempt_units a b) tape tape' -> mh_rel s s' -> outs mh_rel (mh_advance P lp timeout lab tape s) (mh_advance P' lp' timeout lab tape' s').
Proof.
  intros F M. unfold mh_advance, mcmc_step. pose proof (mh_step_units timeout _ _ tape tape' (proj1 (proj2 M)) F false 0 _ _ s s' (proj1 (proj2 M)) M) as H.
  destruct (mh_step_loop P lp _ _ _ _ _ _ _) as [x t|t|e t], (mh_step_loop P' lp' _ _ _ _ _ _ _) as [x' t'|t'|e' t']; simpl in H; try tauto; try exact H.
  destruct H as (X & (C & M2 & M3 & M4 & M5)). rewrite M5. destruct (set_last (mh_types t) lab); simpl; unfold mh_rel; simpl; repeat split; auto; apply C.
Qed.
Lemma mh_steps_units timeout n : forall tape tape' s s', Forall2 (step_units a b) tape tape' -> mh_rel s s' ->
  let r := mh_steps_n P lp timeout n tape s in let r' := mh_steps_n P' lp' timeout n tape' s' in outs mh_rel (fst r) (fst r') /\ Forall2 (step_units a b) (snd r) (snd r').
Proof.
  induction n as [|n IH]; intros tape tape' s s' F M; [simpl; auto|]. cbn [mh_steps_n]. destruct F as [|e e' t t' (E1 & E2) F]; [simpl; auto|]. rewrite E1.
  pose proof (mh_advance_units (timeout - se_elapsed e) DECORRELATION _ _ s s' E2 M) as H. destruct (mh_advance P lp _ _ _ _), (mh_advance P' lp' _ _ _ _); simpl in H; try tauto; try (now apply IH); simpl; auto.
Qed.
Definition triple (r r' : outcome mh * list vec * list step_ev) : Prop :=
  outs mh_rel (fst (fst r)) (fst (fst r')) /\ recoords a b (snd (fst r)) (snd (fst r')) /\ Forall2 (step_units a b) (snd r) (snd r').
Lemma mcmc_units timeout n : forall tape tape' s s' acc acc', Forall2 (step_units a b) tape tape' -> mh_rel s s' -> recoords a b acc acc' ->
  triple (mcmc P lp timeout n tape s acc) (mcmc P' lp' timeout n tape' s' acc').
Proof.
  induction n as [|n IH]; intros tape tape' s s' acc acc' F M C; [split; [exact M|split; auto]|]. cbn [mcmc].
  replace (mh_steps P') with (mh_steps P) by (symmetry; apply Sp). pose proof (mh_steps_units timeout (mh_steps P) tape tape' s s' F M) as H. cbn zeta in H.
  destruct (mh_steps_n P lp _ _ _ _) as [o t], (mh_steps_n P' lp' _ _ _ _) as [o' t']. cbn [fst snd] in H. destruct H as (H & T).
  destruct o as [u|u|e u], o' as [u'|u'|e' u']; simpl in H; try contradiction; [|split; [exact H|split; auto]|split; [exact H|split; auto]].
  pose proof H as (C1 & M2 & M3 & M4 & M5). rewrite M5. destruct (set_last (mh_types u) SAMPLE); [|split; [split; auto|split; auto]].
  apply IH; auto; [|apply app_rel; auto; constructor; auto; constructor].
  split; [exact C1|]. simpl. repeat split; auto.
Qed.
Lemma mh_burn_units n : forall tape tape' s s', Forall2 (step_units a b) tape tape' -> mh_rel s s' ->
  let r := mh_burn P lp n tape s in let r' := mh_burn P' lp' n tape' s' in outs mh_rel (fst r) (fst r') /\ Forall2 (step_units a b) (snd r) (snd r').
Proof.
  induction n as [|n IH]; intros tape tape' s s' F M; [simpl; auto|]. cbn [mh_burn]. destruct F as [|e e' t t' (E1 & E2) F]; [simpl; auto|].
  pose proof (mh_advance_units 60 BURN_IN _ _ s s' E2 M) as H. destruct (mh_advance P lp _ _ _ _), (mh_advance P' lp' _ _ _ _); simpl in H; try tauto; try (now apply IH); simpl; auto.
Qed.
Lemma mh_sample_loop_units timeout n k : forall tape tape' s s' acc acc', Forall2 (step_units a b) tape tape' -> mh_rel s s' -> recoords a b acc acc' ->
  triple (mh_sample_loop P lp timeout n k tape s acc) (mh_sample_loop P' lp' timeout n k tape' s' acc').
Proof.
  induction k as [|m IH]; intros tape tape' s s' acc acc' F M C; [split; [exact M|split; auto]|]. cbn [mh_sample_loop].
  pose proof (mcmc_units timeout n tape tape' s s' [] [] F M (Forall2_nil _)) as (H & Rw & T).
  destruct (mcmc P lp _ _ _ _ _) as [[o rw] t], (mcmc P' lp' _ _ _ _ _) as [[o' rw'] t']. cbn [fst snd] in *.
  destruct o, o'; simpl in H; try contradiction; [apply IH; auto; now apply app_rel|split; [exact H|split; auto]|split; [exact H|split; auto]].
Qed.
Lemma mh_sample_units timeout n tape tape' s s' : Forall2 (step_units a b) tape tape' -> mh_rel s s' -> triple (mh_sample P lp timeout n tape s) (mh_sample P' lp' timeout n tape' s').
Proof.
  intros F M. unfold mh_sample. replace (mh_is_init s') with (mh_is_init s) by (symmetry; apply M). destruct (mh_is_init s); [apply mh_sample_loop_units; auto; constructor|].
  replace (mh_burnin P') with (mh_burnin P) by (symmetry; apply Sp). pose proof (mh_burn_units (mh_burnin P) tape tape' s s' F M) as H. cbn zeta in H.
  destruct (mh_burn P lp _ _ _) as [o t], (mh_burn P' lp' _ _ _) as [o' t']. cbn [fst snd] in H. destruct H as (H & T).
  destruct o, o'; simpl in H; try contradiction; [|split; [exact H|split; [constructor|auto]]|split; [exact H|split; [constructor|auto]]].
  apply mh_sample_loop_units; auto; [|constructor]. destruct H as (H1 & H2 & H3 & H4 & H5). split; [exact H1|]. simpl. repeat split; auto.
Qed.
Lemma mh_is_units timeout n tape tape' : Forall2 (is_units a b) tape tape' -> forall el s s', mh_rel s s' -> outs mh_rel (mh_is_loop P lp timeout n tape el s) (mh_is_loop P' lp' timeout n tape' el s').
Proof.
  induction 1 as [|e e' t t' (E1 & E2) F IH]; intros el s s' M; cbn [mh_is_loop]; rewrite (recoords_length a b _ _ (proj1 (proj1 M))); destruct (_ && _); try exact M.
  rewrite E2. pose proof (mh_sample_units timeout 1 _ _ s s' E1 M) as (H & Rw & T).
  destruct (mh_sample P lp _ _ _ _) as [[o rw] q], (mh_sample P' lp' _ _ _ _) as [[o' rw'] q']. cbn [fst snd] in *.
  destruct o, o'; simpl in H; try tauto; try exact H. apply IH. destruct H as (H1 & H2 & H3 & H4 & H5). unfold mh_rel; simpl. repeat split; simpl; auto; try apply H1. apply app_rel; [apply H1|auto].
Qed.
Lemma mh_call_units n timeout tape tape' pick s s' : Forall2 (is_units a b) tape tape' -> mh_rel s s' ->
  outs mh_rel (mh_importance_sample P lp n timeout tape pick s) (mh_importance_sample P' lp' n timeout tape' pick s').
Proof.
  intros F M. unfold mh_importance_sample. pose proof (mh_is_units timeout n tape tape' F 0 s s' M) as H.
  destruct (mh_is_loop P lp _ _ _ _ _) as [t|t|e t], (mh_is_loop P' lp' _ _ _ _ _) as [t'|t'|e' t']; simpl in H; try tauto; try exact H.
  destruct H as (C & H2 & H3 & H4 & H5). destruct C as (C1 & C2 & C3 & C4 & C5 & C6 & C7). rewrite (recoords_length a b _ _ C1). replace (mh_kde P') with (mh_kde P) by (symmetry; apply Sp).
  pose proof (update_model_units a b (mh_kde P) pick _ _ C1) as U. destruct (update_model _ _ (samples (mh_core t))), (update_model _ _ (samples (mh_core t'))); try tauto; subst; simpl; unfold mh_rel, core_units; simpl; repeat split; auto.
Qed.
End Target.
Lemma core_reset_units c c' : core_units (core_reset c) (core_reset c').
Proof. repeat split; constructor. Qed.
Lemma mh_query_units pick s s' : mh_rel s s' -> outs mh_rel (mh_query P pick s) (mh_query P' pick s').
Proof.
  intros (C & H2 & H3 & H4 & H5). unfold mh_query, core_query. replace (mh_kde P') with (mh_kde P) by (symmetry; apply Sp). pose proof C as (C1 & C2 & C3 & C4 & C5 & C6 & C7).
  destruct (model (mh_core s)) as [m|] eqn:Em, (model (mh_core s')) as [m'|] eqn:Em'; simpl in C6; try tauto.
  - simpl. unfold mh_rel. simpl. repeat split; auto. rewrite Em, Em'. exact C6.
  - pose proof (update_model_units a b (mh_kde P) pick _ _ C1) as U. destruct (update_model _ _ (samples (mh_core s))), (update_model _ _ (samples (mh_core s'))); try tauto; subst; simpl; unfold mh_rel, core_units; simpl; repeat split; auto.
    rewrite Em, Em'. exact I.
Qed.
Lemma mh_run_units o o' s s' : mh_units a b o o' -> mh_rel s s' -> outs mh_rel (mh_run P o s) (mh_run P' o' s').
Proof.
  intros H M. destruct o as [|pick|lp t n tape|lp t n tape pick], o' as [|pick'|lp' t' n' tape'|lp' t' n' tape' pick']; simpl in H; try contradiction.
  - destruct M as (C & H2 & H3 & H4 & H5). simpl. unfold mh_rel. simpl. repeat split; auto; constructor.
  - subst. now apply mh_query_units.
  - destruct H as (Lp & -> & -> & F). apply (mh_sample_units lp lp' Lp t n tape tape' s s' F M).
  - destruct H as (Lp & -> & -> & F & ->). now apply mh_call_units.
Qed.
End MH.

Section Rej.
Variables (P P' : rej_params) (pi pi' : vec -> Q).
Hypothesis Sp : rej_space a b P P'.
Hypothesis D : redensity a b pi pi'.
Lemma rej_accepted_units r r' k : round_units a b r r' -> recoords a b (rej_accepted P pi r k) (rej_accepted P' pi' r' k).
Proof.
  intros (Rd & Ru & _). unfold rej_accepted. rewrite (filter_ext (fun i => fgtQ (rej_ratio P' pi' (rr_draw r' i)) (rr_u r' i)) (fun i => fgtQ (rej_ratio P pi (rr_draw r i)) (rr_u r i))).
  - apply recoords_draws. exact Rd.
  - intros i. rewrite Ru. apply (times_gt 1); [reflexivity| |ring]. destruct (redensity_inv a b A) as (c & C & Hc). destruct Sp as (Sq & Ss & _).
    apply times_k with (c / c); [field; intros E; rewrite E in C; discriminate|]. unfold rej_ratio. apply times_fdivQ; [exact C|exact C|apply Hc; auto|rewrite (Hc _ _ Sq _ _ (Rd i)), Ss; ring].
Qed.
Lemma rej_loop_units n timeout tape tape' : Forall2 (round_units a b) tape tape' -> forall el s s', core_units s s' ->
  outs core_units (rej_loop P pi n timeout tape el s) (rej_loop P' pi' n timeout tape' el s').
Proof.
  induction 1 as [|r r' t t' Rr F IH]; intros el s s' C; cbn [rej_loop]; rewrite (recoords_length a b _ _ (proj1 C)); destruct (_ && _); try exact C.
  replace (rr_clock r') with (rr_clock r) by (symmetry; apply Rr). apply IH. unfold rej_iter. rewrite (recoords_length a b _ _ (proj1 C)). destruct C as (C1 & C2 & C3 & C4 & C5 & C6 & C7).
  pose proof (rej_accepted_units r r' (n - length (samples s)) Rr) as Ac. unfold core_units; simpl. rewrite C2, C3, C4, C5. repeat split; auto.
  - apply app_rel; auto.
  - f_equal. clear -Ac. induction Ac; simpl; f_equal; auto.
  - apply app_rel; auto. apply recoords_draws. apply Rr.
Qed.
Lemma rej_call_units n timeout e0 tape tape' pick s s' : Forall2 (round_units a b) tape tape' -> core_units s s' ->
  outs core_units (rej_importance_sample P pi n timeout e0 tape pick s) (rej_importance_sample P' pi' n timeout e0 tape' pick s').
Proof.
  intros F C. unfold rej_importance_sample. pose proof (rej_loop_units n timeout tape tape' F e0 s s' C) as H.
  destruct (rej_loop P pi _ _ _ _ _) as [t|t|e t], (rej_loop P' pi' _ _ _ _ _) as [t'|t'|e' t']; simpl in H; try tauto; try exact H.
  destruct H as (C1 & C2 & C3 & C4 & C5 & C6 & C7). unfold rej_finish. cbn [samples]. rewrite C2. replace (rj_kde P') with (rj_kde P) by (symmetry; apply Sp).
  pose proof (update_model_units a b (rj_kde P) pick _ _ C1) as U. destruct (update_model _ _ (samples t)), (update_model _ _ (samples t')); try tauto; subst; simpl; unfold core_units; simpl; repeat split; auto.
Qed.
End Rej.
End Units.
