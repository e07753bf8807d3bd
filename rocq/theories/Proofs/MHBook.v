From Coq Require Import List Bool Arith Lia QArith Lqa.
Import ListNotations.
From Verif Require Import Prelude.Py Prelude.QBase Prelude.QFacts Model.Base Model.MetropolisHastings
  Spec.Box Spec.MHSpec Proofs.MHProofs Proofs.RejectionProofs.
Open Scope Q_scope.

(** ** Bookkeeping invariant, at every moment *)
Definition book (s : mh) : Prop :=
  length (mh_types s) = length (mh_traj s) /\
  num_q_samples (mh_core s) = length (mh_traj s) /\
  num_pi_evals (mh_core s) = (2 * length (mh_traj s))%nat /\
  num_q_evals (mh_core s) = (2 * length (mh_traj s))%nat.

Lemma book_step_loop P lp timeout x_old tape : forall acc el x_new s,
  book s ->
  match mh_step_loop P lp timeout x_old tape acc el x_new s with
  | SDone _ s' | SRunning s' | SFail _ s' => book s'
  end.
Proof.
  assert (Stop : forall x_new s, book s ->
    match (match set_last (mh_types s) ACCEPT with
           | Raise e => SFail e s
           | Ok ty => SDone x_new (mkState (mh_core s) (mh_current s) (mh_is_init s) (mh_traj s) ty)
           end) with SDone _ s' | SRunning s' | SFail _ s' => book s' end).
  { intros x_new s H. destruct (set_last _ _) eqn:E; auto.
    apply set_last_length in E. unfold book in *; simpl; intuition; congruence. }
  induction tape as [|a t IH]; intros acc el x_new s H; cbn [mh_step_loop];
    destruct (negb acc && Qltb el timeout); try exact H; try (apply Stop; exact H).
  apply IH. unfold book in *; simpl. rewrite !app_length; simpl; lia.
Qed.

Lemma book_relabel s lab ty x i :
  set_last (mh_types s) lab = Ok ty -> book s -> book (mkState (mh_core s) x i (mh_traj s) ty).
Proof.
  intros E H. apply set_last_length in E. unfold book in *; simpl; intuition; congruence.
Qed.

Lemma book_advance P lp timeout lab tape s :
  book s -> book (out_state (mh_advance P lp timeout lab tape s)).
Proof.
  intros H. unfold mh_advance, mcmc_step.
  pose proof (book_step_loop P lp timeout (mh_current s) tape false 0 (mh_current s) s H) as G.
  destruct (mh_step_loop _ _ _ _ _ _ _ _ _) as [x s'|s'|e s']; simpl; auto.
  destruct (set_last (mh_types s') lab) eqn:E; simpl; auto. eapply book_relabel; eauto.
Qed.

Lemma book_steps_n P lp timeout n : forall tape s,
  book s -> book (out_state (fst (mh_steps_n P lp timeout n tape s))).
Proof.
  induction n as [|n IH]; intros tape s H; simpl; auto.
  destruct tape as [|e t]; simpl; auto.
  pose proof (book_advance P lp (timeout - se_elapsed e) DECORRELATION (se_attempts e) s H) as G.
  destruct (mh_advance _ _ _ _ _ _); simpl in *; auto.
Qed.

Lemma book_mcmc P lp timeout n : forall tape s acc,
  book s -> book (out_state (fst (fst (mcmc P lp timeout n tape s acc)))).
Proof.
  induction n as [|n IH]; intros tape s acc H; simpl; auto.
  pose proof (book_steps_n P lp timeout (mh_steps P) tape s H) as G.
  destruct (mh_steps_n P lp timeout (mh_steps P) tape s) as [[s1|s1|e s1] t1]; simpl in *; auto.
  destruct (set_last (mh_types s1) SAMPLE) eqn:E; simpl; auto.
  apply IH. eapply book_relabel; eauto.
Qed.

Lemma book_burn P lp n : forall tape s,
  book s -> book (out_state (fst (mh_burn P lp n tape s))).
Proof.
  induction n as [|n IH]; intros tape s H; simpl; auto.
  destruct tape as [|e t]; simpl; auto.
  pose proof (book_advance P lp 60 BURN_IN (se_attempts e) s H) as G.
  destruct (mh_advance _ _ _ _ _ _); simpl in *; auto.
Qed.

Lemma book_sample_loop P lp timeout n k : forall tape s acc,
  book s -> book (out_state (fst (fst (mh_sample_loop P lp timeout n k tape s acc)))).
Proof.
  induction k as [|k IH]; intros tape s acc H; simpl; auto.
  pose proof (book_mcmc P lp timeout n tape s (@nil vec) H) as G.
  destruct (mcmc P lp timeout n tape s []) as [[[s1|s1|e s1] rows] t1]; simpl in *; auto.
Qed.

Lemma book_sample P lp timeout n tape s :
  book s -> book (out_state (fst (fst (mh_sample P lp timeout n tape s)))).
Proof.
  intros H. unfold mh_sample. destruct (mh_is_init s).
  - apply book_sample_loop; auto.
  - pose proof (book_burn P lp (mh_burnin P) tape s H) as G.
    destruct (mh_burn P lp (mh_burnin P) tape s) as [[s1|s1|e s1] t1]; simpl in *; auto.
    apply book_sample_loop; auto.
Qed.

Lemma book_is P lp n timeout tape pick s :
  book s -> book (out_state (mh_importance_sample P lp n timeout tape pick s)).
Proof.
  intros H. unfold mh_importance_sample.
  assert (G : book (out_state (mh_is_loop P lp timeout n tape 0 s))).
  { generalize 0 as el. revert s H. induction tape as [|e t IH]; intros s H el; cbn [mh_is_loop];
      destruct (_ && _); simpl; auto.
    pose proof (book_sample P lp timeout 1 (ie_steps e) s H) as G.
    destruct (mh_sample P lp timeout 1 (ie_steps e) s) as [[[s1|s1|x s1] rows] t1]; simpl in *; auto. }
  destruct (mh_is_loop _ _ _ _ _ _ _) as [s1|s1|e s1]; auto.
  destruct (update_model _ _ _); auto.
Qed.

Lemma book_run P o s : book s -> book (out_state (mh_run P o s)).
Proof.
  intros H. destruct o; simpl.
  - unfold book; simpl; auto.
  - unfold mh_query, core_query. destruct (model (mh_core s)); [exact H|].
    destruct (update_model _ _ _); exact H.
  - apply book_sample; auto.
  - apply book_is; auto.
Qed.

Lemma book_reachable P x0 ops s : mh_reachable P x0 ops s -> book s.
Proof.
  induction 1 as [|ops s o s' H IH Hr].
  - unfold book; simpl; auto.
  - pose proof (book_run P o s IH) as G. destruct Hr as [Hr|[e Hr]]; rewrite Hr in G; exact G.
Qed.

Lemma book_everywhere P x0 ops s o : mh_reachable P x0 ops s -> book (out_state (mh_run P o s)).
Proof. intros H. apply book_run. eapply book_reachable; eauto. Qed.

(** ** Exact effect of one step *)
Record step_effect (P : mh_params) (lp : vec -> fl Q) (timeout : Q) (x : vec) (s s' : mh)
       (rej : list attempt) (a : attempt) : Prop := {
  sf_traj : mh_traj s' = mh_traj s ++ map (mh_propose P x) (rej ++ [a]);
  sf_types : mh_types s' = mh_types s ++ repeat REJECT (length rej) ++ [ACCEPT];
  sf_cur : mh_current s' = mh_current s;
  sf_init : mh_is_init s' = mh_is_init s;
  sf_samples : samples (mh_core s') = samples (mh_core s);
  sf_rej : Forall (fun b => mh_accept P lp x (mh_propose P x b) b = false /\ at_clock b < timeout) rej;
  sf_last : mh_accept P lp x (mh_propose P x a) a = true \/ timeout <= at_clock a
}.

Lemma removelast_app1 {A} (l : list A) a : removelast (l ++ [a]) = l.
Proof. apply removelast_last. Qed.

Lemma step_loop_effect P lp timeout x tape : forall el x_new s x' s',
  el < timeout ->
  mh_step_loop P lp timeout x tape false el x_new s = SDone x' s' ->
  exists rej a rest, tape = rej ++ a :: rest /\ x' = mh_propose P x a /\
    step_effect P lp timeout x s s' rej a.
Proof.
  induction tape as [|a t IH]; intros el x_new s x' s' Hel; cbn [mh_step_loop];
    destruct (Qltb_spec el timeout); try lra; cbn [negb andb]; try discriminate.
  set (y := mh_propose P x a). intros H.
  destruct (mh_accept P lp x y a) eqn:Acc.
  - (* accepted: the loop stops *)
    exists [], a, t. simpl. split; [reflexivity|].
    assert (H2 : x' = y /\ s' = mkState (mh_core (mh_record y s)) (mh_current s) (mh_is_init s)
                     (mh_traj s ++ [y]) (mh_types s ++ [ACCEPT])).
    { destruct t; cbn [mh_step_loop negb andb] in H; simpl mh_types in H;
      destruct (mh_types s ++ [REJECT]) eqn:Tt; try (destruct (mh_types s); discriminate);
      cbn [set_last] in H; rewrite <- Tt, removelast_app1 in H; injection H as <- <-; auto. }
    destruct H2 as [-> ->]. split; [reflexivity|]. constructor; simpl; auto.
  - destruct (Qlt_le_dec (at_clock a) timeout) as [C|C].
    + apply IH in H; auto. destruct H as (rej & b & rest & -> & -> & E).
      exists (a :: rej), b, rest. split; [reflexivity|]. split; [reflexivity|].
      destruct E as [E1 E2 E3 E4 E5 E6 E7]. constructor; auto.
      * rewrite E1. simpl. rewrite <- app_assoc. reflexivity.
      * rewrite E2. simpl. rewrite <- app_assoc. reflexivity.
    + exists [], a, t. simpl. split; [reflexivity|].
      assert (H2 : x' = y /\ s' = mkState (mh_core (mh_record y s)) (mh_current s) (mh_is_init s)
                     (mh_traj s ++ [y]) (mh_types s ++ [ACCEPT])).
      { destruct t; cbn [mh_step_loop negb andb] in H; (destruct (Qltb_spec (at_clock a) timeout); [lra|]);
        simpl mh_types in H;
        destruct (mh_types s ++ [REJECT]) eqn:Tt; try (destruct (mh_types s); discriminate);
        cbn [set_last] in H; rewrite <- Tt, removelast_app1 in H; injection H as <- <-; auto. }
      destruct H2 as [-> ->]. split; [reflexivity|]. constructor; simpl; auto.
Qed.

Lemma step_effect_full P lp timeout tape x s x' s' :
  0 < timeout ->
  mcmc_step P lp timeout tape x s = SDone x' s' ->
  exists rej a rest, tape = rej ++ a :: rest /\ x' = mh_propose P x a /\
    step_effect P lp timeout x s s' rej a.
Proof. intros H. unfold mcmc_step. apply step_loop_effect; auto. Qed.

Lemma step_accepted P lp timeout tape x s x' s' :
  0 < timeout -> (forall a, In a tape -> at_clock a < timeout) ->
  mcmc_step P lp timeout tape x s = SDone x' s' ->
  exists rej a rest, tape = rej ++ a :: rest /\
    x' = vclip (vadd x (at_delta a)) (mh_lo P) (mh_hi P) /\
    mh_accept P lp x x' a = true /\
    Forall (fun b => mh_accept P lp x (vclip (vadd x (at_delta b)) (mh_lo P) (mh_hi P)) b = false) rej.
Proof.
  intros Ht Hc H. apply step_effect_full in H; auto.
  destruct H as (rej & a & rest & -> & -> & E). exists rej, a, rest. split; [reflexivity|].
  split; [reflexivity|]. destruct E as [_ _ _ _ _ E6 E7]. split.
  - destruct E7 as [|E7]; auto. specialize (Hc a). rewrite in_app_iff in Hc.
    specialize (Hc (or_intror (or_introl eq_refl))). lra.
  - eapply Forall_impl; [|exact E6]. intros b [Hb _]. exact Hb.
Qed.

Lemma accept_rule P lp x y a lu px py fw bw :
  at_logu a = Fin lu -> lp x = Fin px -> lp y = Fin py ->
  mh_lq P (vsub y x) = Fin fw -> mh_lq P (vsub x y) = Fin bw ->
  mh_accept P lp x y a = true <-> mh_rule lu px py fw bw.
Proof.
  intros E1 E2 E3 E4 E5. unfold mh_accept, mh_rule. rewrite E1, E2, E3, E4, E5. cbn.
  rewrite Qltb_true. split; lra.
Qed.

Lemma accept_zero_density P lp x y a fw bw :
  lp y = NInf -> mh_lq P (vsub y x) = Fin fw -> mh_lq P (vsub x y) = Fin bw ->
  mh_accept P lp x y a = false.
Proof.
  intros E1 E4 E5. unfold mh_accept. rewrite E1, E4, E5.
  destruct (lp x); cbn; destruct (at_logu a); reflexivity.
Qed.

(** ** Number of rows returned by sample(n) *)
Lemma mcmc_rows P lp timeout n : forall tape s acc s' rows t',
  mcmc P lp timeout n tape s acc = (Done s', rows, t') -> length rows = (length acc + n)%nat.
Proof.
  induction n as [|n IH]; intros tape s acc s' rows t'; simpl.
  - intros H; injection H as <- <- <-. lia.
  - destruct (mh_steps_n P lp timeout (mh_steps P) tape s) as [[s1|s1|e s1] t1]; try discriminate.
    destruct (set_last _ _); try discriminate.
    intros H. apply IH in H. rewrite app_length in H. simpl in H. lia.
Qed.

Lemma sample_loop_rows P lp timeout n k : forall tape s acc s' rows t',
  mh_sample_loop P lp timeout n k tape s acc = (Done s', rows, t') -> length rows = (length acc + k * n)%nat.
Proof.
  induction k as [|k IH]; intros tape s acc s' rows t'; simpl.
  - intros H; injection H as <- <- <-. lia.
  - destruct (mcmc P lp timeout n tape s []) as [[[s1|s1|e s1] rows1] t1] eqn:E; try discriminate.
    intros H. apply mcmc_rows in E. apply IH in H. rewrite app_length in H. simpl in *. lia.
Qed.

Lemma sample_rows P lp timeout n tape s s' rows t' :
  mh_sample P lp timeout n tape s = (Done s', rows, t') -> length rows = (n * n)%nat.
Proof.
  unfold mh_sample. destruct (mh_is_init s).
  - intros H. apply sample_loop_rows in H. simpl in H. lia.
  - destruct (mh_burn P lp (mh_burnin P) tape s) as [[s1|s1|e s1] t1]; try discriminate.
    intros H. apply sample_loop_rows in H. simpl in H. lia.
Qed.

(** ** importance_sample: count, prefix, weights *)
Lemma is_loop_count P lp timeout n tape : forall el s s',
  mh_is_loop P lp timeout n tape el s = Done s' ->
  (exists added, samples (mh_core s') = samples (mh_core s) ++ added) /\
  (length (samples (mh_core s')) <= Nat.max n (length (samples (mh_core s))))%nat /\
  (el < timeout -> (forall e, In e tape -> ie_clock e < timeout) ->
    length (samples (mh_core s')) = Nat.max n (length (samples (mh_core s)))).
Proof.
  assert (Stop : forall s (el : Q) (tape : list is_ev), ((n <= length (samples (mh_core s)))%nat \/ timeout <= el) ->
    (exists added, samples (mh_core s) = samples (mh_core s) ++ added) /\
    (length (samples (mh_core s)) <= Nat.max n (length (samples (mh_core s))))%nat /\
    (el < timeout -> (forall e, In e tape -> ie_clock e < timeout) ->
      length (samples (mh_core s)) = Nat.max n (length (samples (mh_core s))))).
  { intros s el tp H. split; [exists []; now rewrite app_nil_r|]. split; [lia|].
    intros He _. destruct H; [lia|lra]. }
  induction tape as [|e t IH]; intros el s s'; cbn [mh_is_loop];
    destruct (Nat.ltb_spec (length (samples (mh_core s))) n) as [N|N];
    destruct (Qltb_spec el timeout) as [L|L]; cbn [andb]; intros H; try discriminate;
    try (injection H as <-; apply Stop; first [left; lia | right; lra]).
  destruct (mh_sample P lp timeout 1 (ie_steps e) s) as [[[s1|s1|x s1] rows] t1] eqn:E; try discriminate.
  assert (S1 : samples (mh_core s1) = samples (mh_core s)).
  { clear - E.
    assert (adv : forall to lab tp u u', mh_advance P lp to lab tp u = Done u' -> samples (mh_core u') = samples (mh_core u)).
    { intros to lab tp u u'. unfold mh_advance, mcmc_step.
      assert (L : forall tp acc el x_new v x w, mh_step_loop P lp to (mh_current u) tp acc el x_new v = SDone x w ->
                  samples (mh_core w) = samples (mh_core v)).
      { induction tp0 as [|b tp0 IH]; intros acc el x_new v x w; cbn [mh_step_loop];
          destruct (negb acc && Qltb el to); try discriminate.
        - destruct (set_last _ _); try discriminate. intros H; injection H as <- <-. reflexivity.
        - intros H. apply IH in H. exact H.
        - destruct (set_last _ _); try discriminate. intros H; injection H as <- <-. reflexivity. }
      destruct (mh_step_loop _ _ _ _ _ _ _ _ _) eqn:E0; try discriminate.
      apply L in E0. destruct (set_last _ _); try discriminate. intros H; injection H as <-. exact E0. }
    assert (sn : forall k tp u u' tp', mh_steps_n P lp timeout k tp u = (Done u', tp') -> samples (mh_core u') = samples (mh_core u)).
    { induction k as [|k IH]; intros tp u u' tp'; simpl.
      - intros H; injection H as <- <-. reflexivity.
      - destruct tp as [|a tp]; try discriminate.
        destruct (mh_advance _ _ _ _ _ _) eqn:A; try discriminate.
        intros H. apply IH in H. apply adv in A. congruence. }
    assert (mc : forall k tp u acc u' r tp', mcmc P lp timeout k tp u acc = (Done u', r, tp') -> samples (mh_core u') = samples (mh_core u)).
    { induction k as [|k IH]; intros tp u acc u' r tp'; simpl.
      - intros H; injection H as <- <- <-. reflexivity.
      - destruct (mh_steps_n P lp timeout (mh_steps P) tp u) as [[v|v|x v] w] eqn:A; try discriminate.
        destruct (set_last _ _); try discriminate.
        intros H. apply IH in H. apply sn in A. simpl in H. congruence. }
    assert (sl : forall k n tp u acc u' r tp', mh_sample_loop P lp timeout n k tp u acc = (Done u', r, tp') -> samples (mh_core u') = samples (mh_core u)).
    { induction k as [|k IH]; intros m tp u acc u' r tp'; simpl.
      - intros H; injection H as <- <- <-. reflexivity.
      - destruct (mcmc P lp timeout m tp u []) as [[[v|v|x v] w] z] eqn:A; try discriminate.
        intros H. apply IH in H. apply mc in A. congruence. }
    assert (bn : forall k tp u u' tp', mh_burn P lp k tp u = (Done u', tp') -> samples (mh_core u') = samples (mh_core u)).
    { induction k as [|k IH]; intros tp u u' tp'; simpl.
      - intros H; injection H as <- <-. reflexivity.
      - destruct tp as [|a tp]; try discriminate.
        destruct (mh_advance _ _ _ _ _ _) eqn:A; try discriminate.
        intros H. apply IH in H. apply adv in A. congruence. }
    unfold mh_sample in E. destruct (mh_is_init s).
    - apply sl in E. exact E.
    - destruct (mh_burn P lp (mh_burnin P) (ie_steps e) s) as [[v|v|x v] w] eqn:A; try discriminate.
      apply sl in E. apply bn in A. simpl in E. congruence. }
  apply sample_rows in E. simpl in E.
  apply IH in H. cbn [mh_core samples] in H. rewrite S1 in H.
  destruct H as [[a Ha] [Hb Hc]]. rewrite app_length, E in Hb, Hc.
  split; [exists (rows ++ a); rewrite Ha, app_assoc; reflexivity|]. split; [lia|].
  intros _ Hcl. rewrite Hc; [lia| |].
  - apply Hcl. now left.
  - intros e' He'. apply Hcl. now right.
Qed.

Lemma is_request P lp n timeout tape pick s s' :
  mh_importance_sample P lp n timeout tape pick s = Done s' ->
  (exists added, samples (mh_core s') = samples (mh_core s) ++ added) /\
  (length (samples (mh_core s')) <= Nat.max n (length (samples (mh_core s))))%nat /\
  (0 < timeout -> (forall e, In e tape -> ie_clock e < timeout) ->
    length (samples (mh_core s')) = Nat.max n (length (samples (mh_core s)))) /\
  weights (mh_core s') = repeat (1 / Qnat (length (samples (mh_core s')))) (length (samples (mh_core s'))) /\
  Qsum (weights (mh_core s')) == 1.
Proof.
  unfold mh_importance_sample.
  destruct (mh_is_loop _ _ _ _ _ _ _) as [s1|s1|e s1] eqn:E; try discriminate.
  apply is_loop_count in E. destruct E as (E1 & E2 & E3).
  destruct (update_model _ _ _) eqn:U; try discriminate.
  intros H; injection H as <-. cbn [mh_core samples weights]. repeat split; auto.
  apply uniform_weights_sum. destruct (samples (mh_core s1)); simpl; [|lia].
  unfold update_model in U. destruct (mh_kde P); discriminate.
Qed.
