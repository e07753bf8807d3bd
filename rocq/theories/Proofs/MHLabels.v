From Coq Require Import List Bool Arith Lia QArith Lqa.
Import ListNotations.
From Verif Require Import Prelude.Py Prelude.QBase Prelude.QFacts Model.Base Model.MetropolisHastings
  Proofs.MHProofs Proofs.MHBook.
Open Scope Q_scope.

(** Number of points labelled as samples. *)
Definition is_sample (l : label) : bool := match l with SAMPLE => true | _ => false end.
Definition n_sample_labels (s : mh) : nat := length (filter is_sample (mh_types s)).

Definition steps_timely (timeout : Q) (l : list step_ev) := Forall (fun e => se_elapsed e < timeout) l.
Definition iss_timely (timeout : Q) (l : list is_ev) := Forall (fun e => steps_timely timeout (ie_steps e)) l.

Section Labels.
Variable P : mh_params.

Lemma step_no_fail lp timeout x tape : forall acc el x_new s e s',
  (mh_types s <> [] \/ (acc = false /\ el < timeout)) ->
  mh_step_loop P lp timeout x tape acc el x_new s <> SFail e s'.
Proof.
  induction tape as [|a t IH]; intros acc el x_new s e s' H; cbn [mh_step_loop];
    destruct (negb acc && Qltb el timeout) eqn:C; try discriminate.
  - destruct (set_last _ _) eqn:E; try discriminate. apply set_last_raise in E.
    destruct H as [H|[-> H]]; [intuition|]. simpl in C. apply Qltb_false in C. lra.
  - apply IH. left. simpl. destruct (mh_types s); discriminate.
  - destruct (set_last _ _) eqn:E; try discriminate. apply set_last_raise in E.
    destruct H as [H|[-> H]]; [intuition|]. simpl in C. apply Qltb_false in C. lra.
Qed.

Lemma filter_repeat_reject k : filter is_sample (repeat REJECT k) = [].
Proof. induction k; simpl; auto. Qed.

Lemma advance_labels lp timeout lab tape s :
  0 < timeout ->
  match mh_advance P lp timeout lab tape s with
  | Done s' => (exists k, mh_types s' = mh_types s ++ repeat REJECT k ++ [lab]) /\
               samples (mh_core s') = samples (mh_core s)
  | Running _ => True
  | Failed _ _ => False
  end.
Proof.
  intros Ht. unfold mh_advance.
  destruct (mcmc_step P lp timeout tape (mh_current s) s) as [x s'|s'|e s'] eqn:E; auto.
  - apply step_effect_full in E; auto. destruct E as (rej & a & rest & _ & _ & [_ E2 _ _ E5 _ _]).
    destruct (set_last (mh_types s') lab) as [ty|e] eqn:L.
    + apply set_last_ok in L. destruct L as [_ ->]. simpl. split; [|exact E5]. exists (length rej).
      rewrite E2, app_assoc, removelast_app1, <- app_assoc. reflexivity.
    + apply set_last_raise in L. destruct L as [L _]. rewrite L in E2.
      destruct (mh_types s); simpl in E2; [destruct (repeat REJECT (length rej))|]; discriminate.
  - revert E. apply step_no_fail. right. split; [reflexivity|lra].
Qed.

Lemma count_ext l k lab :
  length (filter is_sample (l ++ repeat REJECT k ++ [lab])) =
  (length (filter is_sample l) + length (filter is_sample [lab]))%nat.
Proof. rewrite !filter_app, filter_repeat_reject, app_length. simpl. reflexivity. Qed.

Lemma steps_n_labels lp timeout n : forall tape s,
  steps_timely timeout tape ->
  match mh_steps_n P lp timeout n tape s with
  | (Done s', t') =>
      n_sample_labels s' = n_sample_labels s /\ samples (mh_core s') = samples (mh_core s) /\
      steps_timely timeout t' /\ ((n = O /\ s' = s) \/ exists l, mh_types s' = l ++ [DECORRELATION])
  | (Running _, _) => True
  | (Failed _ _, _) => False
  end.
Proof.
  induction n as [|n IH]; intros tape s Ht; simpl.
  - repeat split; auto.
  - destruct tape as [|e t]; auto. inversion Ht as [|? ? He Ht']; subst.
    pose proof (advance_labels lp (timeout - se_elapsed e) DECORRELATION (se_attempts e) s ltac:(lra)) as A.
    destruct (mh_advance _ _ _ _ _ _) as [s1|s1|x s1]; auto.
    destruct A as [[k A] A'].
    specialize (IH t s1 Ht').
    destruct (mh_steps_n P lp timeout n t s1) as [[s2|s2|x s2] t2]; auto.
    destruct IH as (I1 & I2 & I3 & I4). split; [|split; [|split]]; auto.
    + rewrite I1. unfold n_sample_labels. rewrite A, count_ext. simpl. lia.
    + congruence.
    + right. destruct I4 as [[_ ->]|I4]; auto.
      exists (mh_types s ++ repeat REJECT k). rewrite <- app_assoc. exact A.
Qed.

Hypothesis Hsteps : mh_steps P <> O.

Lemma mcmc_labels lp timeout n : forall tape s acc,
  steps_timely timeout tape ->
  match mcmc P lp timeout n tape s acc with
  | (Done s', rows, t') =>
      n_sample_labels s' = (n_sample_labels s + n)%nat /\ samples (mh_core s') = samples (mh_core s) /\
      steps_timely timeout t'
  | (Running _, _, _) => True
  | (Failed _ _, _, _) => False
  end.
Proof.
  induction n as [|n IH]; intros tape s acc Ht; simpl.
  - repeat split; auto.
  - pose proof (steps_n_labels lp timeout (mh_steps P) tape s Ht) as A.
    destruct (mh_steps_n P lp timeout (mh_steps P) tape s) as [[s1|s1|x s1] t1]; auto.
    destruct A as (A1 & A2 & A3 & [[A4 _]|[l A4]]); [congruence|].
    assert (L : set_last (mh_types s1) SAMPLE = Ok (l ++ [SAMPLE])).
    { rewrite A4. unfold set_last. destruct (l ++ [DECORRELATION]) eqn:E; [destruct l; discriminate|].
      rewrite <- E, removelast_app1. reflexivity. }
    rewrite L.
    specialize (IH t1 (mkState (mh_core s1) (mh_current s1) (mh_is_init s1) (mh_traj s1) (l ++ [SAMPLE]))
                   (acc ++ [mh_current s1]) A3).
    cbn [mh_current] in *.
    destruct (mcmc P lp timeout n t1 _ _) as [[[s2|s2|x s2] rows] t2]; auto.
    destruct IH as (I1 & I2 & I3). cbn [mh_core] in I2.
    split; [|split]; auto; [|congruence].
    rewrite I1, <- A1. unfold n_sample_labels. cbn [mh_types]. rewrite A4, !filter_app, !app_length. simpl. lia.
Qed.

Lemma burn_labels lp n : forall tape s,
  match mh_burn P lp n tape s with
  | (Done s', t') => n_sample_labels s' = n_sample_labels s /\ samples (mh_core s') = samples (mh_core s) /\
                     (forall timeout, steps_timely timeout tape -> steps_timely timeout t')
  | (Running _, _) => True
  | (Failed _ _, _) => False
  end.
Proof.
  induction n as [|n IH]; intros tape s; simpl.
  - repeat split; auto.
  - destruct tape as [|e t]; auto.
    pose proof (advance_labels lp 60 BURN_IN (se_attempts e) s ltac:(lra)) as A.
    destruct (mh_advance _ _ _ _ _ _) as [s1|s1|x s1]; auto.
    destruct A as [[k A] A'].
    specialize (IH t s1).
    destruct (mh_burn P lp n t s1) as [[s2|s2|x s2] t2]; auto.
    destruct IH as (I1 & I2 & I3). split; [|split].
    + rewrite I1. unfold n_sample_labels. rewrite A, count_ext. simpl. lia.
    + congruence.
    + intros timeout H. inversion H; subst. auto.
Qed.

Lemma sample1_labels lp timeout tape s :
  steps_timely timeout tape ->
  match mh_sample P lp timeout 1 tape s with
  | (Done s', rows, t') =>
      n_sample_labels s' = (n_sample_labels s + 1)%nat /\ samples (mh_core s') = samples (mh_core s)
  | (Running _, _, _) => True
  | (Failed _ _, _, _) => False
  end.
Proof.
  intros Ht.
  assert (L : forall tp u, steps_timely timeout tp ->
    match mh_sample_loop P lp timeout 1 1 tp u [] with
    | (Done s', rows, t') =>
        n_sample_labels s' = (n_sample_labels u + 1)%nat /\ samples (mh_core s') = samples (mh_core u)
    | (Running _, _, _) => True
    | (Failed _ _, _, _) => False
    end).
  { intros tp u Hp. cbn [mh_sample_loop].
    pose proof (mcmc_labels lp timeout 1 tp u (@nil vec) Hp) as A.
    destruct (mcmc P lp timeout 1 tp u []) as [[[s1|s1|x s1] rows] t1]; auto. intuition. }
  unfold mh_sample. destruct (mh_is_init s).
  - apply L; auto.
  - pose proof (burn_labels lp (mh_burnin P) tape s) as B.
    destruct (mh_burn P lp (mh_burnin P) tape s) as [[s1|s1|x s1] t1]; auto.
    destruct B as (B1 & B2 & B3).
    specialize (L t1 (mkState (mh_core s1) (mh_current s1) true (mh_traj s1) (mh_types s1)) (B3 _ Ht)).
    destruct (mh_sample_loop P lp timeout 1 1 t1 _ []) as [[[s2|s2|x s2] rows] t2]; auto.
    destruct L as [L1 L2]. simpl in L2. unfold n_sample_labels in *. simpl in L1. split; congruence.
Qed.

Definition labelled (s : mh) : Prop := n_sample_labels s = length (samples (mh_core s)).

Lemma is_labels lp n timeout tape pick s :
  iss_timely timeout tape -> labelled s ->
  match mh_importance_sample P lp n timeout tape pick s with
  | Done s' => labelled s'
  | Running _ => True
  | Failed _ s' => labelled s'
  end.
Proof.
  intros Ht Hl. unfold mh_importance_sample.
  assert (G : match mh_is_loop P lp timeout n tape 0 s with
              | Done s' => labelled s' | Running _ => True | Failed _ _ => False end).
  { generalize 0 as el. revert s Hl. induction tape as [|e t IH]; intros s Hl el; cbn [mh_is_loop];
      destruct (_ && _); auto.
    inversion Ht as [|? ? He Ht']; subst.
    pose proof (sample1_labels lp timeout (ie_steps e) s He) as A.
    destruct (mh_sample P lp timeout 1 (ie_steps e) s) as [[[s1|s1|x s1] rows] t1] eqn:E; auto.
    apply sample_rows in E. apply IH; auto. unfold labelled in *. cbn [mh_core samples].
    unfold n_sample_labels in *. cbn [mh_types] in *. rewrite app_length. destruct A as [A1 A2].
    rewrite A2. simpl in E. lia. }
  destruct (mh_is_loop _ _ _ _ _ _ _) as [s1|s1|e s1]; auto; [|contradiction].
  destruct (update_model _ _ _); exact G.
Qed.

Definition op_timely (o : mh_op) : Prop :=
  match o with
  | OpReset | OpQuery _ => True
  | OpSample _ _ _ _ => False
  | OpIS _ timeout _ tape _ => iss_timely timeout tape
  end.

Lemma labelled_reachable x0 ops s :
  Forall op_timely ops -> mh_reachable P x0 ops s ->
  length (filter is_sample (mh_types s)) = length (samples (mh_core s)).
Proof.
  intros Ho H. change (labelled s). induction H as [|ops s o s' H IH Hr].
  - reflexivity.
  - inversion Ho as [|? ? H1 H2]; subst. specialize (IH H2). destruct o; simpl in H1, Hr.
    + destruct Hr as [Hr|[e Hr]]; [|discriminate]. injection Hr as <-. reflexivity.
    + unfold mh_query, core_query in Hr. destruct (model (mh_core s)); [|destruct (update_model _ _ _)];
        (destruct Hr as [Hr|[e0 Hr]]; inversion Hr; subst; exact IH).
    + contradiction.
    + pose proof (is_labels lp n timeout tape pick s H1 IH) as G.
      destruct Hr as [Hr|[e Hr]]; rewrite Hr in G; exact G.
Qed.
End Labels.
