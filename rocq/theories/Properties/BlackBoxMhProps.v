(** C130 for Metropolis-Hastings. *)
From Coq Require Import List Bool Arith Lia QArith Lqa.
Import ListNotations.
From Verif Require Import Prelude.Py Prelude.QBase Model.Base Model.MetropolisHastings Proofs.MHWitness.
Open Scope Q_scope.

Section Local.
Variables (P : mh_params) (lp lp' : vec -> fl Q).
Definition ag (x : vec) : Prop := lp x = lp' x.
Definition all_ag (s : mh) : Prop := forall x, In x (mh_traj s) -> ag x.
Definition sst (r : stepres) : mh := match r with SDone _ s => s | SRunning s => s | SFail _ s => s end.

Lemma step_grows timeout x_old : forall tape acc e xn s x, In x (mh_traj s) -> In x (mh_traj (sst (mh_step_loop P lp timeout x_old tape acc e xn s))).
Proof.
  induction tape as [|a t IH]; intros acc e xn s x H; simpl; destruct (_ && _); simpl; auto; try (destruct (set_last _ _); exact H).
  apply IH. cbn [mh_record mh_traj]. apply in_or_app. now left.
Qed.
Lemma step_local timeout x_old : ag x_old -> forall tape acc e xn s, all_ag (sst (mh_step_loop P lp timeout x_old tape acc e xn s)) ->
  mh_step_loop P lp' timeout x_old tape acc e xn s = mh_step_loop P lp timeout x_old tape acc e xn s.
Proof.
  intros O. induction tape as [|a t IH]; intros acc e xn s A; simpl in *; destruct (_ && _); auto.
  assert (Y : ag (mh_propose P x_old a)). { apply A. apply step_grows. cbn [mh_record mh_traj]. apply in_or_app. right. now left. }
  replace (mh_accept P lp' x_old (mh_propose P x_old a) a) with (mh_accept P lp x_old (mh_propose P x_old a) a); [apply IH; exact A|].
  unfold mh_accept. now rewrite O, Y.
Qed.
Lemma step_point timeout x_old : forall tape acc e xn s y s', mh_step_loop P lp timeout x_old tape acc e xn s = SDone y s' -> ag xn -> all_ag s' -> ag y.
Proof.
  induction tape as [|a t IH]; intros acc e xn s y s' H X A; simpl in H; destruct (_ && _); try discriminate; try (destruct (set_last _ _); [|discriminate]; injection H as <- <-; exact X).
  apply (IH _ _ _ _ _ _ H); auto. apply A. change s' with (sst (SDone y s')). rewrite <- H. apply step_grows. cbn [mh_record mh_traj]. apply in_or_app. right. now left.
Qed.
Lemma step_current timeout x_old : forall tape acc e xn s, mh_current (sst (mh_step_loop P lp timeout x_old tape acc e xn s)) = mh_current s.
Proof. induction tape as [|a t IH]; intros acc e xn s; simpl; destruct (_ && _); simpl; auto; try (destruct (set_last _ _); reflexivity). now rewrite IH. Qed.

(** An operation that only looks at the points it records. *)
Definition fine (s : mh) (o o' : outcome mh) : Prop :=
  (forall x, In x (mh_traj s) -> In x (mh_traj (out_state o))) /\ (ag (mh_current s) -> all_ag (out_state o) -> o' = o /\ ag (mh_current (out_state o))).

Lemma advance_fine timeout lab tape s : fine s (mh_advance P lp timeout lab tape s) (mh_advance P lp' timeout lab tape s).
Proof.
  unfold mh_advance, mcmc_step. set (r := mh_step_loop P lp timeout (mh_current s) tape false 0 (mh_current s) s). split.
  - intros x Hx. pose proof (step_grows timeout (mh_current s) tape false 0 (mh_current s) s x Hx) as G. fold r in G. destruct r as [y s'|s'|e s']; simpl in *; auto. destruct (set_last _ _); exact G.
  - intros O A. assert (B : all_ag (sst r)). { destruct r as [y s'|s'|e s']; simpl in *; auto. destruct (set_last _ _); exact A. }
    rewrite (step_local timeout (mh_current s) O tape false 0 (mh_current s) s B). fold r. split; [reflexivity|].
    pose proof (step_current timeout (mh_current s) tape false 0 (mh_current s) s) as C. pose proof (step_point timeout (mh_current s) tape false 0 (mh_current s) s) as D. fold r in C, D.
    destruct r as [y s'|s'|e s']; simpl in *; try (now rewrite C). specialize (D y s' eq_refl O B). destruct (set_last _ _); exact D.
Qed.
Lemma fine_refl s : fine s (Done s) (Done s).
Proof. split; simpl; auto. Qed.
Lemma fine_running s : fine s (Running s) (Running s).
Proof. split; simpl; auto. Qed.

Lemma steps_fine timeout : forall n tape s, (fine s (fst (mh_steps_n P lp timeout n tape s)) (fst (mh_steps_n P lp' timeout n tape s))) /\
  (ag (mh_current s) -> all_ag (out_state (fst (mh_steps_n P lp timeout n tape s))) -> mh_steps_n P lp' timeout n tape s = mh_steps_n P lp timeout n tape s).
Proof.
  induction n as [|n IH]; intros tape s; simpl; [split; [apply fine_refl|reflexivity]|]. destruct tape as [|e t]; [split; [apply fine_running|reflexivity]|].
  destruct (advance_fine (timeout - se_elapsed e) DECORRELATION (se_attempts e) s) as (G & L).
  destruct (mh_advance P lp (timeout - se_elapsed e) DECORRELATION (se_attempts e) s) as [s1|s1|x s1]; cbn [out_state] in *.
  - destruct (IH t s1) as ((G2 & L2) & Q). assert (K : ag (mh_current s) -> all_ag (out_state (fst (mh_steps_n P lp timeout n t s1))) -> mh_advance P lp' (timeout - se_elapsed e) DECORRELATION (se_attempts e) s = Done s1 /\ ag (mh_current s1)).
    { intros O A. apply L; auto. intros y Hy. apply A. auto. }
    split; [split; [auto|]|]; intros O A; destruct (K O A) as (-> & C); auto.
  - split; [split; [auto|]|]; intros O A; destruct (L O A) as (-> & C); auto.
  - split; [split; [auto|]|]; intros O A; destruct (L O A) as (-> & C); auto.
Qed.
Lemma burn_fine : forall n tape s, (fine s (fst (mh_burn P lp n tape s)) (fst (mh_burn P lp' n tape s))) /\
  (ag (mh_current s) -> all_ag (out_state (fst (mh_burn P lp n tape s))) -> mh_burn P lp' n tape s = mh_burn P lp n tape s).
Proof.
  induction n as [|n IH]; intros tape s; simpl; [split; [apply fine_refl|reflexivity]|]. destruct tape as [|e t]; [split; [apply fine_running|reflexivity]|].
  destruct (advance_fine 60 BURN_IN (se_attempts e) s) as (G & L).
  destruct (mh_advance P lp 60 BURN_IN (se_attempts e) s) as [s1|s1|x s1]; cbn [out_state] in *.
  - destruct (IH t s1) as ((G2 & L2) & Q). assert (K : ag (mh_current s) -> all_ag (out_state (fst (mh_burn P lp n t s1))) -> mh_advance P lp' 60 BURN_IN (se_attempts e) s = Done s1 /\ ag (mh_current s1)).
    { intros O A. apply L; auto. intros y Hy. apply A. auto. }
    split; [split; [auto|]|]; intros O A; destruct (K O A) as (-> & C); auto.
  - split; [split; [auto|]|]; intros O A; destruct (L O A) as (-> & C); auto.
  - split; [split; [auto|]|]; intros O A; destruct (L O A) as (-> & C); auto.
Qed.
(** The same with rows and unused events. *)
Definition fine3 (s : mh) (o o' : outcome mh * list vec * list step_ev) : Prop :=
  (forall x, In x (mh_traj s) -> In x (mh_traj (out_state (fst (fst o))))) /\
  (ag (mh_current s) -> all_ag (out_state (fst (fst o))) -> o' = o /\ ag (mh_current (out_state (fst (fst o))))).
Lemma mcmc_fine timeout : forall n tape s acc, fine3 s (mcmc P lp timeout n tape s acc) (mcmc P lp' timeout n tape s acc).
Proof.
  induction n as [|n IH]; intros tape s acc; simpl; [split; simpl; auto|].
  destruct (steps_fine timeout (mh_steps P) tape s) as ((G & L) & Q).
  destruct (mh_steps_n P lp timeout (mh_steps P) tape s) as [[s1|s1|x s1] t1]; cbn [fst out_state] in *.
  - destruct (set_last (mh_types s1) SAMPLE) as [ty|e] eqn:SL.
    + set (s2 := mkState (mh_core s1) (mh_current s1) (mh_is_init s1) (mh_traj s1) ty). destruct (IH t1 s2 (acc ++ [mh_current s2])) as (G2 & L2). split.
      * intros x Hx. apply G2. cbn [mh_traj s2]. auto.
      * intros O A. assert (B : all_ag s1) by (intros y Hy; apply A, G2; exact Hy). rewrite (Q O B). rewrite SL. apply L2; auto. exact (proj2 (L O B)).
    + split; [exact G|]. cbn [fst out_state]. intros O A. rewrite (Q O A). rewrite SL. split; auto. exact (proj2 (L O A)).
  - split; [exact G|]. cbn [fst out_state]. intros O A. rewrite (Q O A). split; auto. exact (proj2 (L O A)).
  - split; [exact G|]. cbn [fst out_state]. intros O A. rewrite (Q O A). split; auto. exact (proj2 (L O A)).
Qed.
Lemma sample_loop_fine timeout n : forall k tape s acc, fine3 s (mh_sample_loop P lp timeout n k tape s acc) (mh_sample_loop P lp' timeout n k tape s acc).
Proof.
  induction k as [|k IH]; intros tape s acc; simpl; [split; simpl; auto|]. destruct (mcmc_fine timeout n tape s []) as (G & L).
  destruct (mcmc P lp timeout n tape s []) as [[[s1|s1|x s1] rows] t1]; cbn [fst out_state] in *.
  - destruct (IH t1 s1 (acc ++ rows)) as (G2 & L2). split; [auto|]. intros O A. assert (B : all_ag s1) by (intros y Hy; apply A, G2; exact Hy). destruct (L O B) as (-> & C). auto.
  - split; [exact G|]. cbn [fst out_state]. intros O A. destruct (L O A) as (-> & C). auto.
  - split; [exact G|]. cbn [fst out_state]. intros O A. destruct (L O A) as (-> & C). auto.
Qed.
Lemma sample_fine timeout n tape s : fine3 s (mh_sample P lp timeout n tape s) (mh_sample P lp' timeout n tape s).
Proof.
  unfold mh_sample. destruct (mh_is_init s); [apply sample_loop_fine|]. destruct (burn_fine (mh_burnin P) tape s) as ((G & L) & Q).
  destruct (mh_burn P lp (mh_burnin P) tape s) as [[s1|s1|x s1] t1]; cbn [fst out_state] in *.
  - cbv zeta. set (s2 := mkState (mh_core s1) (mh_current s1) true (mh_traj s1) (mh_types s1)). destruct (sample_loop_fine timeout n n t1 s2 []) as (G2 & L2). split.
    + intros x Hx. apply G2. cbn [s2 mh_traj]. auto.
    + intros O A. assert (B : all_ag s1) by (intros y Hy; apply A, G2; exact Hy). rewrite (Q O B). apply L2; auto. exact (proj2 (L O B)).
  - split; [exact G|]. cbn [fst out_state]. intros O A. rewrite (Q O A). split; auto. exact (proj2 (L O A)).
  - split; [exact G|]. cbn [fst out_state]. intros O A. rewrite (Q O A). split; auto. exact (proj2 (L O A)).
Qed.
Lemma is_loop_fine timeout n : forall tape e s, fine s (mh_is_loop P lp timeout n tape e s) (mh_is_loop P lp' timeout n tape e s).
Proof.
  induction tape as [|v t IH]; intros e s; simpl; destruct (_ && _); try apply fine_refl; try apply fine_running.
  destruct (sample_fine timeout 1 (ie_steps v) s) as (G & L).
  destruct (mh_sample P lp timeout 1 (ie_steps v) s) as [[[s1|s1|x s1] rows] t1]; cbn [fst out_state] in *.
  - match goal with |- context [mh_is_loop P lp timeout n t (ie_clock v) ?q] => set (s2 := q); destruct (IH (ie_clock v) s2) as (G2 & L2) end. split.
    + intros x Hx. apply G2. cbn [s2 mh_traj]. auto.
    + intros O A. assert (B : all_ag s1) by (intros y Hy; apply A, G2; exact Hy). destruct (L O B) as (-> & C). apply L2; auto.
  - split; [exact G|]. intros O A. destruct (L O A) as (-> & C). auto.
  - split; [exact G|]. intros O A. destruct (L O A) as (-> & C). auto.
Qed.
End Local.

(** C130. Metropolis-Hastings: two targets with the same log densities at the starting point and at the points of the trajectory, which
    records every proposal, give the same call. *)
Theorem C130_mh :
  forall P lp lp' n timeout tape pick s,
  (forall x, x = mh_current s \/ In x (mh_traj (out_state (mh_importance_sample P lp n timeout tape pick s))) -> lp x = lp' x) ->
  mh_importance_sample P lp' n timeout tape pick s = mh_importance_sample P lp n timeout tape pick s.
Proof.
  intros P lp lp' n timeout tape pick s A. unfold mh_importance_sample in *. destruct (is_loop_fine P lp lp' timeout n tape 0 s) as (_ & L).
  destruct L as (-> & _); auto; [apply A; now left|]. intros x Hx. apply A. right.
  destruct (mh_is_loop P lp timeout n tape 0 s) as [s1|s1|e s1]; cbn [out_state] in *; auto. cbv zeta. destruct (update_model _ _ _); exact Hx.
Qed.
Print Assumptions C130_mh.
Example C130_mh_example :
  mh_importance_sample wP wlp 2 60 [mkIs wsteps1 1; mkIs wsteps2 2] (fun i => i) (mh_new wx0) = Done ws1 /\ mh_traj ws1 <> [] /\
  (forall x, In x (mh_traj ws1) -> wlp x = match x with [] => NaN | _ => wlp x end).
Proof.
  split; [exact (proj1 is_example)|]. split; [discriminate|]. unfold ws1. cbn [mh_traj]. intros x Hx. destruct x; [|reflexivity].
  simpl in Hx. repeat (destruct Hx as [Hx|Hx]; [discriminate Hx|]). destruct Hx.
Qed.
