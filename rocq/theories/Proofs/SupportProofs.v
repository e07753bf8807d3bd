(** Samples lie where the target has mass. *)
From Coq Require Import List Bool Arith Lia QArith Lqa.
Import ListNotations.
From Verif Require Import Prelude.Py Prelude.QBase Prelude.QFacts Model.Base Model.Rejection Model.MetropolisHastings.
From Verif Require Import Model.Nested.
From Verif Require Import Spec.PopulationSpec Spec.SupportSpec Proofs.MHBook Proofs.KdeProofs Proofs.NestedProofs Proofs.NestedHistory.
Open Scope Q_scope.

(** ** Metropolis-Hastings *)
Lemma accept_mass P lp x y a : mh_accept P lp x y a = true -> has_mass (lp y).
Proof.
  unfold mh_accept. intros H. destruct (lp y) as [v| | |]; simpl; auto; exfalso; revert H;
    destruct (lp x); destruct (mh_lq P (vsub x y)); destruct (mh_lq P (vsub y x)); destruct (at_logu a); cbn; discriminate.
Qed.
Definition step_timely (timeout : Q) (e : step_ev) : Prop :=
  0 < timeout - se_elapsed e /\ forall a, In a (se_attempts e) -> at_clock a < timeout - se_elapsed e.
Lemma advance_mass P lp timeout lab tape s s' : 0 < timeout -> (forall a, In a tape -> at_clock a < timeout) ->
  mh_advance P lp timeout lab tape s = Done s' -> has_mass (lp (mh_current s')).
Proof.
  intros T H. unfold mh_advance. destruct (mcmc_step P lp timeout tape (mh_current s) s) as [x s1|s1|e s1] eqn:E; try discriminate.
  destruct (step_accepted P lp timeout tape (mh_current s) s x s1 T H E) as (rej & a & rest & _ & _ & A & _).
  destruct (set_last _ _); try discriminate. intros X; injection X as <-. cbn [mh_current]. eapply accept_mass; eauto.
Qed.
Lemma steps_mass P lp timeout n : forall tape s s' t', Forall (step_timely timeout) tape -> mh_steps_n P lp timeout n tape s = (Done s', t') ->
  ((0 < n)%nat -> has_mass (lp (mh_current s'))) /\ Forall (step_timely timeout) t'.
Proof.
  induction n as [|n IH]; intros tape s s' t' F; cbn [mh_steps_n].
  - intros H; injection H as <- <-. split; [lia|auto].
  - destruct tape as [|e t]; [discriminate|]. inversion F as [|? ? (F1 & F2) F3]; subst.
    destruct (mh_advance P lp (timeout - se_elapsed e) DECORRELATION (se_attempts e) s) as [s1|s1|x s1] eqn:E; try discriminate.
    intros H. pose proof (advance_mass _ _ _ _ _ _ _ F1 F2 E) as A. destruct n as [|n].
    + cbn [mh_steps_n] in H. injection H as <- <-. auto.
    + destruct (IH t s1 s' t' F3 H) as (B & C). split; auto. intros _. apply B. lia.
Qed.
Lemma mcmc_mass P lp timeout n : (0 < mh_steps P)%nat -> forall tape s acc s' rows t', Forall (step_timely timeout) tape -> Forall (fun x => has_mass (lp x)) acc ->
  mcmc P lp timeout n tape s acc = (Done s', rows, t') -> Forall (fun x => has_mass (lp x)) rows /\ Forall (step_timely timeout) t'.
Proof.
  intros K. induction n as [|n IH]; intros tape s acc s' rows t' F A; cbn [mcmc].
  - intros H; injection H as <- <- <-. auto.
  - destruct (mh_steps_n P lp timeout (mh_steps P) tape s) as [[s1|s1|e s1] t1] eqn:E; try discriminate.
    destruct (steps_mass _ _ _ _ _ _ _ _ F E) as (B & C). destruct (set_last _ _); try discriminate. cbv zeta. intros H. eapply IH; [exact C| |exact H].
    apply Forall_app. split; auto.
Qed.
Lemma sample_loop_mass P lp timeout n k : (0 < mh_steps P)%nat -> forall tape s acc s' rows t', Forall (step_timely timeout) tape -> Forall (fun x => has_mass (lp x)) acc ->
  mh_sample_loop P lp timeout n k tape s acc = (Done s', rows, t') -> Forall (fun x => has_mass (lp x)) rows.
Proof.
  intros K. induction k as [|k IH]; intros tape s acc s' rows t' F A; cbn [mh_sample_loop].
  - intros H; injection H as <- <- <-. auto.
  - destruct (mcmc P lp timeout n tape s []) as [[[s1|s1|e s1] r1] t1] eqn:E; try discriminate.
    destruct (mcmc_mass P lp timeout n K _ _ _ _ _ _ F (Forall_nil _) E) as (B & C). intros H. eapply IH; [exact C| |exact H]. apply Forall_app; auto.
Qed.
Lemma burn_rest P lp n (Q : step_ev -> Prop) : forall tape s s' t', Forall Q tape -> mh_burn P lp n tape s = (Done s', t') -> Forall Q t'.
Proof.
  induction n as [|n IH]; intros tape s s' t' F; cbn [mh_burn].
  - intros H; injection H as <- <-. auto.
  - destruct tape as [|e t]; [discriminate|]. inversion F; subst. destruct (mh_advance _ _ _ _ _ _); try discriminate. intros H. eapply IH; eauto.
Qed.
Lemma sample_mass P lp timeout n tape s s' rows t' : (0 < mh_steps P)%nat -> Forall (step_timely timeout) tape ->
  mh_sample P lp timeout n tape s = (Done s', rows, t') -> Forall (fun x => has_mass (lp x)) rows.
Proof.
  intros K F. unfold mh_sample. destruct (mh_is_init s); [apply sample_loop_mass; auto|].
  destruct (mh_burn P lp (mh_burnin P) tape s) as [[s1|s1|e s1] t1] eqn:E; try discriminate. pose proof (burn_rest _ _ _ _ _ _ _ _ F E) as F1.
  cbv zeta. apply sample_loop_mass; auto.
Qed.
Definition call_timely (timeout : Q) (e : is_ev) : Prop := Forall (step_timely timeout) (ie_steps e).
Definition massive (lp : vec -> fl Q) (s : mh) : Prop := Forall (fun x => has_mass (lp x)) (samples (mh_core s)).
Lemma is_loop_mass P lp timeout n tape : (0 < mh_steps P)%nat -> Forall (call_timely timeout) tape -> forall el s,
  massive lp s -> massive lp (out_state (mh_is_loop P lp timeout n tape el s)).
Proof.
  intros K F. induction F as [|e t F1 F2 IH]; intros el s M; cbn [mh_is_loop]; destruct ((length (samples (mh_core s)) <? n)%nat && Qltb el timeout); auto.
  pose proof (kc_sample P lp timeout 1 (ie_steps e) s) as [K1 _]. unfold massive in *.
  destruct (mh_sample P lp timeout 1 (ie_steps e) s) as [[[s1|s1|x s1] rows] t1] eqn:E; cbn [fst out_state] in K1 |- *; try (rewrite K1; exact M).
  apply IH. cbn [mh_core samples]. rewrite K1. apply Forall_app. split; [exact M|]. eapply sample_mass; [exact K|exact F1|exact E].
Qed.
Lemma is_mass P lp n timeout tape pick s : (0 < mh_steps P)%nat -> Forall (call_timely timeout) tape ->
  massive lp s -> massive lp (out_state (mh_importance_sample P lp n timeout tape pick s)).
Proof.
  intros K F M. unfold mh_importance_sample. pose proof (is_loop_mass P lp timeout n tape K F 0 s M) as G.
  destruct (mh_is_loop P lp timeout n tape 0 s) as [s1|s1|e s1]; auto. destruct (update_model _ _ _); exact G.
Qed.
(** Every call of importance_sample is for the target [lp] and none of its steps is cut off by the clock. *)
Definition support_op (lp : vec -> fl Q) (o : mh_op) : Prop :=
  match o with OpIS lp' timeout _ tape _ => lp' = lp /\ Forall (call_timely timeout) tape | _ => True end.
Lemma mass_reachable P lp x0 ops s : (0 < mh_steps P)%nat -> Forall (support_op lp) ops -> mh_reachable P x0 ops s -> massive lp s.
Proof.
  intros K Ho H. induction H as [|ops s o s' H IH Hr]; [constructor|]. inversion Ho as [|? ? H1 H2]; subst. specialize (IH H2).
  assert (G : massive lp (out_state (mh_run P o s))).
  { destruct o as [|pick|lp' timeout n tape|lp' timeout n tape pick]; cbn [mh_run].
    - constructor.
    - unfold mh_query, core_query. destruct (model (mh_core s)); [exact IH|]. destruct (update_model _ _ _); exact IH.
    - pose proof (kc_sample P lp' timeout n tape s) as [K1 _]. unfold massive. rewrite K1. exact IH.
    - destruct H1 as (-> & T). now apply is_mass. }
  destruct Hr as [Hr|[e Hr]]; rewrite Hr in G; exact G.
Qed.

(** ** Nested sampling: the density at a sample is at least the likelihood recorded for it *)
Definition below (pi : vec -> Q) (s : nst) : Prop :=
  length (ns_L s) = length (ns_samples s) /\ forall i, (i < length (ns_L s))%nat -> nth i (ns_L s) 0 <= pi (nth i (ns_samples s) []).
Lemma one_below P pi timeout tape N a b : 0 < timeout -> Forall (repl_timely timeout) tape ->
  below pi a -> one P pi timeout tape (fun g big c => g = seq 0 N /\ big = true /\ c = nested_cand) a b -> below pi b.
Proof.
  intros T TL (BL & AT) O. destruct (one_samples _ _ O) as (x & SX). pose proof (one_L _ _ O) as LL.
  destruct O as (ev & g & c & big & k & y & seen & IE & (-> & -> & ->) & F & SF).
  set (v := pi (nth k (ns_live a) [])) in *.
  assert (FIT : v <= pi y).
  { apply (sf_fits _ _ _ _ _ _ _ _ _ _ _ _ SF); auto. rewrite Forall_forall in TL. apply (TL ev IE). }
  pose proof (sf_L _ _ _ _ _ _ _ _ _ _ _ _ SF) as EL. fold v in EL.
  split; [rewrite LL, SX, app_length; simpl; lia|]. intros i Hi. rewrite LL in Hi. rewrite EL.
  destruct (ns_samples a) as [|r0 rs] eqn:SS.
  - simpl in BL. destruct (ns_L a); [|discriminate]. simpl in Hi. assert (i = 0)%nat by lia. subst i.
    destruct (sf_first _ _ _ _ _ _ _ _ _ _ _ _ SF SS) as (_ & S2). rewrite S2. simpl. exact FIT.
  - destruct (sf_later _ _ _ _ _ _ _ _ _ _ _ _ SF) as (_ & S2); [congruence|]. rewrite S2, SS.
    destruct (Nat.eq_dec i (length (ns_L a))) as [->|N1].
    + rewrite app_nth2, Nat.sub_diag by lia. rewrite BL, app_nth2, Nat.sub_diag by lia. simpl. apply Qle_refl.
    + rewrite !app_nth1 by lia. apply AT. lia.
Qed.
Lemma below_reachable P us pi : start_ok P us -> forall ops s, Forall (ns_op_ok P) ops ->
  Forall (fun o => ns_timely o /\ ns_target (eq pi) o) ops -> nested_reachable P us ops s -> below pi s.
Proof.
  intros S0 ops s OK KK R. apply (history_inv P us (below pi) (fun o => ns_timely o /\ ns_target (eq pi) o)) with (ops := ops); auto.
  - intros us' _. split; [reflexivity|simpl; intros; lia].
  - intros a b H (B & AT). pose proof (same_core_samples _ _ H) as S1. destruct H as (E1 & E2 & E3 & E4 & E5 & E6). unfold below. rewrite E4, S1. auto.

  - intros pi' n timeout tape pick ((T & TL) & <-) _ a b LA. apply one_below; auto.
Qed.

(** ** Population samplers *)
Lemma run_support {M X : Type} pi (dens : M -> X -> Q) size adapt ms xs ws ms' :
  population_run pi dens size adapt ms xs ws ms' -> Forall2 (fun x w => 0 < w <-> 0 < pi x) xs ws.
Proof.
  induction 1 as [|ms xs ws ms1 xs' ws' ms' _ F _ _ IH]; [constructor|]. apply Forall2_app; [|exact IH].
  induction F as [|x w xs ws (d & _ & D & E) F IHF]; constructor; auto. split; intros H; nra.
Qed.
