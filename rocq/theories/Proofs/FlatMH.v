(** Metropolis-Hastings on a constant target: nothing is refused. *)
From Coq Require Import List Bool Arith Lia QArith Lqa.
Import ListNotations.
From Verif Require Import Prelude.Py Prelude.QBase Prelude.QFacts Model.Base Model.MetropolisHastings Spec.Box Spec.FlatSpec Proofs.MHProofs.
Open Scope Q_scope.

Section Flat.
Variable P : mh_params.
Hypothesis Hbox : is_box (mh_lo P) (mh_hi P).
Hypothesis Sym : forall x y, exists a b, mh_lq P (vsub x y) = Fin a /\ mh_lq P (vsub y x) = Fin b /\ a == b.
Let d := length (mh_lo P).
Let inb := in_box (mh_lo P) (mh_hi P).

Definition below_one (a : attempt) : Prop := at_logu a = NInf \/ exists u, at_logu a = Fin u /\ u < 0.
Definition atts_u (l : list attempt) := Forall below_one l.
Definition steps_u (l : list step_ev) := Forall (fun e => atts_u (se_attempts e)) l.
Definition iss_u (l : list is_ev) := Forall (fun e => steps_u (ie_steps e)) l.
Definition flat_target (lp : vec -> fl Q) : Prop := exists c, flat_log (mh_lo P) (mh_hi P) c lp.

Lemma in_box_dec lo : forall hi x, in_box lo hi x \/ ~ in_box lo hi x.
Proof.
  induction lo as [|l lo IH]; intros [|h hi] [|a x]; simpl; auto; try (right; tauto).
  destruct (IH hi x) as [H|H]; [|right; tauto].
  destruct (Qlt_le_dec a l); [right; intros (A & _); lra|]. destruct (Qlt_le_dec h a); [right; intros (_ & A & _); lra|].
  left. auto.
Qed.

Lemma accepts lp x y a : flat_target lp -> inb y -> below_one a -> mh_accept P lp x y a = true.
Proof.
  intros (c & F1 & F2) Y U. unfold mh_accept. destruct (F1 y Y) as (v & -> & Ev). destruct (Sym x y) as (p & q & -> & -> & Epq).
  assert (X : lp x = NInf \/ exists w, lp x = Fin w /\ w <= c).
  { destruct (in_box_dec (mh_lo P) (mh_hi P) x) as [H|H]; [right|apply F2; auto]. destruct (F1 x H) as (w & -> & Ew). exists w. split; auto. lra. }
  destruct X as [-> |(w & -> & Hw)]; simpl.
  - destruct U as [-> |(u & -> & _)]; reflexivity.
  - destruct U as [-> |(u & -> & Hu)]; [reflexivity|]. simpl. apply Qltb_true. lra.
Qed.

Definition clean (s : mh) : Prop := ~ In REJECT (mh_types s).
Definition fine (s : mh) : Prop := strong P s /\ clean s.

Lemma set_last_clean l v l' : set_last l v = Ok l' -> v <> REJECT -> ~ In REJECT (removelast l) -> ~ In REJECT l'.
Proof. intros E N H I. apply set_last_ok in E. destruct E as (_ & ->). apply in_app_iff in I. destruct I as [I|[I|[]]]; auto. Qed.
Lemma removelast_in {A} (l : list A) x : In x (removelast l) -> In x l.
Proof. induction l as [|a [|b r] IH]; simpl in *; auto. intros [H|H]; auto. Qed.

Lemma step_clean lp timeout x_old tape s : flat_target lp -> atts_u tape -> length x_old = d -> atts_ok P tape -> clean s ->
  match mcmc_step P lp timeout tape x_old s with SDone _ s' => clean s' | SRunning s' => clean s' | SFail _ s' => clean s' end.
Proof.
  intros F U L O C. unfold mcmc_step. destruct tape as [|a t]; cbn [mh_step_loop negb andb].
  - destruct (Qltb 0 timeout); auto. destruct (set_last (mh_types s) ACCEPT) as [ty|e] eqn:E; auto. unfold clean; simpl.
    eapply set_last_clean; eauto; [discriminate|]. intros I. apply C. now apply removelast_in.
  - destruct (Qltb 0 timeout).
    + inversion U as [|? ? U1 U2]; subst. inversion O as [|? ? O1 O2]; subst. rewrite (accepts lp x_old _ a F (propose_in P Hbox x_old a L O1) U1).
      assert (E0 : forall tp el y, mh_step_loop P lp timeout x_old tp true el y (mh_record y s) =
         SDone y (mkState (mh_core (mh_record y s)) (mh_current (mh_record y s)) (mh_is_init (mh_record y s)) (mh_traj (mh_record y s)) (mh_types s ++ [ACCEPT]))).
      { intros tp el y. destruct tp; cbn [mh_step_loop negb andb]; unfold set_last; simpl mh_types;
          (destruct (mh_types s ++ [REJECT]) eqn:E1; [destruct (mh_types s); discriminate|]; rewrite <- E1, removelast_last; reflexivity). }
      rewrite E0. unfold clean; simpl. intros I. apply in_app_iff in I. destruct I as [I|[I|[]]]; [auto|discriminate].
    + destruct (set_last (mh_types s) ACCEPT) as [ty|e] eqn:E; auto. unfold clean; simpl.
      eapply set_last_clean; eauto; [discriminate|]. intros I. apply C. now apply removelast_in.
Qed.

Definition allclean (o : outcome mh) : Prop := clean (out_state o).

Lemma advance_clean lp timeout lab tape s : flat_target lp -> lab <> REJECT -> atts_u tape -> atts_ok P tape -> fine s -> allclean (mh_advance P lp timeout lab tape s).
Proof.
  intros F N U O (S0 & C). unfold mh_advance. pose proof (step_clean lp timeout (mh_current s) tape s F U (proj1 (proj2 S0)) O C) as G.
  destruct (mcmc_step P lp timeout tape (mh_current s) s) as [x s'|s'|e s']; auto.
  destruct (set_last (mh_types s') lab) as [ty|e] eqn:E; unfold allclean, clean; simpl; auto.
  eapply set_last_clean; eauto. intros I. apply G. now apply removelast_in.
Qed.

Lemma steps_n_clean lp timeout n : flat_target lp -> forall tape s, steps_u tape -> steps_ok P tape -> fine s ->
  allclean (fst (mh_steps_n P lp timeout n tape s)) /\ steps_u (snd (mh_steps_n P lp timeout n tape s)).
Proof.
  intros F. induction n as [|n IH]; intros tape s U O Hs; simpl; [split; auto; apply Hs|].
  destruct tape as [|e t]; simpl; [split; [apply Hs|constructor]|].
  inversion U as [|? ? U1 U2]; subst. inversion O as [|? ? O1 O2]; subst.
  pose proof (advance_clean lp (timeout - se_elapsed e) DECORRELATION (se_attempts e) s F ltac:(discriminate) U1 O1 Hs) as G.
  pose proof (advance_good P Hbox lp (timeout - se_elapsed e) DECORRELATION (se_attempts e) s O1 (proj1 Hs)) as G'.
  destruct (mh_advance P lp (timeout - se_elapsed e) DECORRELATION (se_attempts e) s); simpl in *; auto. apply IH; auto. split; auto.
Qed.

Lemma mcmc_clean lp timeout n : flat_target lp -> forall tape s acc, steps_u tape -> steps_ok P tape -> fine s -> Forall inb acc ->
  let r := mcmc P lp timeout n tape s acc in allclean (fst (fst r)) /\ steps_u (snd r).
Proof.
  intros F. induction n as [|n IH]; intros tape s acc U O Hs Ha; simpl; [split; auto; apply Hs|].
  pose proof (steps_n_good P Hbox lp timeout (mh_steps P) tape s O (proj1 Hs)) as [G1 G2].
  pose proof (steps_n_clean lp timeout (mh_steps P) F tape s U O Hs) as [G3 G4].
  destruct (mh_steps_n P lp timeout (mh_steps P) tape s) as [[s1|s1|e s1] t1]; simpl in *; [|split; auto|split; auto].
  destruct (set_last (mh_types s1) SAMPLE) as [ty|e] eqn:E; simpl; [|split; auto].
  pose proof (set_last_ok _ _ _ E) as [T _]. destruct G1 as (W & L & C).
  apply IH; auto.
  - split; [exact (conj W (conj L (fun _ => C T)))|]. unfold clean; simpl. eapply set_last_clean; eauto; [discriminate|]. intros I. apply G3. now apply removelast_in.
  - apply Forall_app; split; auto. constructor; [exact (C T)|constructor].
Qed.

Lemma burn_clean lp n : flat_target lp -> forall tape s, steps_u tape -> steps_ok P tape -> fine s ->
  allclean (fst (mh_burn P lp n tape s)) /\ steps_u (snd (mh_burn P lp n tape s)).
Proof.
  intros F. induction n as [|n IH]; intros tape s U O Hs; simpl; [split; auto; apply Hs|].
  destruct tape as [|e t]; simpl; [split; [apply Hs|constructor]|].
  inversion U as [|? ? U1 U2]; subst. inversion O as [|? ? O1 O2]; subst.
  pose proof (advance_clean lp 60 BURN_IN (se_attempts e) s F ltac:(discriminate) U1 O1 Hs) as G.
  pose proof (advance_good P Hbox lp 60 BURN_IN (se_attempts e) s O1 (proj1 Hs)) as G'.
  destruct (mh_advance P lp 60 BURN_IN (se_attempts e) s); simpl in *; auto. apply IH; auto. split; auto.
Qed.

Lemma sample_loop_clean lp timeout n k : flat_target lp -> forall tape s acc, steps_u tape -> steps_ok P tape -> fine s -> Forall inb acc ->
  allclean (fst (fst (mh_sample_loop P lp timeout n k tape s acc))).
Proof.
  intros F. induction k as [|k IH]; intros tape s acc U O Hs Ha; simpl; [apply Hs|].
  pose proof (mcmc_good P Hbox lp timeout n tape s (@nil vec) O (proj1 Hs) (Forall_nil _)) as (G1 & G2 & G3).
  pose proof (mcmc_clean lp timeout n F tape s (@nil vec) U O Hs (Forall_nil _)) as (G4 & G5).
  destruct (mcmc P lp timeout n tape s []) as [[[s1|s1|e s1] rows] t1]; simpl in *; auto.
  apply IH; auto; [split; auto|apply Forall_app; auto].
Qed.

Lemma sample_clean lp timeout n tape s : flat_target lp -> steps_u tape -> steps_ok P tape -> fine s -> allclean (fst (fst (mh_sample P lp timeout n tape s))).
Proof.
  intros F U O Hs. unfold mh_sample. destruct (mh_is_init s).
  - apply sample_loop_clean; auto.
  - pose proof (burn_good P Hbox lp (mh_burnin P) tape s O (proj1 Hs)) as [G1 G2].
    pose proof (burn_clean lp (mh_burnin P) F tape s U O Hs) as [G3 G4].
    destruct (mh_burn P lp (mh_burnin P) tape s) as [[s1|s1|e s1] t1]; simpl in *; auto.
    apply sample_loop_clean; auto. split; auto.
Qed.

Lemma is_loop_clean lp timeout n tape : flat_target lp -> forall el s, iss_u tape -> iss_ok P tape -> fine s -> allclean (mh_is_loop P lp timeout n tape el s).
Proof.
  intros F. induction tape as [|e t IH]; intros el s U O Hs; cbn [mh_is_loop].
  - destruct (_ && _); simpl; apply Hs.
  - destruct (_ && _); simpl; [|apply Hs].
    inversion U as [|? ? U1 U2]; subst. inversion O as [|? ? O1 O2]; subst.
    pose proof (sample_good P Hbox lp timeout 1 (ie_steps e) s O1 (proj1 Hs)) as [G1 G2].
    pose proof (sample_clean lp timeout 1 (ie_steps e) s F U1 O1 Hs) as G3.
    destruct (mh_sample P lp timeout 1 (ie_steps e) s) as [[[s1|s1|x s1] rows] t1]; simpl in *; auto.
    apply IH; auto. destruct G1 as ((W1 & W2) & L & C). split; [split; [split|split]; auto|exact G3].
    simpl. apply Forall_app; auto.
Qed.

Lemma is_clean lp n timeout tape pick s : flat_target lp -> iss_u tape -> iss_ok P tape -> fine s -> allclean (mh_importance_sample P lp n timeout tape pick s).
Proof.
  intros F U O Hs. unfold mh_importance_sample. pose proof (is_loop_clean lp timeout n tape F 0 s U O Hs) as G.
  destruct (mh_is_loop P lp timeout n tape 0 s) as [s1|s1|e s1]; auto. destruct (update_model _ _ _); exact G.
Qed.

(** Operations whose targets are constant and whose uniform draws are below one. *)
Definition flat_op (o : mh_op) : Prop :=
  match o with
  | OpReset | OpQuery _ => True
  | OpSample lp _ _ tape => flat_target lp /\ steps_u tape
  | OpIS lp _ _ tape _ => flat_target lp /\ iss_u tape
  end.

Lemma run_clean o s : flat_op o -> op_ok P o -> fine s -> allclean (mh_run P o s).
Proof.
  intros F O Hs. destruct o; simpl in *.
  - unfold allclean, clean; simpl. auto.
  - unfold mh_query, core_query. destruct (model (mh_core s)); [apply Hs|]. destruct (update_model _ _ _); apply Hs.
  - apply sample_clean; tauto.
  - apply is_clean; tauto.
Qed.

Lemma reachable_fine x0 ops s : length x0 = d -> Forall (op_ok P) ops -> Forall flat_op ops -> mh_reachable P x0 ops s -> fine s.
Proof.
  intros Hx Ho Hf H. split; [eapply reachable_strong; eauto|]. induction H as [|ops s o s' H IH Hr]; [intros []|].
  inversion Ho as [|? ? Ho1 Ho2]; subst. inversion Hf as [|? ? Hf1 Hf2]; subst.
  assert (Fs : fine s) by (split; [eapply reachable_strong; eauto|auto]).
  pose proof (run_clean o s Hf1 Ho1 Fs) as G. destruct Hr as [Hr|[e Hr]]; rewrite Hr in G; exact G.
Qed.
End Flat.
