From Coq Require Import List Bool Arith Lia QArith Lqa.
Import ListNotations.
From Verif Require Import Prelude.Py Prelude.QBase Prelude.QFacts Model.Base Model.MetropolisHastings Spec.Box.
Open Scope Q_scope.

Lemma is_box_length lo hi : is_box lo hi -> length hi = length lo.
Proof. revert hi; induction lo; destruct hi; simpl; intuition. Qed.

Lemma vclip_in_box x lo hi : is_box lo hi -> length x = length lo -> in_box lo hi (vclip x lo hi).
Proof.
  revert x hi; induction lo as [|l lo IH]; intros [|a x] [|h hi]; simpl; try tauto; try discriminate.
  intros [H1 H2] E. injection E as E.
  pose proof (clip1_range a l h H1). intuition.
Qed.

Lemma in_box_length lo hi x : in_box lo hi x -> length x = length lo.
Proof.
  revert hi x; induction lo as [|l lo IH]; intros [|h hi] [|a x]; simpl; try tauto.
  intros (_ & _ & H). f_equal. eapply IH; eauto.
Qed.

Lemma vadd_length x y : length x = length y -> length (vadd x y) = length x.
Proof. apply map2_length. Qed.

Lemma set_last_ok {A} (l : list A) v l' : set_last l v = Ok l' -> l <> [] /\ l' = removelast l ++ [v].
Proof. destruct l; simpl; [discriminate|]. intros H; injection H as <-. split; [discriminate|reflexivity]. Qed.

Lemma set_last_length {A} (l : list A) v l' : set_last l v = Ok l' -> length l' = length l.
Proof.
  intros H. apply set_last_ok in H. destruct H as [Hn ->].
  rewrite app_length. simpl. destruct (exists_last Hn) as (m & a & ->).
  rewrite removelast_last, app_length. reflexivity.
Qed.

Lemma set_last_ne {A} (l : list A) v l' : set_last l v = Ok l' -> l' <> [].
Proof. intros H. apply set_last_ok in H. destruct H as [_ ->]. destruct (removelast l); discriminate. Qed.

Lemma set_last_raise {A} (l : list A) v e : set_last l v = Raise e -> l = [] /\ e = IndexError.
Proof. destruct l; simpl; [|discriminate]. intros H; injection H as <-; auto. Qed.

(** ** Staying in the space *)
Section Confined.
Variable P : mh_params.
Hypothesis Hbox : is_box (mh_lo P) (mh_hi P).
Let d := length (mh_lo P).
Let inb := in_box (mh_lo P) (mh_hi P).

Definition atts_ok (l : list attempt) := Forall (fun a => length (at_delta a) = length (mh_lo P)) l.
Definition steps_ok (l : list step_ev) := Forall (fun e => atts_ok (se_attempts e)) l.
Definition iss_ok (l : list is_ev) := Forall (fun e => steps_ok (ie_steps e)) l.

(** holds at every moment, even inside a call *)
Definition weak (s : mh) := Forall inb (mh_traj s) /\ Forall inb (samples (mh_core s)).
(** holds between calls *)
Definition strong (s : mh) := weak s /\ length (mh_current s) = d /\ (mh_types s <> [] -> inb (mh_current s)).

Lemma propose_in x a : length x = d -> length (at_delta a) = d -> inb (mh_propose P x a).
Proof.
  intros H1 H2. unfold mh_propose. apply vclip_in_box; auto.
  rewrite vadd_length; unfold d in *; congruence.
Qed.

Lemma step_loop_confined lp timeout x_old tape : forall acc el x_new s,
  length x_old = d -> atts_ok tape -> weak s ->
  length x_new = d -> (x_new = x_old \/ inb x_new) ->
  (mh_types s <> [] -> inb x_old \/ inb x_new) ->
  match mh_step_loop P lp timeout x_old tape acc el x_new s with
  | SDone x s' => weak s' /\ length x = d /\ inb x /\ mh_types s' <> []
  | SRunning s' => weak s'
  | SFail _ s' => s' = s /\ mh_types s' = []
  end.
Proof.
  induction tape as [|a t IH]; intros acc el x_new s Hx Ht Hw Hn Hin Hty; cbn [mh_step_loop].
  - destruct (negb acc && Qltb el timeout); auto.
    destruct (set_last (mh_types s) ACCEPT) as [ty|e] eqn:E.
    + pose proof (set_last_ok _ _ _ E) as [T _]. specialize (Hty T).
      repeat split; try apply Hw; auto.
      * destruct Hty as [Hty|Hty]; auto. destruct Hin as [->|]; auto.
      * eapply set_last_ne; eauto.
    + apply set_last_raise in E. intuition.
  - destruct (negb acc && Qltb el timeout).
    + inversion Ht as [|? ? Ha Ht']; subst.
      assert (Y : inb (mh_propose P x_old a)) by (apply propose_in; auto).
      pose proof (in_box_length _ _ _ Y) as LY.
      specialize (IH (mh_accept P lp x_old (mh_propose P x_old a) a) (at_clock a)
                     (mh_propose P x_old a) (mh_record (mh_propose P x_old a) s) Hx Ht').
      assert (W : weak (mh_record (mh_propose P x_old a) s)).
      { destruct Hw as [W1 W2]. split; simpl; auto. apply Forall_app; auto. }
      specialize (IH W LY (or_intror Y)).
      assert (T : mh_types (mh_record (mh_propose P x_old a) s) <> []).
      { simpl. destruct (mh_types s); discriminate. }
      specialize (IH (fun _ => or_intror Y)).
      destruct (mh_step_loop _ _ _ _ _ _ _ _ _); auto.
      destruct IH as [-> IH]. rewrite IH in T. congruence.
    + destruct (set_last (mh_types s) ACCEPT) as [ty|e] eqn:E.
      * pose proof (set_last_ok _ _ _ E) as [T _]. specialize (Hty T).
        repeat split; try apply Hw; auto.
        -- destruct Hty as [Hty|Hty]; auto. destruct Hin as [->|]; auto.
        -- eapply set_last_ne; eauto.
      * apply set_last_raise in E. intuition.
Qed.

Definition good (o : outcome mh) : Prop :=
  match o with Done s => strong s | Running s => weak s | Failed _ s => strong s end.

Lemma advance_confined lp timeout lab tape s :
  atts_ok tape -> strong s ->
  match mh_advance P lp timeout lab tape s with
  | Done s' => strong s' /\ mh_types s' <> []
  | Running s' => weak s'
  | Failed _ s' => strong s'
  end.
Proof.
  intros Ht (Hw & Hl & Hc). unfold mh_advance, mcmc_step.
  pose proof (step_loop_confined lp timeout (mh_current s) tape false 0 (mh_current s) s Hl Ht Hw Hl
                (or_introl eq_refl) (fun T => or_introl (Hc T))) as G.
  destruct (mh_step_loop _ _ _ _ _ _ _ _ _) as [x s'|s'|e s']; auto.
  - destruct G as (G1 & G2 & G3 & G4).
    destruct (set_last (mh_types s') lab) as [ty|e] eqn:E.
    + split; [split; [|split]|]; auto. apply set_last_ne in E. exact E.
    + split; [|split]; auto.
  - destruct G as [-> _]. split; auto.
Qed.

Lemma advance_good lp timeout lab tape s :
  atts_ok tape -> strong s -> good (mh_advance P lp timeout lab tape s).
Proof.
  intros H1 H2. pose proof (advance_confined lp timeout lab tape s H1 H2) as G.
  destruct (mh_advance _ _ _ _ _ _); simpl; intuition.
Qed.

Lemma steps_n_good lp timeout n : forall tape s,
  steps_ok tape -> strong s ->
  good (fst (mh_steps_n P lp timeout n tape s)) /\ steps_ok (snd (mh_steps_n P lp timeout n tape s)).
Proof.
  induction n as [|n IH]; intros tape s Ht Hs; simpl; auto.
  destruct tape as [|e t]; simpl; [split; [apply Hs|constructor]|].
  inversion Ht as [|? ? He Ht']; subst.
  pose proof (advance_good lp (timeout - se_elapsed e) DECORRELATION (se_attempts e) s He Hs) as G.
  destruct (mh_advance _ _ _ _ _ _); simpl in *; auto.
Qed.

Lemma mcmc_good lp timeout n : forall tape s acc,
  steps_ok tape -> strong s -> Forall inb acc ->
  let r := mcmc P lp timeout n tape s acc in
  good (fst (fst r)) /\ Forall inb (snd (fst r)) /\ steps_ok (snd r).
Proof.
  induction n as [|n IH]; intros tape s acc Ht Hs Ha; simpl; auto.
  pose proof (steps_n_good lp timeout (mh_steps P) tape s Ht Hs) as [G1 G2].
  destruct (mh_steps_n P lp timeout (mh_steps P) tape s) as [[s1|s1|e s1] t1]; simpl in *; auto.
  destruct (set_last (mh_types s1) SAMPLE) as [ty|e] eqn:E; simpl; auto.
  pose proof (set_last_ok _ _ _ E) as [T _]. destruct G1 as (W & L & C).
  apply IH; auto.
  - split; [|split]; auto.
  - apply Forall_app; split; auto.
Qed.

Lemma burn_good lp n : forall tape s,
  steps_ok tape -> strong s ->
  good (fst (mh_burn P lp n tape s)) /\ steps_ok (snd (mh_burn P lp n tape s)).
Proof.
  induction n as [|n IH]; intros tape s Ht Hs; simpl; auto.
  destruct tape as [|e t]; simpl; [split; [apply Hs|constructor]|].
  inversion Ht as [|? ? He Ht']; subst.
  pose proof (advance_good lp 60 BURN_IN (se_attempts e) s He Hs) as G.
  destruct (mh_advance _ _ _ _ _ _); simpl in *; auto.
Qed.

Lemma sample_loop_good lp timeout n k : forall tape s acc,
  steps_ok tape -> strong s -> Forall inb acc ->
  let r := mh_sample_loop P lp timeout n k tape s acc in
  good (fst (fst r)) /\ Forall inb (snd (fst r)).
Proof.
  induction k as [|k IH]; intros tape s acc Ht Hs Ha; simpl; auto.
  pose proof (mcmc_good lp timeout n tape s (@nil vec) Ht Hs (Forall_nil _)) as (G1 & G2 & G3).
  destruct (mcmc P lp timeout n tape s []) as [[[s1|s1|e s1] rows] t1]; simpl in *; auto.
  apply IH; auto. apply Forall_app; auto.
Qed.

Lemma sample_good lp timeout n tape s :
  steps_ok tape -> strong s ->
  let r := mh_sample P lp timeout n tape s in
  good (fst (fst r)) /\ Forall inb (snd (fst r)).
Proof.
  intros Ht Hs. unfold mh_sample. destruct (mh_is_init s).
  - apply sample_loop_good; auto.
  - pose proof (burn_good lp (mh_burnin P) tape s Ht Hs) as [G1 G2].
    destruct (mh_burn P lp (mh_burnin P) tape s) as [[s1|s1|e s1] t1]; simpl in *; auto.
    apply sample_loop_good; auto.
Qed.

Lemma is_loop_good lp timeout n tape : forall el s,
  iss_ok tape -> strong s -> good (mh_is_loop P lp timeout n tape el s).
Proof.
  induction tape as [|e t IH]; intros el s Ht Hs; cbn [mh_is_loop].
  - destruct (_ && _); simpl; auto. apply Hs.
  - destruct (_ && _); simpl; auto.
    inversion Ht as [|? ? He Ht']; subst.
    pose proof (sample_good lp timeout 1 (ie_steps e) s He Hs) as [G1 G2].
    destruct (mh_sample P lp timeout 1 (ie_steps e) s) as [[[s1|s1|x s1] rows] t1]; simpl in *; auto.
    apply IH; auto. destruct G1 as ((W1 & W2) & L & C). split; [split|split]; auto.
    simpl. apply Forall_app; auto.
Qed.

Lemma is_good lp n timeout tape pick s :
  iss_ok tape -> strong s -> good (mh_importance_sample P lp n timeout tape pick s).
Proof.
  intros Ht Hs. unfold mh_importance_sample.
  pose proof (is_loop_good lp timeout n tape 0 s Ht Hs) as G.
  destruct (mh_is_loop _ _ _ _ _ _ _) as [s1|s1|e s1]; auto.
  simpl in G. destruct G as ((W1 & W2) & L & C).
  destruct (update_model _ _ _); simpl; (split; [split|split]); auto.
Qed.

Definition op_ok (o : mh_op) : Prop :=
  match o with
  | OpReset | OpQuery _ => True
  | OpSample _ _ _ tape => steps_ok tape
  | OpIS _ _ _ tape _ => iss_ok tape
  end.

Lemma run_good o s : op_ok o -> strong s -> good (mh_run P o s).
Proof.
  intros Ho Hs. destruct o; simpl in *.
  - destruct Hs as ((W1 & W2) & L & C). split; [split|split]; simpl; auto; congruence.
  - unfold mh_query, core_query. destruct (model (mh_core s)); [exact Hs|].
    destruct (update_model _ _ _); exact Hs.
  - apply sample_good; auto.
  - apply is_good; auto.
Qed.

Lemma reachable_strong x0 ops s :
  length x0 = d -> Forall op_ok ops -> mh_reachable P x0 ops s -> strong s.
Proof.
  intros Hx Ho H. induction H as [|ops s o s' H IH Hr].
  - split; [split|split]; simpl; auto; congruence.
  - inversion Ho as [|? ? Ho1 Ho2]; subst.
    pose proof (run_good o s Ho1 (IH Ho2)) as G.
    destruct Hr as [Hr|[e Hr]]; rewrite Hr in G; exact G.
Qed.

Lemma confined_everywhere x0 ops s o :
  length x0 = d -> Forall op_ok (o :: ops) -> mh_reachable P x0 ops s ->
  Forall inb (mh_traj (out_state (mh_run P o s))) /\
  Forall inb (samples (mh_core (out_state (mh_run P o s)))).
Proof.
  intros Hx Ho H. inversion Ho; subst.
  pose proof (run_good o s ltac:(auto) (reachable_strong x0 ops s Hx ltac:(auto) H)) as G.
  destruct (mh_run P o s); simpl in *; try apply G.
Qed.

Lemma sample_rows_confined x0 ops s lp timeout n tape :
  length x0 = d -> Forall op_ok ops -> steps_ok tape -> mh_reachable P x0 ops s ->
  Forall inb (snd (fst (mh_sample P lp timeout n tape s))).
Proof.
  intros Hx Ho Ht H. apply sample_good; auto. eapply reachable_strong; eauto.
Qed.
End Confined.
