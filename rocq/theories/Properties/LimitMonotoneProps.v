(** C129 for the samplers that draw batches. *)
From Coq Require Import List Bool Arith Lia QArith Lqa.
Import ListNotations.
From Verif Require Import Prelude.Py Prelude.QBase Prelude.QFacts Model.Base Model.Mixture Model.Population Model.MPMC
  Proofs.PopulationProofs Proofs.PopulationWitness Proofs.MPMCProofs Proofs.MPMCWitness.
Open Scope Q_scope.

(** [b] is [a] with further entries. *)
Definition extends {A} (a b : list A) : Prop := exists c, b = a ++ c.
Lemma extends_refl {A} (a : list A) : extends a a.
Proof. exists []. now rewrite app_nil_r. Qed.
Lemma extends_trans {A} (a b c : list A) : extends a b -> extends b c -> extends a c.
Proof. intros (x & ->) (y & ->). exists (x ++ y). now rewrite app_assoc. Qed.

Section Loop.
Variables (S0 R : Type) (count : S0 -> nat) (dead : S0 -> bool) (clock : R -> Q) (turn : R -> S0 -> outcome S0).
Fixpoint batch_loop (n : nat) (timeout : Q) (tape : list R) (elapsed : Q) (s : S0) : outcome S0 :=
  if (count s <? n)%nat && Qltb elapsed timeout then
    if dead s then Running s else
    match tape with
    | [] => Running s
    | r :: t => match turn r s with Done s' => batch_loop n timeout t (clock r) s' | o => o end
    end
  else Done s.
Variable grows : S0 -> S0 -> Prop.
Hypothesis grows_refl : forall s, grows s s.
Hypothesis grows_trans : forall a b c, grows a b -> grows b c -> grows a c.
Hypothesis turn_grows : forall r s, grows s (out_state (turn r s)).
Lemma batch_grows n timeout tape : forall e s, grows s (out_state (batch_loop n timeout tape e s)).
Proof.
  induction tape as [|r t IH]; intros e s; simpl; destruct (_ && _); simpl; auto; destruct (dead s); simpl; auto.
  pose proof (turn_grows r s) as G. destruct (turn r s) as [s1|s1|x s1]; simpl in *; auto. eapply grows_trans; [exact G|]. apply IH.
Qed.
Lemma batch_extends n n' timeout timeout' tape : (n <= n')%nat -> timeout <= timeout' -> forall e s,
  grows (out_state (batch_loop n timeout tape e s)) (out_state (batch_loop n' timeout' tape e s)).
Proof.
  intros N T. induction tape as [|r t IH]; intros e s.
  - simpl. destruct (_ && _), (_ && _); simpl; auto; destruct (dead s); simpl; auto.
  - destruct (Nat.ltb_spec (count s) n) as [X|X]; [destruct (Qltb_spec e timeout) as [Y|Y]|].
    + simpl. destruct (Nat.ltb_spec (count s) n); [|lia]. destruct (Nat.ltb_spec (count s) n'); [|lia]. destruct (Qltb_spec e timeout); [|lra]. destruct (Qltb_spec e timeout'); [|lra]. simpl.
      destruct (dead s); simpl; auto. destruct (turn r s) as [s1|s1|x s1]; simpl; auto.
    + replace (batch_loop n timeout (r :: t) e s) with (Done s); [apply batch_grows|]. simpl. destruct (Nat.ltb_spec (count s) n); [|lia]. destruct (Qltb_spec e timeout); [lra|reflexivity].
    + replace (batch_loop n timeout (r :: t) e s) with (Done s); [apply batch_grows|]. simpl. destruct (Nat.ltb_spec (count s) n); [lia|reflexivity].
Qed.
End Loop.

Definition pop_grows (a b : pop) : Prop := extends (pop_samples a) (pop_samples b) /\ extends (pop_weights a) (pop_weights b).
Lemma adapt_keeps k P pi r xs ws s : pop_samples (out_state (pop_adapt k P pi r xs ws s)) = pop_samples s /\ pop_weights (out_state (pop_adapt k P pi r xs ws s)) = pop_weights s.
Proof. unfold pop_adapt, dm_adapt, lais_adapt. cbv zeta. destruct k; repeat (match goal with |- context [match ?x with _ => _ end] => destruct x end); simpl; auto. Qed.
Lemma pop_turn_grows k P pi r s : pop_grows s (out_state (pop_iter k P pi r s)).
Proof.
  unfold pop_iter. cbv zeta. match goal with |- context [pop_adapt k P pi r ?xs ?ws ?s1] => pose proof (adapt_keeps k P pi r xs ws s1) as (A & B); destruct (pop_adapt k P pi r xs ws s1) as [s2|s2|e s2] end; cbn [out_state pop_samples pop_weights] in *.
  - split; cbn [pop_samples pop_weights]; rewrite ?A, ?B; eexists; reflexivity.
  - split; rewrite ?A, ?B; apply extends_refl.
  - split; rewrite ?A, ?B; apply extends_refl.
Qed.
Lemma pop_loop_batch k P pi n timeout tape : forall e s, pop_loop k P pi n timeout tape e s =
  batch_loop pop pop_round (fun s => length (pop_samples s)) (fun _ => false) pr_clock (pop_iter k P pi) n timeout tape e s.
Proof. induction tape as [|r t IH]; intros e s; simpl; destruct (_ && _); auto. destruct (pop_iter k P pi r s); auto. Qed.

(** C129. Deterministic mixture and layered sampling: for the same object, draws and clock readings, a larger request and a longer time limit
    only add samples and weights after those of the smaller ones, however the calls end. *)
Theorem C129_population :
  forall k P pi n n' timeout timeout' tape s, (n <= n')%nat -> timeout <= timeout' ->
  extends (pop_samples (out_state (pop_call k P pi n timeout tape s))) (pop_samples (out_state (pop_call k P pi n' timeout' tape s))) /\
  extends (pop_weights (out_state (pop_call k P pi n timeout tape s))) (pop_weights (out_state (pop_call k P pi n' timeout' tape s))).
Proof.
  intros k P pi n n' timeout timeout' tape s N T. unfold pop_call. rewrite !pop_loop_batch.
  apply (batch_extends pop pop_round (fun s => length (pop_samples s)) (fun _ => false) pr_clock (pop_iter k P pi) pop_grows); auto.
  - intros a. split; apply extends_refl.
  - intros a b c (A & B) (C & D). split; eapply extends_trans; eassumption.
  - intros. apply pop_turn_grows.
Qed.
Print Assumptions C129_population.

Definition mp_grows (a b : mp) : Prop := extends (mp_samples a) (mp_samples b) /\ extends (mp_weights a) (mp_weights b).
Lemma mp_turn_grows P pi r s : mp_grows s (out_state (mp_iter P pi r s)).
Proof.
  unfold mp_iter, mp_grows. cbv zeta. destruct (mixture_sample _ _ _ _) as [xs|e]; [|split; apply extends_refl].
  destruct (Qeq_bool _ 0); [split; eexists; reflexivity|]. destruct (mp_adapt _ _ _ _ _ _ _) as [[alpha props] [|]]; [split; eexists; reflexivity|].
  split; apply extends_refl.
Qed.
Lemma mp_loop_batch P pi n timeout tape : forall e s, mp_loop P pi n timeout tape e s =
  batch_loop mp mp_round (fun s => length (mp_samples s)) mp_dead mr_clock (mp_iter P pi) n timeout tape e s.
Proof. induction tape as [|r t IH]; intros e s; simpl; destruct (_ && _); auto; destruct (mp_dead s); auto. destruct (mp_iter P pi r s); auto. Qed.
(** C129. The same for M-PMC. *)
Theorem C129_mpmc :
  forall P pi n n' timeout timeout' tape s, (n <= n')%nat -> timeout <= timeout' ->
  extends (mp_samples (out_state (mp_call P pi n timeout tape s))) (mp_samples (out_state (mp_call P pi n' timeout' tape s))) /\
  extends (mp_weights (out_state (mp_call P pi n timeout tape s))) (mp_weights (out_state (mp_call P pi n' timeout' tape s))).
Proof.
  intros P pi n n' timeout timeout' tape s N T. unfold mp_call. rewrite !mp_loop_batch.
  apply (batch_extends mp mp_round (fun s => length (mp_samples s)) mp_dead mr_clock (mp_iter P pi) mp_grows); auto.
  - intros a. split; apply extends_refl.
  - intros a b c (A & B) (C & D). split; eapply extends_trans; eassumption.
  - intros. apply mp_turn_grows.
Qed.
Print Assumptions C129_mpmc.
Example C129_population_example :
  length (pop_samples (out_state (pop_call DM wpop wpi 4 1 [wround; wround] w0))) = 4%nat /\
  length (pop_samples (out_state (pop_call DM wpop wpi 8 1 [wround; wround] w0))) = 8%nat /\
  length (pop_samples (out_state (pop_call LAIS wpop wpi 4 1 [wround; wround] w0))) = 4%nat /\
  length (pop_samples (out_state (pop_call LAIS wpop wpi 8 1 [wround; wround] w0))) = 8%nat.
Proof. repeat split; vm_compute; reflexivity. Qed.
Example C129_mpmc_example :
  length (mp_samples (out_state (mp_call (vmp 2) vpi 0 1 [vgood; vgood] (v0 2)))) = 0%nat /\
  length (mp_samples (out_state (mp_call (vmp 2) vpi 2 1 [vgood; vgood] (v0 2)))) = 2%nat.
Proof. split; vm_compute; reflexivity. Qed.
