(** C130 for layered sampling. *)
From Coq Require Import List Bool Arith Lia QArith Lqa.
Import ListNotations.
From Verif Require Import Prelude.Py Prelude.QBase Model.Base Model.Population Prelude.ListFacts Spec.Box Proofs.MHProofs Proofs.NestedHistory Proofs.PopulationProofs Proofs.PopulationHistory Proofs.PopulationWitness Properties.BlackBoxProps.
Open Scope Q_scope.

Lemma walk_local P (pi pi' : vec -> Q) (ev : nat -> vec * Q) n : is_box (pp_lo P) (pp_hi P) -> (forall l, length (fst (ev l)) = length (pp_lo P)) ->
  (forall x : vec, in_box (pp_lo P) (pp_hi P) x -> pi x = pi' x) ->
  forall l (x : vec), in_box (pp_lo P) (pp_hi P) x -> mcmc_mh P pi' ev n l x = mcmc_mh P pi ev n l x.
Proof.
  intros B D A. induction n as [|n IH]; intros l x X; cbn [mcmc_mh]; auto. cbv zeta.
  assert (Y : in_box (pp_lo P) (pp_hi P) (vclip (vadd x (fst (ev l))) (pp_lo P) (pp_hi P))).
  { apply vclip_in_box; auto. rewrite vadd_length; rewrite (in_box_length _ _ _ X); auto. }
  rewrite <- (A _ Y), <- (A _ X). apply IH. destruct (fgtQ _ _); auto.
Qed.
Lemma lais_iter_local P pi pi' r s : is_box (pp_lo P) (pp_hi P) -> round_ok P r -> means_in P s ->
  (forall x, in_box (pp_lo P) (pp_hi P) x -> pi x = pi' x) -> agree_on (pop_samples (out_state (pop_iter LAIS P pi r s))) pi pi' ->
  pop_iter LAIS P pi' r s = pop_iter LAIS P pi r s /\ (forall x, In x (pop_samples s) -> In x (pop_samples (out_state (pop_iter LAIS P pi r s)))).
Proof.
  intros B (_ & R) M A W. unfold pop_iter in *. cbv zeta in *. cbn [pop_adapt lais_adapt out_state pop_samples pop_means pop_weights] in *.
  split; [|intros x Hx; apply in_or_app; now left].
  unfold lais_adapt in *. cbn [out_state pop_samples pop_means pop_weights pop_q_samples pop_q_evals pop_pi_evals pop_qdens] in *.
  rewrite (weigh_local P pi pi'); [|intros x Hx; apply W; apply in_or_app; now right].
  do 2 f_equal. apply map_ext_in. intros (j & m) I. simpl. apply walk_local; auto.
  - intros l. apply (R j l).
  - apply in_combine_r in I. unfold means_in in M. rewrite Forall_forall in M. auto.
Qed.
Lemma lais_loop_samples P pi n timeout tape x : forall e s, In x (pop_samples s) -> In x (pop_samples (out_state (pop_loop LAIS P pi n timeout tape e s))).
Proof.
  induction tape as [|r t IH]; intros e s Hx; simpl; destruct (_ && _); auto. apply IH. cbn [pop_samples]. apply in_or_app. now left.
Qed.

(** C130. Layered sampling: in every history, two targets with the same values in the sampling space, where the proposal centres walk, and at
    the samples of the object give the same call. *)
Theorem C130_lais :
  forall P us ops s pi pi' n timeout tape, is_box (pp_lo P) (pp_hi P) -> us_ok P us -> Forall (fun e => pop_op_ok P (fst e)) ops -> pop_reachable LAIS P us ops s ->
  Forall (round_ok P) tape -> (forall x, in_box (pp_lo P) (pp_hi P) x -> pi x = pi' x) ->
  agree_on (pop_samples (out_state (pop_call LAIS P pi n timeout tape s))) pi pi' ->
  pop_call LAIS P pi' n timeout tape s = pop_call LAIS P pi n timeout tape s.
Proof.
  intros P us ops s pi pi' n timeout tape B U O R F A. destruct (means_in_reachable P us ops s (PopSample 0) B U O I R) as (M & _). clear R.
  unfold pop_call. generalize 0 as e. revert s M. induction F as [|r t F1 F IH]; intros s M e W; simpl in *; destruct (_ && _); auto.
  match type of W with agree_on (pop_samples (out_state (pop_loop LAIS P pi n timeout t (pr_clock r) ?q))) _ _ => change (Done q) with (pop_iter LAIS P pi r s) in *; assert (E : pop_iter LAIS P pi r s = Done q) by reflexivity; set (s1 := q) in * end.
  destruct (lais_iter_local P pi pi' r s B F1 M A) as (L & _).
  { rewrite E. cbn [out_state]. intros x Hx. apply W. now apply lais_loop_samples. }
  rewrite E in L. assert (M1 : means_in P s1) by (pose proof (means_in_iter P pi r s B F1 M) as X; rewrite E in X; exact X).
  match goal with |- pop_loop LAIS P pi' n timeout t (pr_clock r) ?q = _ => change (Done q) with (pop_iter LAIS P pi' r s) in *; replace q with s1; [apply IH; auto|] end.
  assert (K : out_state (pop_iter LAIS P pi' r s) = s1) by now rewrite L. symmetry. exact K.
Qed.
Print Assumptions C130_lais.
Example C130_lais_example :
  is_box (pp_lo wpop) (pp_hi wpop) /\ us_ok wpop wus /\ Forall (round_ok wpop) [wround] /\ pop_call LAIS wpop wpi 4 1 [wround] w0 = Done wlais.
Proof. split; [repeat constructor; simpl; lra|]. split; [exact wus_ok|]. split; [constructor; [exact wround_ok|constructor]|exact wlais_run]. Qed.
