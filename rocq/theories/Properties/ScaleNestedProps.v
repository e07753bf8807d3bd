(** Property C106 for nested and multi-nested sampling, whose weights are computed with exponentials. *)
From Coq Require Import List Arith Lia QArith Qreals Reals.
Import ListNotations.
From Verif Require Import Prelude.Py Model.Base Model.Nested Spec.ScaleSpec Proofs.ScaleBase Proofs.ScaleSimple Proofs.ScaleR Proofs.NestedWitness.
Open Scope Q_scope.

Definition ns_retarget (c : Q) (o o' : ns_op) : Prop :=
  match o, o' with
  | NsCall pi n t tape pick, NsCall pi' n' t' tape' pick' => scaled c pi pi' /\ n' = n /\ t' = t /\ tape' = tape /\ pick' = pick
  | NsSample pick m, NsSample pick' m' => pick' = pick /\ m' = m
  | NsQuery pick, NsQuery pick' => pick' = pick
  | NsReset us, NsReset us' => us' = us
  | _, _ => False
  end.
Definition mn_retarget (c : Q) (o o' : mn_op) : Prop :=
  match o, o' with
  | MnCall oc pi n t tape pick, MnCall oc' pi' n' t' tape' pick' => oc' = oc /\ scaled c pi pi' /\ n' = n /\ t' = t /\ tape' = tape /\ pick' = pick
  | MnSample pick m, MnSample pick' m' => pick' = pick /\ m' = m
  | MnQuery pick, MnQuery pick' => pick' = pick
  | MnReset us, MnReset us' => us' = us
  | _, _ => False
  end.
Lemma ns_like_refl c us P : ns_like c (ns_new P us) (ns_new P us).
Proof. unfold ns_like. repeat split; constructor. Qed.
Lemma ns_reset_like c us P s s' : ns_like c s s' -> ns_like c (ns_reset P us s) (ns_reset P us s').
Proof. intros (A & B & D & F & G & H & I & J). unfold ns_like; simpl. repeat split; auto. Qed.
Lemma nested_run_scale c P o o' s s' : 0 < c -> ns_retarget c o o' -> ns_like c s s' -> outs (ns_like c) (nested_run P o s) (nested_run P o' s').
Proof.
  intros C H L. destruct o, o'; simpl in H; try contradiction.
  - destruct H as (S & -> & -> & -> & ->). now apply nested_call_scale.
  - destruct H as (-> & ->). now apply ns_sample_scale.
  - subst. now apply ns_query_scale.
  - subst. now apply ns_reset_like.
Qed.
Lemma multi_run_scale c P o o' s s' : 0 < c -> mn_retarget c o o' -> ns_like c s s' -> outs (ns_like c) (multi_run P o s) (multi_run P o' s').
Proof.
  intros C H L. destruct o, o'; simpl in H; try contradiction.
  - destruct H as (-> & S & -> & -> & -> & ->). now apply multi_call_scale.
  - destruct H as (-> & ->). now apply ns_sample_scale.
  - subst. now apply ns_query_scale.
  - subst. now apply ns_reset_like.
Qed.
(** The samples, the live points, the weights and the counters are the same. *)
Theorem C106_nested c P us ops ops' s : 0 < c -> nested_reachable P us ops s -> Forall2 (ns_retarget c) ops ops' ->
  exists s', nested_reachable P us ops' s' /\ ns_samples s' = ns_samples s /\ ns_live s' = ns_live s /\ ns_model s' = ns_model s /\
    (forall N, nested_weights N (map Q2R (ns_L s')) = nested_weights N (map Q2R (ns_L s))) /\ ns_q_samples s' = ns_q_samples s /\ ns_pi_evals s' = ns_pi_evals s.
Proof.
  intros C R F. assert (G : exists s', nested_reachable P us ops' s' /\ ns_like c s s').
  { revert ops' F. induction R as [|o ops s s1 R IH E]; intros ops' F; inversion F as [|? o' ? l' Ho Hl]; subst; [exists (ns_new P us); split; [constructor|apply ns_like_refl]|].
    destruct (IH l' Hl) as (s' & R' & L). pose proof (nested_run_scale c P o o' s s' C Ho L) as H. destruct E as [E|(e & E)]; rewrite E in H; destruct (nested_run P o' s') as [s2|s2|e2 s2] eqn:E2; simpl in H; try contradiction.
    - exists s2. split; auto. eapply nested_next; eauto.
    - destruct H as (<- & H). exists s2. split; auto. eapply nested_next; eauto. }
  destruct G as (s' & R' & L). exists s'. pose proof (ns_like_samples _ _ _ L) as Sm. destruct L as (A & B & D & H & G & I & J & K). repeat split; auto. intros N. now apply (nested_weights_scale c).
Qed.
Print Assumptions C106_nested.
Definition ncall3 : ns_op := NsCall (fun x => 3 * npi x) 2 60 [rep1; rep2] (fun i => i).
Example C106_nested_example : nested_reachable nP nus [ncall] ns1 /\ length (ns_samples ns1) = 2%nat /\ Forall2 (ns_retarget 3) [ncall] [ncall3].
Proof. split; [apply n_reach|]. split; [reflexivity|]. constructor; [|constructor]. simpl. split; [intros x; reflexivity|auto]. Qed.
Theorem C106_multi_nested c P us ops ops' s : 0 < c -> multi_reachable P us ops s -> Forall2 (mn_retarget c) ops ops' ->
  exists s', multi_reachable P us ops' s' /\ ns_samples s' = ns_samples s /\ ns_live s' = ns_live s /\ ns_model s' = ns_model s /\
    (forall N, nested_weights N (map Q2R (ns_L s')) = nested_weights N (map Q2R (ns_L s))) /\ ns_q_samples s' = ns_q_samples s /\ ns_pi_evals s' = ns_pi_evals s.
Proof.
  intros C R F. assert (G : exists s', multi_reachable P us ops' s' /\ ns_like c s s').
  { revert ops' F. induction R as [|o ops s s1 R IH E]; intros ops' F; inversion F as [|? o' ? l' Ho Hl]; subst; [exists (ns_new P us); split; [constructor|apply ns_like_refl]|].
    destruct (IH l' Hl) as (s' & R' & L). pose proof (multi_run_scale c P o o' s s' C Ho L) as H. destruct E as [E|(e & E)]; rewrite E in H; destruct (multi_run P o' s') as [s2|s2|e2 s2] eqn:E2; simpl in H; try contradiction.
    - exists s2. split; auto. eapply multi_next; eauto.
    - destruct H as (<- & H). exists s2. split; auto. eapply multi_next; eauto. }
  destruct G as (s' & R' & L). exists s'. pose proof (ns_like_samples _ _ _ L) as Sm. destruct L as (A & B & D & H & G & I & J & K). repeat split; auto. intros N. now apply (nested_weights_scale c).
Qed.
Print Assumptions C106_multi_nested.
Definition mcall3 : mn_op := MnCall moc (fun x => 3 * npi x) 5 60 [mrep; mrep; mrep; mrep] (fun i => i).
Example C106_multi_nested_example : multi_reachable mP mus [mcall] ms1 /\ ns_samples ms1 <> [] /\ Forall2 (mn_retarget 3) [mcall] [mcall3].
Proof. split; [apply m_reach|]. split; [discriminate|]. constructor; [|constructor]. simpl. split; [reflexivity|]. split; [intros x; reflexivity|auto]. Qed.
