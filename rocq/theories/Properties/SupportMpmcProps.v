(** C126 and C128 for M-PMC. *)
From Coq Require Import List Bool Arith Lia QArith Lqa.
Import ListNotations.
From Verif Require Import Prelude.Py Prelude.QBase Prelude.QFacts Model.Base Model.Mixture Model.Population Model.MPMC
  Spec.MPMCSpec Proofs.PopulationProofs Proofs.MPMCProofs Proofs.MPMCHistory Proofs.MPMCWitness Proofs.MasslessProofs.
Open Scope Q_scope.

Lemma batch_length ws n us draw (xs : list (list Q)) : mixture_sample ws n us draw = Ok xs -> length xs = n.
Proof.
  intros M. unfold mixture_sample in M. destruct ws as [|w l], n as [|k]; try discriminate; apply (f_equal (fun o => match o with Ok y => length y | Raise _ => O end)) in M.
  - symmetry. exact M.
  - symmetry. exact M.
  - rewrite map_length, seq_length in M. symmetry. exact M.
Qed.

(** C126. M-PMC: in every history, a turn that ends gives positive weights exactly to the samples where the target is positive, unless
    no sample of the batch lies there. *)
Theorem C126_mpmc :
  forall P us ops s, mp_params_ok P -> length us = mp_N P -> Forall (fun e => mp_op_ok P (fst e)) ops -> mp_reachable P us ops s ->
  forall pi r s', (forall x, 0 <= pi x) -> mp_iter P pi r s = Done s' ->
  exists xs ws, length xs = mp_K P /\ mp_samples s' = mp_samples s ++ xs /\ mp_weights s' = mp_weights s ++ ws /\
    (Forall2 (fun x w => exists v, w = Fin v /\ (0 < v <-> 0 < pi x)) xs ws \/ (Forall (fun x => pi x == 0) xs /\ Forall (fun w => w = NaN) ws)).
Proof.
  intros P us ops s PO U O R pi r s' Pi E. destruct (mp_books_reachable _ _ _ _ PO U O R) as (t & Ok & _).
  assert (MX : forall x, 0 < mp_mix P s x) by (intros x; apply mix_pos; auto).
  assert (RP : forall x, 0 < mp_raw P pi s x <-> 0 < pi x).
  { intros x. unfold mp_raw. specialize (MX x). specialize (Pi x). split; intros H.
    - destruct (Qlt_le_dec 0 (pi x)) as [|L]; auto. exfalso. assert (Z : pi x == 0) by lra. rewrite Z in H. unfold Qdiv in H. lra.
    - apply Qlt_shift_div_l; auto. lra. }
  assert (RN : forall xs, Forall (fun w => 0 <= w) (map (mp_raw P pi s) xs)).
  { intros xs. rewrite Forall_map. apply Forall_forall. intros x _. apply raw_nonneg; auto. }
  unfold mp_iter in E. destruct (mixture_sample (mp_mixw s) (mp_K P) (mr_us r) (mr_draw r)) as [xs|e] eqn:M; [|discriminate]. cbv zeta in E.
  assert (LX : length xs = mp_K P) by (eapply batch_length; exact M).
  destruct (Qeq_bool_spec (Qsum (map (mp_raw P pi s) xs)) 0) as [Z|Z].
  - injection E as <-. cbn [mp_samples mp_weights]. exists xs, (map (fun _ => NaN) xs). split; auto. split; auto. split; auto. right. split.
    + pose proof (Qsum_zero_all _ (RN xs) Z) as A. rewrite Forall_map in A. eapply Forall_impl; [|exact A]. intros x H. simpl in H.
      destruct (Qlt_le_dec 0 (pi x)) as [L|L]; [apply RP in L; lra|]. specialize (Pi x). lra.
    + rewrite Forall_map. apply Forall_forall. auto.
  - assert (SP : 0 < Qsum (map (mp_raw P pi s) xs)) by (pose proof (Qsum_nonneg _ (RN xs)) as A; destruct (Qlt_le_dec 0 (Qsum (map (mp_raw P pi s) xs))) as [|L]; auto; exfalso; apply Z; lra).
    match type of E with (match ?a with _ => _ end) = _ => destruct a as [[alpha props] [|]] end; [|discriminate].
    injection E as <-. cbn [mp_samples mp_weights]. eexists xs, _. split; auto. split; auto. split; [reflexivity|]. left.
    revert SP. generalize (Qsum (map (mp_raw P pi s) xs)). intros S SP. rewrite !map_map. clear -RP SP. induction xs as [|x l IH]; simpl; constructor; auto.
    eexists. split; [reflexivity|]. rewrite <- RP. split; intros H.
    + destruct (Qlt_le_dec 0 (mp_raw P pi s x)) as [|L]; auto. exfalso. assert (mp_raw P pi s x / S <= 0) by (apply Qle_shift_div_r; auto; lra). lra.
    + apply Qlt_shift_div_l; auto. lra.
Qed.
Print Assumptions C126_mpmc.
(** C128. M-PMC: for a target that is zero everywhere a turn that ends adds the whole batch, each sample with weight NaN. *)
Theorem C128_mpmc :
  forall P pi r s s', massless pi -> mp_iter P pi r s = Done s' ->
  exists xs, length xs = mp_K P /\ mp_samples s' = mp_samples s ++ xs /\ mp_weights s' = mp_weights s ++ repeat NaN (mp_K P).
Proof.
  intros P pi r s s' Z E. unfold mp_iter in E. destruct (mixture_sample _ _ _ _) as [xs|e] eqn:M; [|discriminate]. cbv zeta in E.
  assert (S0 : Qsum (map (mp_raw P pi s) xs) == 0).
  { apply Qsum_all_zero. rewrite Forall_map. apply Forall_forall. intros x _. unfold mp_raw. rewrite (Z x). unfold Qdiv. ring. }
  assert (LX : length xs = mp_K P) by (eapply batch_length; exact M).
  destruct (Qeq_bool_spec (Qsum (map (mp_raw P pi s) xs)) 0) as [_|N]; [|contradiction]. injection E as <-. exists xs. cbn [mp_samples mp_weights].
  split; [exact LX|]. split; [reflexivity|]. f_equal. rewrite <- LX. clear. induction xs; simpl; congruence.
Qed.
Print Assumptions C128_mpmc.
Example C126_mpmc_example :
  mp_params_ok (vmp 2) /\ mp_reachable (vmp 2) vus [] (v0 2) /\ (exists s', mp_iter (vmp 2) vpi vgood (v0 2) = Done s' /\ mp_dead s' = false).
Proof. split; [apply vparams_ok; lia|]. split; [apply mp_init|]. eexists. split; [apply done_run; vm_compute; reflexivity|vm_compute; reflexivity]. Qed.
Example C128_mpmc_example :
  massless (fun _ => 0) /\ exists s', mp_iter (vmp 2) (fun _ => 0) vgood (v0 2) = Done s' /\ mp_weights s' = [NaN; NaN].
Proof. split; [intros x; reflexivity|]. eexists. split; [apply done_run; vm_compute; reflexivity|vm_compute; reflexivity]. Qed.
