(** Concrete runs of deterministic mixture AIS and layered AIS. *)
From Coq Require Import List Bool Arith Lia QArith Lqa.
Import ListNotations.
From Verif Require Import Prelude.Py Prelude.QBase Prelude.QFacts Model.Base Model.Mixture Model.Population
  Spec.Box Spec.PopulationSpec Proofs.PopulationProofs Proofs.PopulationHistory.
Open Scope Q_scope.

(** One dimension, two proposals, two samples each, two walk steps, a kernel that decays with the distance. *)
Definition wcomp (m x : vec) : Q := 1 / (1 + (nth 0 x 0 - nth 0 m 0) * (nth 0 x 0 - nth 0 m 0)).
Definition wpop : pop_params := mkPop [0] [4] 2 2 2 wcomp.
Definition wus : list vec := [[1 # 4]; [3 # 4]].
(** Target: 2 - x on [0,2], 0 elsewhere. *)
Definition wpi (x : vec) : Q := let a := nth 0 x 0 in if Qle_bool 0 a && Qle_bool a 2 then 2 - a else 0.
Definition wround : pop_round :=
  mkPopR (fun j k => match j, k with 0%nat, 0%nat => [1] | 0%nat, _ => [1 # 2] | 1%nat, 0%nat => [3] | _, _ => [7 # 2] end)
         (fun j i => match j with 0%nat => 0 | _ => 9 # 10 end)
         (fun j l => match l with 0%nat => ([- (3 # 2)], 1 # 2) | _ => ([- (1)], 1 # 2) end) 0.
(** All four samples outside the target's support. *)
Definition wbad : pop_round :=
  mkPopR (fun j k => [3]) (fun _ _ => 0) (fun _ _ => ([0], 0)) 0.

Lemma wcomp_pos : comp_pos wpop.
Proof.
  intros m x. unfold wpop, pp_comp, wcomp. set (d := nth 0 x 0 - nth 0 m 0).
  assert (0 <= d * d). { destruct (Qlt_le_dec d 0); nra. }
  apply Qlt_shift_div_l; [lra|]. rewrite Qmult_0_l. reflexivity.
Qed.
Lemma wparams_ok : pop_params_ok wpop.
Proof. repeat split; try (simpl; lia); try (simpl; lra). apply wcomp_pos. Qed.
Lemma wus_ok : us_ok wpop wus.
Proof. repeat split; repeat constructor; simpl; lra. Qed.
Lemma wpi_nonneg x : 0 <= wpi x.
Proof.
  unfold wpi. destruct (Qle_bool_spec 0 (nth 0 x 0)), (Qle_bool_spec (nth 0 x 0) 2); simpl; lra.
Qed.
Lemma wround_ok : round_ok wpop wround.
Proof.
  split; [intros [|j] i; simpl; lra|]. intros j [|l]; simpl; repeat split; lra.
Qed.
Lemma wbad_ok : round_ok wpop wbad.
Proof. split; [intros; simpl; lra|]. intros j l; simpl; repeat split; lra. Qed.

Definition wcall (tape : list pop_round) : pop_op := PopCall wpi 4 1 tape.
Lemma wcall_ok tape : Forall (round_ok wpop) tape -> pop_op_ok wpop (wcall tape).
Proof. split; auto. apply wpi_nonneg. Qed.

Definition after {S : Type} (o : outcome S) (d : S) : S := match o with Done s => s | _ => d end.
Definition w0 : pop := pop_new wpop wus.
Definition wdm : pop := after (pop_run DM wpop (wcall [wround]) w0) w0.
Definition wlais : pop := after (pop_run LAIS wpop (wcall [wround]) w0) w0.
Lemma wdm_run : pop_run DM wpop (wcall [wround]) w0 = Done wdm.
Proof. vm_compute. reflexivity. Qed.
Lemma wlais_run : pop_run LAIS wpop (wcall [wround]) w0 = Done wlais.
Proof. vm_compute. reflexivity. Qed.
Lemma wdm_reach : pop_reachable DM wpop wus [(wcall [wround], true)] wdm.
Proof. eapply pop_done; [apply pop_init|]. exact wdm_run. Qed.
Lemma wlais_reach : pop_reachable LAIS wpop wus [(wcall [wround], true)] wlais.
Proof. eapply pop_done; [apply pop_init|]. exact wlais_run. Qed.
(** The call that raises. *)
Definition wfailed : pop := out_state (pop_run DM wpop (wcall [wbad]) w0).
Lemma wfailed_run : pop_run DM wpop (wcall [wbad]) w0 = Failed ValueError wfailed.
Proof. vm_compute. reflexivity. Qed.
Lemma wfailed_reach : pop_reachable DM wpop wus [(wcall [wbad], false)] wfailed.
Proof. eapply pop_fail; [apply pop_init|]. exact wfailed_run. Qed.
