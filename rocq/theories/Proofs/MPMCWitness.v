(** Concrete runs of mixture population Monte Carlo. *)
From Coq Require Import List Bool Arith Lia QArith Lqa.
Import ListNotations.
From Verif Require Import Prelude.Py Prelude.QBase Prelude.QFacts Model.Base Model.Mixture Model.Population Model.MPMC
  Spec.MPMCSpec Spec.PopulationSpec Proofs.MPMCProofs Proofs.MPMCHistory.
Open Scope Q_scope.

(** One dimension, two proposals, K samples; the component density is one, or two for a proposal centred above 1/2
    at points above 1/2. *)
Definition vcomp (m : vec) (c : mat) (x : vec) : Q :=
  if Qltb (1 # 2) (nth 0 m 0) && Qltb (1 # 2) (nth 0 x 0) then 2 else 1.
Definition vmp (K : nat) : mp_params := mkMpP [0] [1] 2 K 1 vcomp.
Definition vus : list vec := [[1 # 4]; [3 # 4]].
(** Target: uniform on [0, 2]. *)
Definition vpi (x : vec) : Q := if Qle_bool 0 (nth 0 x 0) && Qle_bool (nth 0 x 0) 2 then 1 # 2 else 0.
(** Rounds drawing a fixed batch. *)
Definition vround (xs : list vec) : mp_round := mkMpR (fun _ _ => 0) (fun k _ => nth k xs []) 0.

Lemma vcomp_pos K : mp_comp_pos (vmp K).
Proof. intros m c x. unfold vmp, mp_comp, vcomp. destruct (_ && _); reflexivity. Qed.
Lemma vparams_ok K : (0 < K)%nat -> mp_params_ok (vmp K).
Proof. intros H. split; [simpl; lia|]. split; auto. apply vcomp_pos. Qed.
Lemma vpi_nonneg x : 0 <= vpi x.
Proof. unfold vpi. destruct (_ && _); lra. Qed.
Definition vcall (n : nat) (tape : list mp_round) : mp_op := MpCall vpi n 1 tape.
Definition v0 (K : nat) : mp := mp_new (vmp K) vus.

Definition vgood : mp_round := vround [[0]; [1]].
Definition vdone (n : nat) (tape : list mp_round) : mp := out_state (mp_run (vmp 2) (vcall n tape) (v0 2)).
Definition is_done {S : Type} (o : outcome S) : bool := match o with Done _ => true | _ => false end.
Lemma done_run {S : Type} (o : outcome S) : is_done o = true -> o = Done (out_state o).
Proof. destruct o; simpl; intros; congruence. Qed.
Lemma v1_run : mp_run (vmp 2) (vcall 2 [vgood]) (v0 2) = Done (vdone 2 [vgood]).
Proof. unfold vdone. apply done_run. vm_compute. reflexivity. Qed.
(** A single flat proposal, for two batches. *)
Definition v1p : mp_params := mkMpP [0] [1] 1 2 1 (fun _ _ _ => 1).
Lemma v1p_ok : mp_params_ok v1p.
Proof. split; [simpl; lia|]. split; [simpl; lia|]. intros m c x. reflexivity. Qed.
Definition vus1 : list vec := [[1 # 4]].
Definition vtwo : mp_round := vround [[0]; [1]].
Definition v2 : mp := out_state (mp_run v1p (vcall 4 [vtwo; vtwo]) (mp_new v1p vus1)).
Lemma v2_run : mp_run v1p (vcall 4 [vtwo; vtwo]) (mp_new v1p vus1) = Done v2.
Proof. unfold v2. apply done_run. vm_compute. reflexivity. Qed.
Lemma v1_reach : mp_reachable (vmp 2) vus [(vcall 2 [vgood], true)] (vdone 2 [vgood]).
Proof. eapply mp_done; [apply mp_init|]. exact v1_run. Qed.
Lemma v2_reach : mp_reachable v1p vus1 [(vcall 4 [vtwo; vtwo], true)] v2.
Proof. eapply mp_done; [apply mp_init|]. exact v2_run. Qed.
(** A batch outside the support of the target. *)
Definition vmiss : mp_round := vround [[3]; [4]].
Lemma vmiss_run : mp_run (vmp 2) (vcall 2 [vmiss]) (v0 2) = Done (vdone 2 [vmiss]).
Proof. unfold vdone. apply done_run. vm_compute. reflexivity. Qed.
(** A batch of equal samples. *)
Definition vsame : mp_round := vround [[1]; [1]].
Lemma vsame_run : mp_run (vmp 2) (vcall 2 [vsame]) (v0 2) = Failed AssertionError (vdone 2 [vsame]).
Proof.
  assert (H : match mp_run (vmp 2) (vcall 2 [vsame]) (v0 2) with Failed AssertionError _ => true | _ => false end = true)
    by (vm_compute; reflexivity).
  unfold vdone. destruct (mp_run (vmp 2) (vcall 2 [vsame]) (v0 2)) as [s|s|[] s]; try discriminate. reflexivity.
Qed.
Lemma vsame_reach : mp_reachable (vmp 2) vus [(vcall 2 [vsame], false)] (vdone 2 [vsame]).
Proof. eapply mp_fail; [apply mp_init|]. exact vsame_run. Qed.
Lemma vops_ok P n tape (b : bool) : Forall (fun e => mp_op_ok P (fst e)) [(vcall n tape, b)].
Proof. repeat constructor. intros x. apply vpi_nonneg. Qed.
Lemma nth_error_lt {A : Type} (l : list A) d p : nth_error l d = Some p -> (d < length l)%nat.
Proof. intros H. apply nth_error_Some. congruence. Qed.
Lemma some_inj {A : Type} (a b : A) : Some a = Some b -> a = b.
Proof. congruence. Qed.
