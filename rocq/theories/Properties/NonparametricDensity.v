(** Property C116 for the density of the nearest neighbour distribution. *)
From Coq Require Import List Bool Arith Lia QArith Qreals Reals Lra.
Import ListNotations.
From Verif Require Import Prelude.Py Prelude.QBase Prelude.RBase Model.Base Model.Nonparametric Spec.NonparametricSpec.
Open Scope R_scope.

(** The reported density is the exponential of a weight: nowhere below one, so that it is no density on a support with a volume above one. *)
Theorem C116_density_partial s x p : Forall (fun w => (0 <= w)%Q) (nn_weights s) -> nn_prob s x = Ok p -> 1 <= p /\ exists w, In w (nn_weights s) /\ p = exp (Q2R w).
Proof.
  intros F H. unfold nn_prob in H. destruct (nn_log_prob s x) as [w|e] eqn:E; [|discriminate]. injection H as <-. unfold nn_log_prob in E. destruct (nth_error _ _) as [v|] eqn:N in E; [|discriminate]. injection E as ->.
  apply nth_error_In in N. split; [|eauto]. rewrite Forall_forall in F. specialize (F w N). apply Qle_Rle in F. replace (Q2R 0) with 0 in F by (unfold Q2R; simpl; lra).
  destruct (Rle_lt_or_eq_dec 0 (Q2R w) F) as [P|P]; [left; rewrite <- exp_0; now apply exp_increasing|right; rewrite <- P; symmetry; apply exp_0].
Qed.
Print Assumptions C116_density_partial.
Example C116_density_example : exists s p, nn_new (Some [[0%Q]; [1%Q]]) [[0%Q]; [1%Q]] [(1 # 2)%Q; (1 # 2)%Q] = Ok s /\ Forall (fun w => (0 <= w)%Q) (nn_weights s) /\ nn_prob s [2%Q] = Ok p.
Proof. do 2 eexists. split; [reflexivity|]. split; [repeat constructor; discriminate|]. unfold nn_prob. vm_compute nn_log_prob. reflexivity. Qed.
(** It is not the weight of the nearest sample. *)
Theorem C116_density_refuted : exists s w, nn_new (Some [[0%Q]]) [[0%Q]] [w] = Ok s /\ w = 1%Q /\ forall x, exists p, nn_prob s x = Ok p /\ p <> Q2R w /\ 2 <= p.
Proof.
  eexists. exists 1%Q. split; [reflexivity|]. split; [reflexivity|]. intros x. exists (exp (Q2R 1)). split; [reflexivity|]. replace (Q2R 1) with 1 by (unfold Q2R; simpl; lra). pose proof (exp_ineq1 1 R1_neq_R0). split; lra.
Qed.
Print Assumptions C116_density_refuted.
