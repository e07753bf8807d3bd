(** The normal smoothing kernel with the constant of the source. *)
From Coquelicot Require Import Coquelicot.
From Coq Require Import List Bool Arith Lia Reals Lra Machin.
From Verif Require Import Prelude.Py Prelude.RBase Model.Kernel Spec.NormalSpec Spec.IntegralSpec Proofs.IntegralProofs Proofs.GaussIntegral.
Open Scope R_scope.

Lemma pi_low : 3141592653588 / 1000000000000 < PI.
Proof.
  pose proof (proj1 (PI_2_3_7_ineq 6)) as H. simpl in H. unfold tg_alt, PI_2_3_7_tg, Ratan_seq in H. simpl in H. lra.
Qed.
Lemma pi_high : PI < 3141592653591 / 1000000000000.
Proof.
  pose proof (proj2 (PI_2_3_7_ineq 6)) as H. simpl in H. unfold tg_alt, PI_2_3_7_tg, Ratan_seq in H. simpl in H. lra.
Qed.

Definition kernel_mass : R := 3989422804 / 10000000000 * sqrt (2 * PI).
Lemma kernel_mass_bounds : 1 - / 100000000000 < kernel_mass < 1.
Proof.
  unfold kernel_mass. pose proof pi_low as L. pose proof pi_high as H.
  assert (Q : 0 < sqrt (2 * PI)) by (apply sqrt_lt_R0; lra).
  assert (S : sqrt (2 * PI) * sqrt (2 * PI) = 2 * PI) by (apply sqrt_sqrt; lra).
  set (q := sqrt (2 * PI)) in *. clearbody q. split.
  - apply Rnot_le_lt. intros A.
    assert (q * q <= (10000000000 / 3989422804 * (1 - / 100000000000)) * (10000000000 / 3989422804 * (1 - / 100000000000))).
    { apply Rmult_le_compat; lra. }
    lra.
  - apply Rnot_le_lt. intros A.
    assert ((10000000000 / 3989422804) * (10000000000 / 3989422804) <= q * q) by (apply Rmult_le_compat; lra).
    lra.
Qed.

Lemma kernel_normal_exp u : kernel_normal u = kernel_mass * gauss1 0 1 u.
Proof.
  unfold kernel_normal, kernel_mass, gauss1, Rpower. rewrite ln_exp.
  assert (Q : 0 < sqrt (2 * PI)) by (apply sqrt_lt_R0; pose proof PI_RGT_0; lra).
  replace (2 * PI * 1) with (2 * PI) by ring. replace (- ((u - 0) * (u - 0) / (2 * 1))) with (- (1 / 2) * u * u * 1) by field.
  field. lra.
Qed.
Lemma kernel_normal_integrates : integrates_to kernel_normal kernel_mass.
Proof.
  pose proof (gauss1_integrates 0 1 Rlt_0_1) as I. intros eps E.
  destruct kernel_mass_bounds as [A B].
  destruct (I eps E) as (b & Pb & Hb). exists b. split; [exact Pb|]. intros x y X Y. destruct (Hb x y X Y) as (v & V & D).
  exists (kernel_mass * v). split.
  - apply (is_RInt_scal _ _ _ kernel_mass) in V. apply is_RInt_ext with (2 := V). intros t _.
    rewrite kernel_normal_exp. reflexivity.
  - replace (kernel_mass * v - kernel_mass) with (kernel_mass * (v - 1)) by ring. rewrite Rabs_mult, (Rabs_right kernel_mass) by lra.
    pose proof (Rabs_pos (v - 1)). nra.
Qed.
