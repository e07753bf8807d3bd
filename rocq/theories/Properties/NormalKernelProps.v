(** Property C12 for the normal kernel. *)
From Coq Require Import Reals Lra.
From Verif Require Import Prelude.Py Prelude.RBase Model.Kernel Spec.NormalSpec Spec.IntegralSpec Proofs.IntegralProofs Proofs.DensityProofs Proofs.GaussIntegral Proofs.NormalKernel.
Open Scope R_scope.

(** C12. The normal kernel at every location and inverse bandwidth: positive, symmetric about the location, a Gaussian density
    with standard deviation 1/bw up to one constant factor below 1 and within 1e-11 of it (the source rounds the constant), so
    its integral is within 1e-11 of one; the log density is the logarithm of the density. *)
Theorem C12_normal_kernel :
  exists mass, 1 - / 100000000000 < mass < 1 /\ forall loc bw, 0 < bw ->
  let k := kernel_call kernel_normal loc bw in
  (forall x, 0 < k x /\ k (loc + x) = k (loc - x) /\ k x = mass * gauss1 loc (/ (bw * bw)) x /\
             kernel_log_prob kernel_normal loc bw x = Fin (ln (k x))) /\
  integrates_to k mass.
Proof.
  exists kernel_mass. split; [exact kernel_mass_bounds|]. intros loc bw H k.
  assert (P : forall x, 0 < k x).
  { intros x. unfold k, kernel_call, kernel_normal, Rpower. apply Rmult_lt_0_compat; auto. apply Rmult_lt_0_compat; [lra|apply exp_pos]. }
  split; [|exact (affine_integrates _ _ loc bw H kernel_normal_integrates)].
  intros x. split; [apply P|]. split; [|split].
  - unfold k, kernel_call. f_equal. unfold kernel_normal. f_equal. f_equal. ring.
  - unfold k, kernel_call. rewrite kernel_normal_exp. unfold gauss1.
    assert (B2 : 0 < bw * bw) by nra. assert (Q : 0 < sqrt (2 * PI)) by (apply sqrt_lt_R0; pose proof PI_RGT_0; lra).
    assert (E : sqrt (2 * PI * / (bw * bw)) = sqrt (2 * PI) * / bw).
    { pose proof PI_RGT_0. pose proof (Rinv_0_lt_compat _ H). rewrite sqrt_mult by (try lra; left; apply Rinv_0_lt_compat; lra). f_equal.
      replace (/ (bw * bw)) with (/ bw * / bw) by (field; lra). apply sqrt_square. lra. }
    rewrite E. replace (2 * PI * 1) with (2 * PI) by ring.
    replace (- (((x - loc) * bw - 0) * ((x - loc) * bw - 0) / (2 * 1))) with (- ((x - loc) * (x - loc) / (2 * / (bw * bw)))) by (field; lra).
    field. lra.
  - unfold kernel_log_prob. fold k. change (kernel_call kernel_normal loc bw x) with (k x). unfold fln, Rltb. destruct (Rlt_dec 0 (k x)) as [|n]; [reflexivity|]. elim n. apply P.
Qed.
Print Assumptions C12_normal_kernel.
Example C12_normal_kernel_example : 0 < 3 / 2 /\ kernel_call kernel_normal 2 (3 / 2) 2 = 3989422804 / 10000000000 * (3 / 2).
Proof.
  split; [lra|]. unfold kernel_call, kernel_normal. replace (- (1 / 2) * ((2 - 2) * (3 / 2)) * ((2 - 2) * (3 / 2))) with 0 by ring.
  rewrite Rpower_O by apply exp_pos. ring.
Qed.
