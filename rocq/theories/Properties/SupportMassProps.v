(** Property C127. *)
From Coq Require Import List Bool Arith QArith Qreals Reals Lra Lia.
Import ListNotations.
From Verif Require Import Prelude.Py Prelude.QBase Prelude.RBase Model.Shape Model.Uniform Model.Saved Proofs.DensityProofs Proofs.SupportMass.
Open Scope R_scope.

(** C127 (full statement: [support_mass c 1] for every benchmark density [c], as distributions.py:24-26 and 69-70 promise)
    is false: the support of the symmetric Pareto density leaves out more than a fifth of its mass. *)
Theorem C127_support_refuted : exists c v, support_mass c v /\ v < 4 / 5 /\ ~ support_mass c 1.
Proof.
  assert (S5 : 0 < sqrt 21 < 5).
  { split; [apply sqrt_lt_R0; lra|]. rewrite <- (sqrt_square 5) by lra. apply sqrt_lt_1; lra. }
  assert (B : 1 / 5 < / sqrt 21). { replace (1 / 5) with (/ 5) by lra. apply Rinv_lt_contravar; [nra|lra]. }
  exists DenPareto, (1 - / sqrt 21). split; [exact pareto_mass|]. split; [lra|]. intros H.
  pose proof (mass_unique _ _ _ pareto_mass H). lra.
Qed.
Print Assumptions C127_support_refuted.

(** C127, what holds: the exponential, Maxwell and Laplace densities have between 39/40 and one, never all, of their mass
    on their support; whatever the integral is called, it is that number. *)
Theorem C127_support_partial :
  forall c t, In (c, t) [(DenExponential, 4); (DenMaxwell, 8); (DenLaplace, 6)] ->
    support_mass c (1 - exp (- t)) /\ forall v, support_mass c v -> v = 1 - exp (- t) /\ 39 / 40 < v < 1.
Proof.
  assert (K : forall c t, 4 <= t -> support_mass c (1 - exp (- t)) ->
    support_mass c (1 - exp (- t)) /\ forall v, support_mass c v -> v = 1 - exp (- t) /\ 39 / 40 < v < 1).
  { intros c t T H. split; [exact H|]. intros v V. pose proof (mass_unique _ _ _ V H) as ->. pose proof (exp_bound t T). split; [reflexivity|lra]. }
  intros c t [E|[E|[E|[]]]]; injection E as <- <-; apply K; try lra; [exact exponential_mass|exact maxwell_mass|exact laplace_mass].
Qed.
Print Assumptions C127_support_partial.
Example C127_support_example : In (DenMaxwell, 8) [(DenExponential, 4); (DenMaxwell, 8); (DenLaplace, 6)] /\ declares DenMaxwell 0 4 /\
  exists v, reports DenMaxwell 1 v.
Proof. split; [right; left; reflexivity|]. split; [declared|]. eexists. exact (DensityProofs.maxwell_batch [1]). Qed.

(** C127. The uniform density has all of its mass on the support it declares. *)
Theorem C127_uniform_support :
  exists d u l h v, build_fixed DenUniform = Some d /\ map snd (d_support d) = [l; h] /\ benchden_uniform = Ok u /\
    uniform_integral u l h = Ok v /\ (v == 1)%Q.
Proof.
  eexists _, _, _, _, _. split; [reflexivity|]. split; [reflexivity|]. split; [reflexivity|]. split; [vm_compute; reflexivity|reflexivity].
Qed.
Print Assumptions C127_uniform_support.
