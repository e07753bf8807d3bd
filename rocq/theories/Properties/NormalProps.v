(** C08: Gaussian densities. *)
From Coq Require Import List Bool Arith Lia Reals Lra.
Import ListNotations.
From Verif Require Import Prelude.Py Prelude.RBase Model.Normal Spec.NormalSpec Spec.IntegralSpec Proofs.NormalProofs Proofs.GaussIntegral.
Open Scope R_scope.

(** After any history of moment updates, refused ones included, the density is the Gaussian one of the
    last accepted moments: it is the exponential of the log density, positive and symmetric about the
    mean. [det] and [inv] are any determinant and inverse routines. *)
Theorem C08_density_after_history : forall det inv d mean cov s0 h m c,
  normal_new det inv d mean cov = Ok s0 ->
  last_accepted (fun mc => 0 < det (snd mc)) h (mean, cov) (m, c) ->
  let s := run_moments det inv s0 h in
  0 < det c /\
  forall x, normal_log_prob s x = gauss_log d m (det c) (inv c) x /\
    normal_prob s x = exp (normal_log_prob s x) /\ 0 < normal_prob s x /\
    normal_prob s (fun i => m i + x i) = normal_prob s (fun i => m i - x i).
Proof.
  intros det inv d mean cov s0 h m c N L s.
  pose proof (run_holds det inv d h s0 mean cov (new_holds _ _ _ _ _ _ N) (m, c) L) as H. cbn [fst snd] in H. fold s in H.
  split; [apply H|]. intros x. split; [apply (holds_log _ _ _ _ _ _ x H)|]. split; [reflexivity|].
  split; [apply exp_pos|]. unfold normal_prob. rewrite !(holds_log _ _ _ _ _ _ _ H). f_equal.
  unfold gauss_log. rewrite <- !quad_dot.
  rewrite (quad_ext d (inv c) (fun i => m i + x i - m i) x) by (intros; ring).
  rewrite (quad_ext d (inv c) (fun i => m i - x i - m i) (fun i => - x i)) by (intros; ring).
  now rewrite quad_opp.
Qed.

(** If the covariance is positive semi-definite and [inv] inverts it, no point has a larger density than
    the mean. *)
Theorem C08_peak_at_mean : forall det inv d mean cov s0 h m c,
  normal_new det inv d mean cov = Ok s0 ->
  last_accepted (fun mc => 0 < det (snd mc)) h (mean, cov) (m, c) ->
  psd d c -> inverse_of d (inv c) c ->
  forall x, normal_prob (run_moments det inv s0 h) x <= normal_prob (run_moments det inv s0 h) m.
Proof.
  intros det inv d mean cov s0 h m c N L P I x.
  pose proof (run_holds det inv d h s0 mean cov (new_holds _ _ _ _ _ _ N) (m, c) L) as H. cbn [fst snd] in H.
  unfold normal_prob. rewrite !(holds_log _ _ _ _ _ _ _ H).
  pose proof (gauss_log_max d m (det c) (inv c) x (inverse_psd d c (inv c) P I)) as [G|G].
  - left. now apply exp_increasing.
  - right. now rewrite G.
Qed.

(** Moving the mean moves the density. *)
Theorem C08_translation : forall det inv d mean cov t s s',
  normal_new det inv d mean cov = Ok s -> normal_new det inv d (fun i => mean i + t i) cov = Ok s' ->
  forall x, normal_prob s' (fun i => x i + t i) = normal_prob s x.
Proof.
  intros det inv d mean cov t s s' N N' x. apply new_holds in N, N'.
  unfold normal_prob. rewrite (holds_log _ _ _ _ _ _ _ N), (holds_log _ _ _ _ _ _ _ N'). f_equal.
  unfold gauss_log. rewrite <- !quad_dot.
  now rewrite (quad_ext d (inv cov) (fun i => x i + t i - (mean i + t i)) (fun i => x i - mean i)) by (intros; ring).
Qed.

(** With independent coordinates the density is the product of the one-dimensional ones. *)
Theorem C08_diagonal : forall det inv d mean cov sg s,
  normal_new det inv d mean cov = Ok s -> (forall i, (i < d)%nat -> 0 < sg i) ->
  det cov = product d sg ->
  (forall i j, (i < d)%nat -> (j < d)%nat -> inv cov i j = if Nat.eq_dec j i then / sg i else 0) ->
  forall x, normal_prob s x = product d (fun i => gauss1 (mean i) (sg i) (x i)).
Proof.
  intros det inv d mean cov sg s N SP D P x. apply new_holds in N. unfold normal_prob.
  rewrite (holds_log _ _ _ _ _ _ x N). now apply diagonal_factor.
Qed.

(** 2 x 2 determinant and inverse, to instantiate the theorems. *)
Definition det2 (c : rmat) : R := c 0%nat 0%nat * c 1%nat 1%nat - c 0%nat 1%nat * c 1%nat 0%nat.
Definition inv2 (c : rmat) : rmat := fun i j =>
  match i, j with
  | O, O => c 1%nat 1%nat / det2 c | O, S O => - c 0%nat 1%nat / det2 c
  | S O, O => - c 1%nat 0%nat / det2 c | _, _ => c 0%nat 0%nat / det2 c
  end.
Definition mat2 (a b c e : R) : rmat := fun i j =>
  match i, j with O, O => a | O, S O => b | S O, O => c | _, _ => e end.

Example C08_example : let cov := mat2 2 1 1 2 in let bad := mat2 1 1 1 1 in
  (exists s, normal_new det2 inv2 2 (fun _ => 0) (mat2 1 0 0 1) = Ok s) /\
  last_accepted (fun mc => 0 < det2 (snd mc)) [((fun _ : nat => 3), cov); ((fun _ => 4), bad)] ((fun _ => 0), mat2 1 0 0 1) ((fun _ => 3), cov) /\
  psd 2 cov /\ inverse_of 2 (inv2 cov) cov.
Proof.
  cbv zeta. split; [|split; [|split]].
  - unfold normal_new, Rltb. destruct (Rlt_dec 0 (det2 (mat2 1 0 0 1))) as [_|N]; [eauto|].
    exfalso. apply N. unfold det2, mat2. lra.
  - left. split; [unfold det2, mat2; simpl; lra|]. right. split; [unfold det2, mat2; simpl; lra|]. reflexivity.
  - intros v. unfold dot, apply, over, mat2. simpl. generalize (v 0%nat) (v 1%nat). intros a b.
    assert (Q : 0 <= a * a + b * b + (a + b) * (a + b)) by nra. lra.
  - intros v i L. unfold apply, over, inv2, det2, mat2. destruct i as [|[|i]]; [simpl; field; lra|simpl; field; lra|lia].
Qed.

Example C08_diagonal_example : let cov := mat2 2 0 0 3 in let sg := fun i => match i with O => 2 | _ => 3 end in
  0 < det2 cov /\ det2 cov = product 2 sg /\
  (forall i j, (i < 2)%nat -> (j < 2)%nat -> inv2 cov i j = if Nat.eq_dec j i then / sg i else 0).
Proof.
  cbv zeta. split; [unfold det2, mat2; lra|]. split; [unfold det2, mat2, product; simpl; lra|].
  intros [|[|i]] [|[|j]] A B; try lia; simpl; unfold det2, mat2; field; lra.
Qed.

(** The constructor checks only the determinant: a negative definite covariance is accepted and the
    density then grows away from the mean. *)
Theorem C08_peak_needs_psd :
  exists cov s x, normal_new det2 inv2 2 (fun _ => 0) cov = Ok s /\ inverse_of 2 (inv2 cov) cov /\
    normal_prob s (fun _ => 0) < normal_prob s x.
Proof.
  exists (mat2 (-1) 0 0 (-1)). unfold normal_new.
  assert (D : det2 (mat2 (-1) 0 0 (-1)) = 1) by (unfold det2, mat2; lra).
  unfold Rltb. destruct (Rlt_dec 0 (det2 (mat2 (-1) 0 0 (-1)))) as [_|N]; [|exfalso; apply N; rewrite D; lra].
  eexists. exists (fun _ => 1). split; [reflexivity|]. split.
  - intros v i L. unfold apply, over, inv2. rewrite D. unfold mat2. destruct i as [|[|i]]; [simpl; field|simpl; field|lia].
  - apply exp_increasing. unfold normal_log_prob. cbn [n_term1 n_term2 n_dims n_inv n_loc].
    unfold quad_form, sum_to, inv2. rewrite D. unfold mat2. lra.
Qed.

Print Assumptions C08_density_after_history.
Print Assumptions C08_peak_at_mean.
Print Assumptions C08_translation.
Print Assumptions C08_diagonal.
Print Assumptions C08_peak_needs_psd.

(** One-dimensional Gaussians, and each factor of a Gaussian with independent coordinates, integrate to
    one over the real line. *)
Theorem C08_normalised_1d : forall det inv mean cov s,
  normal_new det inv 1 mean cov = Ok s -> 0 < cov 0%nat 0%nat ->
  det cov = cov 0%nat 0%nat -> inv cov 0%nat 0%nat = / cov 0%nat 0%nat ->
  integrates_to (fun x => normal_prob s (fun _ => x)) 1.
Proof.
  intros det inv mean cov s N P D I.
  assert (E : forall x, gauss1 (mean 0%nat) (cov 0%nat 0%nat) x = normal_prob s (fun _ => x)).
  { intros x. rewrite (C08_diagonal det inv 1 mean cov (fun _ => cov 0%nat 0%nat) s N).
    - unfold product. simpl. ring.
    - intros. exact P.
    - unfold product. simpl. lra.
    - intros i j A B. assert (i = 0%nat) as -> by lia. assert (j = 0%nat) as -> by lia. exact I. }
  intros eps Pe. destruct (gauss1_integrates (mean 0%nat) (cov 0%nat 0%nat) P eps Pe) as (B & PB & H).
  exists B. split; [exact PB|]. intros a b HA HB. destruct (H a b HA HB) as (v & V & AV). exists v. split; [|exact AV].
  apply Coquelicot.RInt.is_RInt_ext with (2 := V). intros x _. apply E.
Qed.

Example C08_normalised_example : exists s, normal_new (fun c => c 0%nat 0%nat) (fun c _ _ => / c 0%nat 0%nat) 1 (fun _ => 3) (fun _ _ => 2) = Ok s.
Proof. unfold normal_new, Rltb. destruct (Rlt_dec 0 2); [eauto|lra]. Qed.
Print Assumptions C08_normalised_1d.
