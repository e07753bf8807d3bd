(** C09, C10, C12 and parts of C13: exponential density, benchmark densities and smoothing kernels. *)
From Coq Require Import List Bool Arith Lia Reals Lra.
Import ListNotations.
From Verif Require Import Prelude.Py Prelude.QBase Prelude.RBase Model.Shape Model.Exponential Model.BenchDen
  Model.Kernel Spec.DensitySpec Spec.IntegralSpec Proofs.DensityProofs Proofs.IntegralProofs.
Open Scope R_scope.

(** The full claim: for every mean m > 0 the density at x > 0 is exp(-x/m)/m. It holds for mean one, in
    every dimension, for every batch with at least one positive row. *)
Theorem C09_unit_mean_partial : forall d rows,
  Forall (fun r => length r = d) rows -> (exists r, In r rows /\ Forall (fun a => 0 < a) r) ->
  let mean := repeat 1 d in
  exp_prob mean (Arr2 d rows) =
    Ok (map (fun r => if forallb (fun a => Rltb 0 a) r then exp (- Rsum r) else 0) rows) /\
  exists ls, exp_log_prob mean (Arr2 d rows) = Ok ls /\
    Forall2 (fun r l => Forall (fun a => 0 < a) r -> l = - Rsum r) rows ls.
Proof.
  intros d rows F (r0 & I0 & P0) mean.
  assert (L : length mean = d) by apply repeat_length.
  assert (MR : forall r, In r rows -> mean = map (fun _ => 1) r).
  { intros r I. rewrite Forall_forall in F. specialize (F r I). unfold mean. rewrite <- F. clear.
    induction r; simpl; congruence. }
  assert (PT : forall r, Forall (fun a => 0 < a) r -> positive_row r = true).
  { intros r H. apply forallb_forall. rewrite Forall_forall in H. intros a I. apply Rltb_true. auto. }
  split.
  - pose proof (exp_prob_batch mean rows) as EP. rewrite L in EP. rewrite EP.
    + f_equal. apply map_ext_in. intros r I. unfold positive_row. rewrite (MR r I). now rewrite unit_mean_row.
    + apply existsb_exists. exists r0. auto.
  - pose proof (exp_log_batch mean rows) as EP. rewrite L in EP. rewrite EP by (intros E; rewrite E in I0; destruct I0). clear EP. eexists. split; [reflexivity|].
    clear F I0 P0. induction rows as [|r rows IH]; [constructor|]. simpl. constructor.
    + intros H. rewrite (PT r H), (MR r) by now left. apply unit_mean_row.
    + apply IH. intros. apply MR. now right.
Qed.

Example C09_example : Forall (fun r => length r = 2%nat) [[1; 2]; [-1; 3]] /\
  (exists r, In r [[1; 2]; [-1; 3]] /\ Forall (fun a => 0 < a) r).
Proof. split; [repeat constructor|]. exists [1; 2]. split; [now left|]. repeat constructor; lra. Qed.

(** Mean one is the only one for which the one-dimensional density is right: for every other mean it is
    wrong. *)
Theorem C09_unit_mean_iff_partial : forall m, 0 < m ->
  ((forall x, 0 < x -> exp_prob [m] (Arr2 1 [[x]]) = Ok [exp (- (x / m)) / m]) <-> m = 1).
Proof.
  intros m P.
  assert (V : forall x, 0 < x -> exp_prob [m] (Arr2 1 [[x]]) = Ok [exp (- (x / m) * (1 - ln m))]).
  { intros x H. change 1%nat with (length [m]). rewrite exp_prob_batch.
    - cbn [map]. rewrite positive_single, Rltb_true by auto. now rewrite exp_row_single by auto.
    - cbn [existsb]. rewrite positive_single, Rltb_true by auto. reflexivity. }
  split.
  - intros H. specialize (H m P). rewrite V in H by auto.
    assert (E : exp (- (m / m) * (1 - ln m)) = exp (- (m / m)) / m) by congruence.
    replace (m / m) with 1 in E by (field; lra).
    apply (f_equal ln) in E. unfold Rdiv in E. rewrite ln_exp, ln_mult, ln_exp, ln_Rinv in E; auto.
    2: apply exp_pos. 2: now apply Rinv_0_lt_compat.
    assert (L : ln m = 0) by lra. rewrite <- (exp_ln m), L by auto. apply exp_0.
  - intros -> x H. rewrite V by auto. rewrite ln_1. do 2 f_equal.
    replace (- (x / 1) * (1 - 0)) with (- (x / 1)) by lra. lra.
Qed.

(** With mean e the reported density is one at every positive point. *)
Theorem C09_mean_e_refuted : exists m, 0 < m /\ forall x, 0 < x -> exp_prob [m] (Arr2 1 [[x]]) = Ok [1].
Proof.
  exists (exp 1). split; [apply exp_pos|]. intros x H. change 1%nat with (length [exp 1]). rewrite exp_prob_batch.
  - cbn [map]. rewrite positive_single, Rltb_true by auto. rewrite exp_row_single by apply exp_pos. rewrite ln_exp.
    replace (- (x / exp 1) * (1 - 1)) with 0 by ring. now rewrite exp_0.
  - cbn [existsb]. rewrite positive_single, Rltb_true by auto. reflexivity.
Qed.

(** A point outside the support has density zero but log density zero. *)
Theorem C09_outlier_log_refuted : exists rows,
  exp_prob [1] (Arr2 1 rows) = Ok [exp (- 1); 0] /\ exp_log_prob [1] (Arr2 1 rows) = Ok [- 1; 0].
Proof.
  exists [[1]; [-2]].
  assert (R : exp_row [1] [1] = - 1) by (rewrite exp_row_single, ln_1; lra).
  assert (T : Rltb 0 1 = true) by (apply Rltb_true; lra). assert (F : Rltb 0 (-2) = false) by (apply Rltb_false; lra).
  split.
  - change 1%nat with (length [1]). rewrite (exp_prob_batch [1] [[1]; [-2]]).
    + cbn [map]. rewrite !positive_single, T, F, R. reflexivity.
    + cbn [existsb]. rewrite !positive_single, T. reflexivity.
  - change 1%nat with (length [1]). rewrite (exp_log_batch [1] [[1]; [-2]]) by discriminate. cbn [map]. rewrite !positive_single, T, F, R. reflexivity.
Qed.

(** A batch without any positive row fails. *)
Theorem C09_no_positive_row_refuted : exists x, exp_prob [1] (Arr2 1 [[x]]) = Raise IndexError.
Proof.
  exists (-2). unfold exp_prob. cbn [filter]. rewrite positive_single, Rltb_false by lra. reflexivity.
Qed.

(** The densities are the textbook ones, for every batch. *)
Theorem C10_densities : forall xs,
  let batch := Arr2 1 (map (fun x => [x]) xs) in
  maxwell_prob batch = Ok (map maxwell_density xs) /\
  laplace_prob batch = Ok (map (fun x => [laplace_density x]) xs) /\
  (xs <> [] -> pareto_prob batch = Ok (map pareto_density xs)).
Proof.
  intros xs batch. split; [apply maxwell_batch|]. split.
  - unfold laplace_prob, laplace_log_prob, batch. rewrite reshape_singles. cbn [bind]. rewrite map_map. f_equal.
    apply map_ext. intros x. cbn [map]. f_equal. unfold Rminus. rewrite exp_plus, exp_ln by lra. unfold laplace_density. lra.
  - intros H. destruct xs as [|x xs]; [congruence|]. apply pareto_batch.
Qed.

(** They are non-negative and integrate to one over the real line. *)
Theorem C10_normalised :
  (forall x, 0 <= maxwell_density x) /\ integrates_to maxwell_density 1 /\
  (forall x, 0 < laplace_density x) /\ integrates_to laplace_density 1 /\
  (forall x, 0 < pareto_density x) /\ integrates_to pareto_density 1.
Proof.
  split; [|split; [apply maxwell_integrates|split; [|split; [apply laplace_integrates|split; [apply pareto_pos|apply pareto_integrates]]]]].
  - intros x. unfold maxwell_density. destruct (Rlt_dec 0 x); [|lra]. apply Rmult_le_pos; [lra|left; apply exp_pos].
  - intros x. unfold laplace_density. pose proof (exp_pos (- Rabs x)). lra.
Qed.

(** The log densities: Laplace and Pareto at every point, Maxwell at positive points. *)
Theorem C10_log_density_partial : forall xs,
  let batch := Arr2 1 (map (fun x => [x]) xs) in
  laplace_log_prob batch = Ok (map (fun x => [ln (laplace_density x)]) xs) /\
  (xs <> [] -> pareto_log_prob batch = Ok (map (fun x => Fin (ln (pareto_density x))) xs)) /\
  (Forall (fun x => 0 < x) xs -> maxwell_log_prob batch = Ok (map (fun x => ln (maxwell_density x)) xs)).
Proof.
  intros xs batch. split; [|split].
  - unfold laplace_log_prob, batch. rewrite reshape_singles. cbn [bind]. f_equal. apply map_ext. intros x. f_equal.
    unfold laplace_density. replace (exp (- Rabs x) / 2) with (exp (- Rabs x) * (1 / 2)) by lra.
    rewrite (ln_mult (exp (- Rabs x))) by (try apply exp_pos; lra). rewrite ln_exp. lra.
  - intros H. unfold pareto_log_prob, batch. destruct xs as [|x xs]; [congruence|]. rewrite pareto_batch. cbn [bind].
    rewrite map_map. f_equal. apply map_ext. intros a. unfold fln. rewrite Rltb_true by apply pareto_pos. reflexivity.
  - intros H. unfold maxwell_log_prob, batch. rewrite reshape_singles. cbn [bind]. f_equal. apply map_ext_in. intros x I.
    rewrite Forall_forall in H. specialize (H x I). rewrite Rltb_true by auto. unfold maxwell_density.
    destruct (Rlt_dec 0 x); [|tauto]. rewrite ln_mult by (try apply exp_pos; auto). rewrite ln_exp. lra.
Qed.

Example C10_example : [-1; 2; 0] <> [] /\ Forall (fun x => 0 < x) [1; 2; 1 / 2].
Proof. split; [discriminate|]. repeat constructor; lra. Qed.

(** Maxwell: where the density is zero the log density is reported as zero, not -infinity. *)
Theorem C10_maxwell_log_refuted : exists x, maxwell_prob (Arr2 1 [[x]]) = Ok [0] /\ maxwell_log_prob (Arr2 1 [[x]]) = Ok [0].
Proof.
  exists (-1). split.
  - change [[-1]] with (map (fun x : R => [x]) [-1]). rewrite maxwell_batch. cbn [map]. unfold maxwell_density.
    destruct (Rlt_dec 0 (-1)); [lra|reflexivity].
  - unfold maxwell_log_prob. cbn [reshape1 map nth bind]. now rewrite Rltb_false by lra.
Qed.

(** The three compact kernels. *)
Theorem C12_compact_kernels : kernel_at kernel_uniform 0 1 /\ kernel_at kernel_triangular 0 1 /\ kernel_at kernel_epanechnikov 0 1.
Proof.
  assert (Z : forall x, 1 < Rabs (x - 0) -> outside1 x = true).
  { intros x H. rewrite Rminus_0_r in H. apply outside_true. unfold Rabs in H. destruct (Rcase_abs x); lra. }
  assert (N : forall x, outside1 x = false -> -1 <= x <= 1).
  { intros x. unfold outside1, Rltb. destruct (Rlt_dec x (-1)), (Rlt_dec 1 x); simpl; try discriminate. lra. }
  split; [|split]; (split; [|split; [|split]]).
  - intros x. unfold kernel_uniform. destruct (outside1 x); lra.
  - intros x. unfold kernel_uniform. rewrite Rplus_0_l, Rminus_0_l, outside_opp. reflexivity.
  - intros x H. unfold kernel_uniform. now rewrite Z.
  - apply uniform_kernel_integrates.
  - intros x. unfold kernel_triangular. destruct (outside1 x) eqn:E; [lra|]. apply N in E.
    unfold Rabs. destruct (Rcase_abs x); lra.
  - intros x. unfold kernel_triangular. rewrite Rplus_0_l, Rminus_0_l, outside_opp, Rabs_Ropp. reflexivity.
  - intros x H. unfold kernel_triangular. now rewrite Z.
  - apply triangular_kernel_integrates.
  - intros x. unfold kernel_epanechnikov. destruct (outside1 x) eqn:E; [lra|]. apply N in E. nra.
  - intros x. unfold kernel_epanechnikov. rewrite Rplus_0_l, Rminus_0_l, outside_opp.
    destruct (outside1 x); [reflexivity|]. f_equal. ring.
  - intros x H. unfold kernel_epanechnikov. now rewrite Z.
  - apply epanechnikov_kernel_integrates.
Qed.

(** Any kernel with these properties keeps them at any location and inverse bandwidth, and the log
    density is the logarithm of the density. *)
Theorem C12_location_bandwidth : forall k loc bw, 0 < bw -> kernel_at k 0 1 ->
  kernel_at (kernel_call k loc bw) loc (/ bw) /\ forall x, log_of (kernel_log_prob k loc bw x) (kernel_call k loc bw x).
Proof.
  intros k loc bw P K. pose proof (kernel_affine k loc bw P K) as A. split; [exact A|]. intros x.
  destruct A as (N & _). specialize (N x). unfold kernel_log_prob, log_of, fln, Rltb, Reqb. destruct (Rlt_dec 0 (kernel_call k loc bw x)).
  - now left.
  - right. assert (kernel_call k loc bw x = 0) as E by lra. rewrite E. destruct (Req_EM_T 0 0); [auto|lra].
Qed.

Example C12_example : 0 < 3 / 2 /\ kernel_at kernel_epanechnikov 0 1.
Proof. split; [lra|apply C12_compact_kernels]. Qed.

(** Shapes: the exponential and Maxwell densities refuse a flat vector of the right length, and Laplace
    answers with an n x 1 array instead of n values. *)
Theorem C13_flat_vector_refuted : exists x, (exists l, exp_log_prob [1] (Arr1 [x]) = Ok [l]) /\
  exp_prob [1] (Arr1 [x]) = Raise AxisError /\ maxwell_prob (Arr1 [x]) = Raise AxisError.
Proof.
  exists 1. split; [|split; reflexivity]. eexists. unfold exp_log_prob. cbn [check_shape length Nat.eqb bind map]. reflexivity.
Qed.

Theorem C13_laplace_column_refuted : exists x y, exists p q, laplace_prob (Arr2 1 [[x]; [y]]) = Ok [[p]; [q]].
Proof. exists 1, 2. do 2 eexists. unfold laplace_prob, laplace_log_prob. cbn [reshape1 map nth bind]. reflexivity. Qed.

Print Assumptions C09_unit_mean_partial.
Print Assumptions C09_unit_mean_iff_partial.
Print Assumptions C09_mean_e_refuted.
Print Assumptions C09_outlier_log_refuted.
Print Assumptions C09_no_positive_row_refuted.
Print Assumptions C10_densities.
Print Assumptions C10_normalised.
Print Assumptions C10_log_density_partial.
Print Assumptions C10_maxwell_log_refuted.
Print Assumptions C12_compact_kernels.
Print Assumptions C12_location_bandwidth.
Print Assumptions C13_flat_vector_refuted.
Print Assumptions C13_laplace_column_refuted.
