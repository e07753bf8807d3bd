(** Lemmas about the exponential and the benchmark densities. *)
From Coq Require Import List Bool Arith Lia Reals Lra.
Import ListNotations.
From Verif Require Import Prelude.Py Prelude.QBase Prelude.RBase Model.Shape Model.Exponential Model.BenchDen
  Spec.IntegralSpec.
Open Scope R_scope.

Lemma Rltb_true a b : a < b -> Rltb a b = true.
Proof. unfold Rltb. destruct (Rlt_dec a b); tauto. Qed.
Lemma Rltb_false a b : ~ a < b -> Rltb a b = false.
Proof. unfold Rltb. destruct (Rlt_dec a b); tauto. Qed.

Lemma scatter_map {A : Type} (p : A -> bool) (f : A -> R) rows :
  scatter (map p rows) (map f (filter p rows)) = map (fun r => if p r then f r else 0) rows.
Proof.
  induction rows as [|r rows IH]; [reflexivity|]. simpl. destruct (p r); simpl; now rewrite IH.
Qed.

Lemma exp_log_batch mean rows : rows <> [] ->
  exp_log_prob mean (Arr2 (length mean) rows) = Ok (map (fun r => if positive_row r then exp_row mean r else 0) rows).
Proof.
  intros H. destruct rows; [congruence|]. unfold exp_log_prob, check_shape. now rewrite Nat.eqb_refl.
Qed.

Lemma filter_true {A : Type} (p : A -> bool) l : forall x, In x (filter p l) -> p x = true.
Proof. intros x H. now apply filter_In in H. Qed.

Lemma exp_prob_batch mean rows : existsb positive_row rows = true ->
  exp_prob mean (Arr2 (length mean) rows) = Ok (map (fun r => if positive_row r then exp (exp_row mean r) else 0) rows).
Proof.
  intros H. unfold exp_prob. rewrite exp_log_batch.
  2:{ apply existsb_exists in H. destruct H as (r & I & P). intros E.
      assert (G : In r (filter positive_row rows)) by now apply filter_In. rewrite E in G. destruct G. }
  cbn [bind]. rewrite map_map. f_equal.
  rewrite <- (scatter_map positive_row (fun r => exp (exp_row mean r))). f_equal.
  apply map_ext_in. intros r I. now rewrite (filter_true _ _ _ I).
Qed.

Lemma positive_single x : positive_row [x] = Rltb 0 x.
Proof. simpl. apply andb_true_r. Qed.

Lemma exp_row_single m x : 0 < m -> exp_row [m] [x] = - (x / m) * (1 - ln m).
Proof.
  intros H. unfold exp_row, exp_log_scale, exp_scale. cbn [map2 Rsum].
  assert (I : 0 < 1 / m) by (apply Rdiv_lt_0_compat; lra).
  rewrite ln_mult by (try apply exp_pos; auto). rewrite ln_exp. unfold Rdiv at 2. rewrite Rmult_1_l, ln_Rinv by auto. field. lra.
Qed.

Lemma singles_filter (p : list R -> bool) xs :
  filter p (map (fun x => [x]) xs) = map (fun x => [x]) (filter (fun x => p [x]) xs).
Proof. induction xs as [|x xs IH]; [reflexivity|]. simpl. destruct (p [x]); simpl; now rewrite IH. Qed.

Lemma reshape_singles xs : reshape1 (Arr2 1 (map (fun x => [x]) xs)) = Ok xs.
Proof. destruct xs as [|x xs]; [reflexivity|]. simpl. f_equal. f_equal. rewrite map_map. apply map_id. Qed.

Lemma maxwell_batch xs : maxwell_prob (Arr2 1 (map (fun x => [x]) xs)) = Ok (map maxwell_density xs).
Proof.
  unfold maxwell_prob. rewrite singles_filter. unfold maxwell_log_prob. rewrite reshape_singles. cbn [bind].
  f_equal. rewrite !map_map. rewrite (map_ext_in _ (fun a => exp (ln a - a * a / 2))).
  - change (map (fun x => positive_row [x]) xs) with (map (fun x => (fun x => positive_row [x]) x) xs).
    rewrite scatter_map. apply map_ext. intros x. rewrite positive_single. unfold Rltb, maxwell_density.
    destruct (Rlt_dec 0 x); [|reflexivity]. unfold Rminus. rewrite exp_plus, exp_ln by auto. reflexivity.
  - intros x I. apply filter_true in I. rewrite positive_single in I. now rewrite I.
Qed.

Lemma pareto_power t : 0 < t -> Rpower t (3 / 2) = t * sqrt t.
Proof.
  intros H. replace (3 / 2) with (1 + / 2) by lra. rewrite Rpower_plus, Rpower_1, Rpower_sqrt; auto.
Qed.

Lemma pareto_rows l :
  concat (map (map (fun a => 1 / (4 * Rpower (1 + Rabs a) (3 / 2)))) (map (fun x => [x]) l)) = map pareto_density l.
Proof.
  induction l as [|x l IH]; [reflexivity|]. simpl. f_equal; [|exact IH].
  unfold pareto_density. pose proof (Rabs_pos x). rewrite pareto_power by lra. unfold Rdiv. now rewrite Rmult_1_l.
Qed.

Lemma pareto_batch x xs : pareto_prob (Arr2 1 (map (fun x => [x]) (x :: xs))) = Ok (map pareto_density (x :: xs)).
Proof. rewrite <- pareto_rows. reflexivity. Qed.

Lemma pareto_pos x : 0 < pareto_density x.
Proof.
  unfold pareto_density. pose proof (Rabs_pos x). apply Rinv_0_lt_compat. apply Rmult_lt_0_compat; [lra|].
  apply Rmult_lt_0_compat; [lra|]. apply sqrt_lt_R0. lra.
Qed.

Lemma unit_mean_row (x : list R) : exp_row (map (fun _ => 1) x) x = - Rsum x.
Proof.
  unfold exp_row. induction x as [|a x IH]; [simpl; ring|]. cbn [map map2 Rsum].
  rewrite IH. unfold exp_log_scale, exp_scale. replace (1 / 1) with 1 by lra. rewrite Rmult_1_l, ln_exp. ring.
Qed.
