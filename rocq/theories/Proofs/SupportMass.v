(** Mass of the benchmark densities over the supports they declare. *)
From Coq Require Import List Bool Arith QArith Qreals Reals Lra Lia.
From Coquelicot Require Import Coquelicot.
Import ListNotations.
From Verif Require Import Prelude.Py Prelude.QBase Prelude.RBase Model.Shape Model.Exponential Model.BenchDen Model.Uniform Model.Saved.
From Verif Require Import Spec.IntegralSpec Proofs.DensityProofs Proofs.IntegralProofs.
Open Scope R_scope.

(** The one-dimensional class [c] declares the support [lo, hi]. *)
Definition declares (c : cls) (lo hi : R) : Prop :=
  exists d l h, build_fixed c = Some d /\ d_dims d = 1%nat /\ map snd (d_support d) = [[l]; [h]] /\ lo = Q2R l /\ hi = Q2R h.
(** prob of the class [c] reports [v] at [x] (one row). *)
Definition reports (c : cls) (x v : R) : Prop :=
  match c with
  | DenExponential => exp_prob [1] (Arr2 1 [[x]]) = Ok [v]
  | DenMaxwell => maxwell_prob (Arr2 1 [[x]]) = Ok [v]
  | DenLaplace => laplace_prob (Arr2 1 [[x]]) = Ok [[v]]
  | DenPareto => pareto_prob (Arr2 1 [[x]]) = Ok [v]
  | _ => False
  end.
(** The integral over the declared support of the reported density is [v]. *)
Definition support_mass (c : cls) (v : R) : Prop :=
  exists lo hi f, declares c lo hi /\ lo < hi /\ (forall x, lo < x < hi -> reports c x (f x)) /\ is_RInt f lo hi v.

Lemma declares_intro c q1 q2 l h d : build_fixed c = Some d -> d_dims d = 1%nat -> map snd (d_support d) = [[q1]; [q2]] -> Q2R q1 = l -> Q2R q2 = h -> declares c l h.
Proof. intros A B C <- <-. exists d, q1, q2. auto. Qed.
Ltac declared := unfold declares; eexists _, _, _; split; [reflexivity|]; split; [reflexivity|]; split; [reflexivity|]; split; unfold Q2R; simpl; lra.

Lemma exponential_mass : support_mass DenExponential (1 - exp (- 4)).
Proof.
  exists 0, 4, (fun x => exp (- x)). split; [declared|]. split; [lra|]. split.
  - intros x H. unfold reports. change 1%nat with (length [1]). rewrite exp_prob_batch.
    + cbn [map]. rewrite positive_single, Rltb_true by lra. rewrite exp_row_single by lra. rewrite ln_1. do 3 f_equal. field.
    + cbn [existsb]. rewrite positive_single, Rltb_true by lra. reflexivity.
  - replace (1 - exp (- 4)) with (- exp (- 4) - - exp (- 0)) by (rewrite Ropp_0, exp_0; ring).
    apply (is_RInt_prim _ (fun x => exp (- x)) (fun x => - exp (- x))); [lra|auto| |].
    + intros x _. auto_derive; [trivial|]. ring.
    + intros x _. apply cont_derive. auto_derive. trivial.
Qed.
Lemma maxwell_mass : support_mass DenMaxwell (1 - exp (- 8)).
Proof.
  exists 0, 4, maxwell_density. split; [declared|]. split; [lra|]. split.
  - intros x _. exact (maxwell_batch [x]).
  - replace (1 - exp (- 8)) with (- exp (- (4 * 4 / 2)) - - exp (- (0 * 0 / 2))).
    2:{ replace (- (0 * 0 / 2)) with 0 by lra. replace (- (4 * 4 / 2)) with (-8) by lra. rewrite exp_0. lra. }
    apply (is_RInt_prim _ (fun x => x * exp (- (x * x / 2))) (fun x => - exp (- (x * x / 2)))); [lra| | |].
    + intros x Hx. unfold maxwell_density. destruct (Rlt_dec 0 x); lra.
    + intros x _. auto_derive; [trivial|]. set (q := exp _). field.
    + intros x _. apply cont_derive. auto_derive. trivial.
Qed.
Lemma laplace_mass : support_mass DenLaplace (1 - exp (- 6)).
Proof.
  exists (-6), 6, laplace_density. split; [declared|]. split; [lra|]. split.
  - intros x _. unfold reports, laplace_prob, laplace_log_prob. cbn [reshape1 map nth bind]. do 3 f_equal.
    unfold Rminus. rewrite exp_plus, exp_ln by lra. unfold laplace_density. lra.
  - replace (1 - exp (- 6)) with ((exp 0 / 2 - exp (-6) / 2) + (- exp (- 6) / 2 - (- exp (- 0) / 2))) by (rewrite Ropp_0, exp_0; lra).
    apply RInt_chain with 0.
    + apply (is_RInt_prim _ (fun x => exp x / 2) (fun x => exp x / 2)); [lra| | |].
      * intros x Hx. unfold laplace_density. rewrite Rabs_left by lra. now rewrite Ropp_involutive.
      * intros x _. auto_derive; [trivial|]. field.
      * intros x _. apply cont_derive. auto_derive. trivial.
    + apply (is_RInt_prim _ (fun x => exp (- x) / 2) (fun x => - exp (- x) / 2)); [lra| | |].
      * intros x Hx. unfold laplace_density. now rewrite Rabs_right by lra.
      * intros x _. auto_derive; [trivial|]. field.
      * intros x _. apply cont_derive. auto_derive. trivial.
Qed.
Lemma pareto_mass : support_mass DenPareto (1 - / sqrt 21).
Proof.
  assert (S0 : 0 < sqrt 21) by (apply sqrt_lt_R0; lra).
  exists (-20), 20, pareto_density. split; [declared|]. split; [lra|]. split.
  - intros x _. exact (pareto_batch x []).
  - replace (1 - / sqrt 21) with ((/ (2 * sqrt (1 - 0)) - / (2 * sqrt (1 - -20))) + (- / (2 * sqrt (1 + 20)) - (- / (2 * sqrt (1 + 0))))).
    2:{ replace (1 - 0) with 1 by ring. replace (1 + 0) with 1 by ring. replace (1 - -20) with 21 by ring. replace (1 + 20) with 21 by ring. rewrite sqrt_1. field. lra. }
    apply RInt_chain with 0.
    + apply (is_RInt_prim _ (fun x => / (4 * ((1 - x) * sqrt (1 - x)))) (fun x => / (2 * sqrt (1 - x)))); [lra| | |].
      * intros x Hx. unfold pareto_density. rewrite Rabs_left by lra. now replace (1 + - x) with (1 - x) by ring.
      * intros x Hx. assert (P : 0 < sqrt (1 - x)) by (apply sqrt_lt_R0; lra).
        auto_derive. { replace (1 + - x) with (1 - x) by ring. split; [lra|]. split; [lra|trivial]. }
        replace (1 + - x) with (1 - x) by ring. assert (Q : 1 - x = sqrt (1 - x) * sqrt (1 - x)) by (symmetry; apply sqrt_sqrt; lra).
        set (r := sqrt (1 - x)) in *. rewrite Q. field. lra.
      * intros x Hx. assert (P : 0 < sqrt (1 - x)) by (apply sqrt_lt_R0; lra).
        apply cont_derive. auto_derive. replace (1 + - x) with (1 - x) by ring. split; [lra|]. split; [|trivial].
        assert (0 < (1 - x) * sqrt (1 - x)) by (apply Rmult_lt_0_compat; lra). lra.
    + apply (is_RInt_prim _ (fun x => / (4 * ((1 + x) * sqrt (1 + x)))) (fun x => - / (2 * sqrt (1 + x)))); [lra| | |].
      * intros x Hx. unfold pareto_density. now rewrite Rabs_right by lra.
      * intros x Hx. assert (P : 0 < sqrt (1 + x)) by (apply sqrt_lt_R0; lra).
        auto_derive. { split; [lra|]. split; [lra|trivial]. }
        assert (Q : 1 + x = sqrt (1 + x) * sqrt (1 + x)) by (symmetry; apply sqrt_sqrt; lra).
        set (r := sqrt (1 + x)) in *. rewrite Q. field. lra.
      * intros x Hx. assert (P : 0 < sqrt (1 + x)) by (apply sqrt_lt_R0; lra).
        apply cont_derive. auto_derive. split; [lra|]. split; [|trivial].
        assert (0 < (1 + x) * sqrt (1 + x)) by (apply Rmult_lt_0_compat; lra). lra.
Qed.

Lemma exp_double x a : 0 < a -> a < exp x -> a * a < exp (x + x).
Proof. intros A H. rewrite exp_plus. nra. Qed.
Lemma exp4_large : 40 < exp 4.
Proof.
  assert (E : 9 / 8 < exp (1 / 8)) by (pose proof (exp_ineq1 (1 / 8)); lra).
  apply exp_double in E; [|lra]. apply exp_double in E; [|lra]. apply exp_double in E; [|lra].
  apply exp_double in E; [|lra]. apply exp_double in E; [|lra].
  match type of E with _ < exp ?z => replace z with 4 in E by lra end. lra.
Qed.
Lemma exp_bound x : 4 <= x -> 0 < exp (- x) < 1 / 40.
Proof.
  intros H. split; [apply exp_pos|]. rewrite exp_Ropp. pose proof exp4_large as E.
  assert (L : 40 < exp x). { destruct H as [H| <-]; [|exact E]. apply Rlt_trans with (1 := E). now apply exp_increasing. }
  replace (1 / 40) with (/ 40) by lra. apply Rinv_lt_contravar; lra.
Qed.
(** The mass over a support is a number that the class determines. *)
Lemma reports_unique c x v w : reports c x v -> reports c x w -> v = w.
Proof. destruct c; simpl; intros A B; try contradiction; rewrite A in B; congruence. Qed.
Lemma mass_unique c v w : support_mass c v -> support_mass c w -> v = w.
Proof.
  intros (lo & hi & f & (d & l & h & B1 & _ & S1 & -> & ->) & L & F & I) (lo' & hi' & g & (d' & l' & h' & B2 & _ & S2 & -> & ->) & L' & G & J).
  rewrite B1 in B2. injection B2 as <-. rewrite S1 in S2. injection S2 as <- <-.
  assert (J' : is_RInt f (Q2R l) (Q2R h) w).
  { apply is_RInt_ext with (f := g); [|exact J]. intros x. rewrite Rmin_left, Rmax_right by lra. intros H. eapply reports_unique; [apply G|apply F]; exact H. }
  rewrite <- (is_RInt_unique _ _ _ _ I). now apply is_RInt_unique.
Qed.
