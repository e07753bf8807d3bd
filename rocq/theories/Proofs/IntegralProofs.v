(** Integrals of the benchmark densities and of the smoothing kernels. *)
From Coq Require Import Reals Lra Lia.
From Coquelicot Require Import Coquelicot.
From Verif Require Import Prelude.Py Prelude.RBase Model.Kernel Spec.IntegralSpec.
Open Scope R_scope.

Lemma is_RInt_zero (f : R -> R) a b : a <= b -> (forall x, a < x < b -> f x = 0) -> is_RInt f a b 0.
Proof.
  intros L H. apply is_RInt_ext with (f := fun _ => 0).
  - intros x. rewrite Rmin_left, Rmax_right by lra. intros. symmetry. now apply H.
  - pose proof (is_RInt_const a b (0 : R)) as C. unfold scal in C; simpl in C; unfold mult in C; simpl in C.
    now rewrite Rmult_0_r in C.
Qed.

(** fundamental theorem on the open interval *)
Lemma is_RInt_prim (f g F : R -> R) a b : a <= b -> (forall x, a < x < b -> f x = g x) ->
  (forall x, a <= x <= b -> is_derive F x (g x)) -> (forall x, a <= x <= b -> continuous g x) ->
  is_RInt f a b (F b - F a).
Proof.
  intros L H D C. apply is_RInt_ext with (f := g).
  - intros x. rewrite Rmin_left, Rmax_right by lra. intros. symmetry. now apply H.
  - apply (is_RInt_derive F g); rewrite Rmin_left, Rmax_right by lra; auto.
Qed.

Lemma cont_derive (g : R -> R) x : ex_derive g x -> continuous g x.
Proof. intros H. exact (@ex_derive_continuous R_AbsRing R_NormedModule g x H). Qed.

Lemma RInt_chain (f : R -> R) a b c u v : is_RInt f a b u -> is_RInt f b c v -> is_RInt f a c (u + v).
Proof. intros H K. exact (@is_RInt_Chasles R_NormedModule f a b c u v H K). Qed.

(** compact support *)
Lemma compact_integrates f l r v : l < 0 < r -> (forall x, x < l -> f x = 0) -> (forall x, r < x -> f x = 0) ->
  is_RInt f l r v -> integrates_to f v.
Proof.
  intros LR A B I eps E. exists (Rmax (- l) r). split.
  - apply Rlt_le_trans with r; [lra|apply Rmax_r].
  - intros a b HA HB. pose proof (Rmax_l (- l) r). pose proof (Rmax_r (- l) r). exists v. split.
    2:{ rewrite Rminus_eq_0, Rabs_R0. exact E. }
    replace v with (0 + v + 0) by ring. apply RInt_chain with r; [apply RInt_chain with l|]; auto.
    + apply is_RInt_zero; [lra|]. intros. apply A. lra.
    + apply is_RInt_zero; [lra|]. intros. apply B. lra.
Qed.

(** two halves with antiderivatives that vanish at infinity *)
Lemma halves_integrate f GL GR l :
  (forall a, a < 0 -> is_RInt f a 0 (l / 2 - GL a)) -> (forall b, 0 < b -> is_RInt f 0 b (l / 2 - GR b)) ->
  (forall eps, 0 < eps -> exists B, 0 < B /\ (forall a, a <= - B -> Rabs (GL a) < eps) /\ (forall b, B <= b -> Rabs (GR b) < eps)) ->
  integrates_to f l.
Proof.
  intros HL HR V eps E. destruct (V (eps / 2)) as (B & PB & VL & VR); [lra|]. exists B. split; [exact PB|].
  intros a b HA HB. exists (l / 2 - GL a + (l / 2 - GR b)). split.
  - apply RInt_chain with 0; [apply HL|apply HR]; lra.
  - specialize (VL a HA). specialize (VR b HB). replace (l / 2 - GL a + (l / 2 - GR b) - l) with (- (GL a + GR b)) by lra.
    rewrite Rabs_Ropp. apply Rle_lt_trans with (1 := Rabs_triang _ _). lra.
Qed.

Lemma exp_small t : 0 < t -> exp (- t) < / (1 + t).
Proof.
  intros H. rewrite exp_Ropp. apply Rinv_lt_contravar.
  - apply Rmult_lt_0_compat; [lra|apply exp_pos].
  - apply exp_ineq1. lra.
Qed.

Lemma inv_small e t : 0 < e -> / e <= t -> / (1 + t) < e.
Proof.
  intros E T. pose proof (Rinv_0_lt_compat e E). rewrite <- (Rinv_involutive e) by lra.
  apply Rinv_lt_contravar; [|lra]. apply Rmult_lt_0_compat; lra.
Qed.

Lemma maxwell_integrates : integrates_to maxwell_density 1.
Proof.
  intros eps E. pose proof (Rinv_0_lt_compat eps E) as IE. exists (2 + / eps). split; [lra|].
  intros a b HA HB. exists (0 + (1 - exp (- (b * b / 2)))). split.
  - apply RInt_chain with 0.
    + apply is_RInt_zero; [lra|]. intros x Hx. unfold maxwell_density. destruct (Rlt_dec 0 x); lra.
    + replace (1 - exp (- (b * b / 2))) with (- exp (- (b * b / 2)) - - exp (- (0 * 0 / 2))).
      2:{ replace (- (0 * 0 / 2)) with 0 by lra. rewrite exp_0. lra. }
      apply (is_RInt_prim _ (fun x => x * exp (- (x * x / 2))) (fun x => - exp (- (x * x / 2)))); [lra| | |].
      * intros x Hx. unfold maxwell_density. destruct (Rlt_dec 0 x); lra.
      * intros x _. auto_derive; [trivial|]. set (q := exp _). field.
      * intros x _. apply cont_derive. auto_derive. trivial.
  - replace (0 + (1 - exp (- (b * b / 2))) - 1) with (- exp (- (b * b / 2))) by lra.
    rewrite Rabs_Ropp, Rabs_right by (left; apply exp_pos).
    assert (T : / eps <= b * b / 2) by nra.
    apply Rlt_trans with (/ (1 + b * b / 2)); [apply exp_small; lra|]. now apply inv_small.
Qed.

Lemma laplace_integrates : integrates_to laplace_density 1.
Proof.
  apply halves_integrate with (GL := fun a => exp a / 2) (GR := fun b => exp (- b) / 2).
  - intros a HA. replace (1 / 2 - exp a / 2) with (exp 0 / 2 - exp a / 2) by (rewrite exp_0; lra).
    apply (is_RInt_prim _ (fun x => exp x / 2) (fun x => exp x / 2)); [lra| | |].
    + intros x Hx. unfold laplace_density. rewrite Rabs_left by lra. now rewrite Ropp_involutive.
    + intros x _. auto_derive; [trivial|]. field.
    + intros x _. apply cont_derive. auto_derive. trivial.
  - intros b HB. replace (1 / 2 - exp (- b) / 2) with (- exp (- b) / 2 - (- exp (- 0) / 2)) by (rewrite Ropp_0, exp_0; lra).
    apply (is_RInt_prim _ (fun x => exp (- x) / 2) (fun x => - exp (- x) / 2)); [lra| | |].
    + intros x Hx. unfold laplace_density. now rewrite Rabs_right by lra.
    + intros x _. auto_derive; [trivial|]. field.
    + intros x _. apply cont_derive. auto_derive. trivial.
  - intros eps E. pose proof (Rinv_0_lt_compat eps E) as IE. exists (/ eps). split; [exact IE|].
    assert (K : forall b, / eps <= b -> Rabs (exp (- b) / 2) < eps).
    { intros b HB. pose proof (exp_pos (- b)). rewrite Rabs_right by lra.
      apply Rlt_trans with (/ (1 + b)); [|now apply inv_small]. pose proof (exp_small b). lra. }
    split; [|exact K]. intros a HA. replace a with (- - a) by ring. apply K. lra.
Qed.

Lemma pareto_integrates : integrates_to pareto_density 1.
Proof.
  apply halves_integrate with (GL := fun a => / (2 * sqrt (1 - a))) (GR := fun b => / (2 * sqrt (1 + b))).
  - intros a HA. replace (1 / 2 - / (2 * sqrt (1 - a))) with (/ (2 * sqrt (1 - 0)) - / (2 * sqrt (1 - a))).
    2:{ replace (1 - 0) with 1 by ring. rewrite sqrt_1. lra. }
    apply (is_RInt_prim _ (fun x => / (4 * ((1 - x) * sqrt (1 - x)))) (fun x => / (2 * sqrt (1 - x)))); [lra| | |].
    + intros x Hx. unfold pareto_density. rewrite Rabs_left by lra. now replace (1 + - x) with (1 - x) by ring.
    + intros x Hx. assert (P : 0 < sqrt (1 - x)) by (apply sqrt_lt_R0; lra).
      auto_derive. { replace (1 + - x) with (1 - x) by ring. split; [lra|]. split; [lra|trivial]. }
      replace (1 + - x) with (1 - x) by ring. assert (Q : 1 - x = sqrt (1 - x) * sqrt (1 - x)) by (symmetry; apply sqrt_sqrt; lra).
      set (r := sqrt (1 - x)) in *. rewrite Q. field. lra.
    + intros x Hx. assert (P : 0 < sqrt (1 - x)) by (apply sqrt_lt_R0; lra).
      apply cont_derive. auto_derive. replace (1 + - x) with (1 - x) by ring. split; [lra|]. split; [|trivial].
      assert (0 < (1 - x) * sqrt (1 - x)) by (apply Rmult_lt_0_compat; lra). lra.
  - intros b HB. replace (1 / 2 - / (2 * sqrt (1 + b))) with (- / (2 * sqrt (1 + b)) - (- / (2 * sqrt (1 + 0)))).
    2:{ replace (1 + 0) with 1 by ring. rewrite sqrt_1. lra. }
    apply (is_RInt_prim _ (fun x => / (4 * ((1 + x) * sqrt (1 + x)))) (fun x => - / (2 * sqrt (1 + x)))); [lra| | |].
    + intros x Hx. unfold pareto_density. now rewrite Rabs_right by lra.
    + intros x Hx. assert (P : 0 < sqrt (1 + x)) by (apply sqrt_lt_R0; lra).
      auto_derive. { split; [lra|]. split; [lra|trivial]. }
      assert (Q : 1 + x = sqrt (1 + x) * sqrt (1 + x)) by (symmetry; apply sqrt_sqrt; lra).
      set (r := sqrt (1 + x)) in *. rewrite Q. field. lra.
    + intros x Hx. assert (P : 0 < sqrt (1 + x)) by (apply sqrt_lt_R0; lra).
      apply cont_derive. auto_derive. split; [lra|]. split; [|trivial].
      assert (0 < (1 + x) * sqrt (1 + x)) by (apply Rmult_lt_0_compat; lra). lra.
  - intros eps E. pose proof (Rinv_0_lt_compat eps E) as IE. exists (1 + / eps * / eps). split; [nra|].
    assert (K : forall b, 1 + / eps * / eps <= b -> Rabs (/ (2 * sqrt (1 + b))) < eps).
    { intros b HB. assert (S1 : / eps < sqrt (1 + b)).
      { rewrite <- (sqrt_square (/ eps)) by lra. apply sqrt_lt_1; nra. }
      rewrite Rabs_right by (left; apply Rinv_0_lt_compat; lra).
      rewrite <- (Rinv_involutive eps) by lra. apply Rinv_lt_contravar; [|lra]. apply Rmult_lt_0_compat; lra. }
    split; [|exact K]. intros a HA. unfold Rminus. apply K. lra.
Qed.

(** shifting and scaling *)
Lemma affine_integrates k l loc bw : 0 < bw -> integrates_to k l -> integrates_to (fun x => k ((x - loc) * bw) * bw) l.
Proof.
  intros P I eps E. destruct (I eps E) as (B & PB & H). exists (B / bw + Rabs loc). split.
  - assert (0 < B / bw) by (apply Rdiv_lt_0_compat; auto). pose proof (Rabs_pos loc). lra.
  - intros a b HA HB. pose proof (Rle_abs loc). pose proof (Rle_abs (- loc)) as N. rewrite Rabs_Ropp in N.
    assert (S1 : B / bw * bw = B) by (field; lra).
    destruct (H (bw * a + - (loc * bw)) (bw * b + - (loc * bw))) as (v & V & AV).
    + set (q := B / bw) in *. clearbody q. assert (G : (a - loc) * bw <= - q * bw) by (apply Rmult_le_compat_r; lra). lra.
    + set (q := B / bw) in *. clearbody q. assert (G : q * bw <= (b - loc) * bw) by (apply Rmult_le_compat_r; lra). lra.
    + exists v. split; [|exact AV]. apply is_RInt_comp_lin in V. apply is_RInt_ext with (2 := V).
      intros x _. unfold scal; simpl; unfold mult; simpl. rewrite Rmult_comm. f_equal. f_equal. ring.
Qed.

Lemma outside_false u : -1 <= u <= 1 -> outside1 u = false.
Proof. intros H. unfold outside1, Rltb. destruct (Rlt_dec u (-1)), (Rlt_dec 1 u); simpl; auto; lra. Qed.
Lemma outside_true u : u < -1 \/ 1 < u -> outside1 u = true.
Proof. intros H. unfold outside1, Rltb. destruct (Rlt_dec u (-1)), (Rlt_dec 1 u); simpl; auto; lra. Qed.
Lemma outside_opp u : outside1 (- u) = outside1 u.
Proof.
  destruct (Rlt_dec u (-1)); [rewrite !outside_true; auto; lra|]. destruct (Rlt_dec 1 u); [rewrite !outside_true; auto; lra|].
  rewrite !outside_false; auto; lra.
Qed.

Lemma uniform_kernel_integrates : integrates_to kernel_uniform 1.
Proof.
  apply compact_integrates with (l := -1) (r := 1); [lra| | |].
  - intros. unfold kernel_uniform. rewrite outside_true; auto.
  - intros. unfold kernel_uniform. rewrite outside_true; auto.
  - replace 1 with (1 / 2 - -1 / 2) at 2 by lra.
    apply (is_RInt_prim _ (fun _ => 1 / 2) (fun x => x / 2)); [lra| | |].
    + intros. unfold kernel_uniform. rewrite outside_false; auto; lra.
    + intros. auto_derive; [trivial|]. lra.
    + intros. apply cont_derive. auto_derive. trivial.
Qed.

Lemma triangular_kernel_integrates : integrates_to kernel_triangular 1.
Proof.
  apply compact_integrates with (l := -1) (r := 1); [lra| | |].
  - intros. unfold kernel_triangular. rewrite outside_true; auto.
  - intros. unfold kernel_triangular. rewrite outside_true; auto.
  - replace 1 with (1 / 2 + 1 / 2) at 2 by lra. apply RInt_chain with 0.
    + replace (1 / 2) with (0 + 0 * 0 / 2 - (-1 + -1 * -1 / 2)) by lra.
      apply (is_RInt_prim _ (fun x => 1 + x) (fun x => x + x * x / 2)); [lra| | |].
      * intros. unfold kernel_triangular. rewrite outside_false by lra. rewrite Rabs_left by lra. lra.
      * intros. auto_derive; [trivial|]. field.
      * intros. apply cont_derive. auto_derive. trivial.
    + replace (1 / 2) with (1 - 1 * 1 / 2 - (0 - 0 * 0 / 2)) by lra.
      apply (is_RInt_prim _ (fun x => 1 - x) (fun x => x - x * x / 2)); [lra| | |].
      * intros. unfold kernel_triangular. rewrite outside_false by lra. rewrite Rabs_right by lra. lra.
      * intros. auto_derive; [trivial|]. field.
      * intros. apply cont_derive. auto_derive. trivial.
Qed.

Lemma epanechnikov_kernel_integrates : integrates_to kernel_epanechnikov 1.
Proof.
  apply compact_integrates with (l := -1) (r := 1); [lra| | |].
  - intros. unfold kernel_epanechnikov. rewrite outside_true; auto.
  - intros. unfold kernel_epanechnikov. rewrite outside_true; auto.
  - replace 1 with (3 / 4 * (1 - 1 * 1 * 1 / 3) - 3 / 4 * (-1 - -1 * -1 * -1 / 3)) at 2 by lra.
    apply (is_RInt_prim _ (fun x => 3 / 4 * (1 - x * x)) (fun x => 3 / 4 * (x - x * x * x / 3))); [lra| | |].
    + intros. unfold kernel_epanechnikov. rewrite outside_false; auto; lra.
    + intros. auto_derive; [trivial|]. field.
    + intros. apply cont_derive. auto_derive. trivial.
Qed.

Lemma kernel_affine k loc bw : 0 < bw -> kernel_at k 0 1 -> kernel_at (kernel_call k loc bw) loc (/ bw).
Proof.
  intros P (N & S & Z & I). unfold kernel_call. split; [|split; [|split]].
  - intros x. apply Rmult_le_pos; [apply N|lra].
  - intros x. f_equal. specialize (S (x * bw)). rewrite Rplus_0_l in S.
    replace ((loc + x - loc) * bw) with (x * bw) by ring. rewrite S. f_equal. ring.
  - intros x H. rewrite Z; [ring|]. rewrite Rminus_0_r, Rabs_mult, (Rabs_right bw) by lra.
    apply Rmult_lt_compat_r with (r := bw) in H; auto. rewrite Rinv_l in H; lra.
  - now apply affine_integrates.
Qed.
