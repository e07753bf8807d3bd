(** The width of the band: the square root of the sample standard deviation. *)
From Coq Require Import List Arith Lia QArith Reals Qreals Lra.
Import ListNotations.
From Verif Require Import Prelude.QBase Model.Plots Spec.PlotSpec.
Open Scope R_scope.

Lemma deviations_sum a l : Qsum (map (fun v => (v - a) * (v - a))%Q l) = deviations a l.
Proof. induction l as [|v l IH]; [reflexivity|]. simpl. rewrite IH. reflexivity. Qed.
Lemma deviations_pos a l : 0 <= Q2R (deviations a l).
Proof.
  induction l as [|v l IH]; simpl; [unfold Q2R; simpl; lra|]. rewrite Q2R_plus, Q2R_mult. nra.
Qed.
Lemma band_value (w : list Q) : length w = 10%nat ->
  let s := sqrt (sqrt (Q2R (variance w))) in 0 <= s /\ 9 * (s * s * (s * s)) = Q2R (deviations (mean w) w).
Proof.
  intros L s. split; [apply sqrt_pos|]. unfold s.
  assert (V : Q2R (variance w) = Q2R (deviations (mean w) w) / 9).
  { unfold variance. rewrite deviations_sum, L. unfold Qdiv. rewrite Q2R_mult, Q2R_inv.
    - unfold Rdiv. f_equal. f_equal. unfold Q2R, Qnat. simpl. lra.
    - intros E. vm_compute in E. discriminate E. }
  rewrite sqrt_sqrt by apply sqrt_pos. rewrite sqrt_sqrt.
  - rewrite V. field.
  - rewrite V. pose proof (deviations_pos (mean w) w). lra.
Qed.
Lemma band_zero (w : list Q) : length w = 10%nat -> (deviations (mean w) w == 0)%Q -> sqrt (sqrt (Q2R (variance w))) = 0.
Proof.
  intros L Z. destruct (band_value w L) as (P & E). apply Qeq_eqR in Z. rewrite Z in E. replace (Q2R 0) with 0 in E by (unfold Q2R; simpl; lra).
  set (s := sqrt (sqrt (Q2R (variance w)))) in *. assert (X : (s * s) * (s * s) = 0) by lra.
  apply Rmult_integral in X. destruct X as [X|X]; apply Rmult_integral in X; destruct X; assumption.
Qed.
