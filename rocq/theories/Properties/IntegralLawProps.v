(** Property C92: the Monte-Carlo integral of the base class is an unbiased and consistent estimate. *)
From Coq Require Import List Bool Arith Lia QArith Qabs Lqa Reals Qreals.
Import ListNotations.
From Verif Require Import Prelude.Py Prelude.QBase Prelude.QFacts Model.DistBase Spec.Box Spec.UniformSpec Spec.UnbiasedSpec Spec.DrawSpec Spec.IntegralSpec
  Proofs.PopulationUnbiased Proofs.IndepLaw Properties.IntegralProps Proofs.IntegralLaw Proofs.LeftSum.

Open Scope Q_scope.

(** The generator has G equally likely unit numbers 0, 1/G, ... (2^53 in numpy), so that the n points are drawn from the finite
    set [pts] they reach in the box and the n heights from the unit numbers. The mean of the result is then volume times the
    average density over these points, up to the resolution of the heights. *)
Theorem C92_unbiased :
  forall prob a b G pts n M, is_box a b -> (0 < G)%nat -> (0 < n)%nat -> pts <> [] -> (forall x, In x pts -> 0 <= prob x <= M) ->
  let estimate xs us := match mc_integral prob a b xs (fun i => nth i us 0) with Ok r => r | Raise _ => 0 end in
  let mean f := expect_each (repeat (equally pts) n) (fun xs => expect_each (repeat (equally (unit_grid G)) n) (f xs)) in
  let truth := volume a b * average pts prob in
  truth <= mean estimate /\ mean estimate <= truth + volume a b * M / Qnat G.
Proof. intros prob a b G pts n M B Gp Np Pn Pb. apply (estimate_mean prob a b G B Gp pts n M Np Pn Pb). Qed.
Print Assumptions C92_unbiased.

(** The mean square error falls like one over the number of samples, whatever the density. *)
Theorem C92_mean_square :
  forall prob a b G pts n M, is_box a b -> (0 < G)%nat -> (0 < n)%nat -> pts <> [] -> (forall x, In x pts -> 0 <= prob x <= M) ->
  let estimate xs us := match mc_integral prob a b xs (fun i => nth i us 0) with Ok r => r | Raise _ => 0 end in
  let mean f := expect_each (repeat (equally pts) n) (fun xs => expect_each (repeat (equally (unit_grid G)) n) (f xs)) in
  let truth := volume a b * average pts prob in
  mean (fun xs us => sq (estimate xs us - truth)) <= sq (volume a b * M) * (3 / (4 * Qnat n) + 2 / sq (Qnat G)).
Proof.
  intros prob a b G pts n M B Gp Np Pn Pb estimate mean truth.
  assert (E : sq (volume a b * M) * (3 / (4 * Qnat n) + 2 / sq (Qnat G)) == volume a b * volume a b * (M * M) * (3 / (4 * Qnat n) + 2 / (Qnat G * Qnat G))).
  { unfold sq. ring. }
  rewrite E. apply (estimate_square prob a b G B Gp pts n M Np Pn Pb).
Qed.
Print Assumptions C92_mean_square.

(** Hence the chance of an error of eps or more is bounded, and tends to the resolution of the generator as n grows. *)
Theorem C92_error_chance :
  forall prob a b G pts n M eps, is_box a b -> (0 < G)%nat -> (0 < n)%nat -> pts <> [] -> (forall x, In x pts -> 0 <= prob x <= M) -> 0 < eps ->
  let estimate xs us := match mc_integral prob a b xs (fun i => nth i us 0) with Ok r => r | Raise _ => 0 end in
  let mean f := expect_each (repeat (equally pts) n) (fun xs => expect_each (repeat (equally (unit_grid G)) n) (f xs)) in
  let truth := volume a b * average pts prob in
  mean (fun xs us => if Qle_bool eps (Qabs (estimate xs us - truth)) then 1 else 0) <=
  sq (volume a b * M / eps) * (3 / (4 * Qnat n) + 2 / sq (Qnat G)).
Proof.
  intros prob a b G pts n M eps B Gp Np Pn Pb Ep estimate mean truth.
  pose proof (C92_mean_square prob a b G pts n M B Gp Np Pn Pb) as Ms. cbv zeta in Ms. fold truth in Ms.
  assert (Po : forall l, In l (repeat (equally pts) n) -> law_ok l) by (intros l I; apply repeat_spec in I; subst; apply equally_ok, Pn).
  assert (Uo : forall l, In l (repeat (equally (unit_grid G)) n) -> law_ok l) by (intros l I; apply repeat_spec in I; subst; apply equally_ok, unit_grid_ne, Gp).
  assert (Es : 0 < sq eps) by (unfold sq; nra).
  assert (Ch : mean (fun xs us => if Qle_bool eps (Qabs (estimate xs us - truth)) then 1 else 0) <= mean (fun xs us => / sq eps * sq (estimate xs us - truth))).
  { apply expect_le; auto. intros xs _. apply expect_le; auto. intros us _. set (e := estimate xs us - truth).
    assert (0 <= / sq eps) by (apply Qlt_le_weak, Qinv_lt_0_compat, Es). pose proof (sq_nonneg e).
    destruct (Qle_bool eps (Qabs e)) eqn:L; [|apply Qmult_le_0_compat; auto].
    apply Qle_bool_iff in L. apply Qmult_le_l with (z := sq eps); auto.
    assert (E1 : sq eps * (/ sq eps * sq e) == sq e) by (field; lra). rewrite E1, Qmult_1_r.
    assert (E2 : sq e == Qabs e * Qabs e).
    { unfold sq. rewrite <- Qabs_Qmult. rewrite Qabs_pos; [reflexivity|unfold sq in *; auto]. }
    rewrite E2. unfold sq. nra. }
  apply Qle_trans with (1 := Ch).
  assert (E3 : mean (fun xs us => / sq eps * sq (estimate xs us - truth)) == / sq eps * mean (fun xs us => sq (estimate xs us - truth))).
  { unfold mean. rewrite <- expect_scal. apply expect_ext. intros xs _. apply expect_scal. }
  rewrite E3.
  assert (E4 : sq (volume a b * M / eps) * (3 / (4 * Qnat n) + 2 / sq (Qnat G)) == / sq eps * (sq (volume a b * M) * (3 / (4 * Qnat n) + 2 / sq (Qnat G)))).
  { unfold sq. assert (0 < Qnat n) by (apply Qnat_pos; auto). assert (0 < Qnat G) by (apply Qnat_pos; auto). field. repeat split; lra. }
  rewrite E4. assert (Iv : 0 <= / sq eps) by (apply Qlt_le_weak, Qinv_lt_0_compat, Es).
  rewrite !(Qmult_comm (/ sq eps)). apply Qmult_le_compat_r; [exact Ms|exact Iv].
Qed.
Print Assumptions C92_error_chance.

(** What is estimated is the integral: in one dimension, for a density with slope at most L, up to the resolution of the points. *)
Theorem C92_true_integral :
  forall prob F L a b G, a <= b -> (0 < G)%nat -> lipschitz L F -> (forall x, Q2R (prob [x]) = F (Q2R x)) ->
  let truth := volume [a] [b] * average (box_grid G [a] [b]) prob in
  (Rabs (segment_integral F (Q2R a) (Q2R b) - Q2R truth) <= L * (Q2R b - Q2R a) * (Q2R b - Q2R a) / INR G)%R.
Proof. intros prob F L a b G B Gp H E. apply segment_near; auto. Qed.
Print Assumptions C92_true_integral.

(** The density x / 2 on [0, 2], four unit numbers, two samples: the mean is within 1/2 above 3/4, where the integral is 1. *)
Example C92_example :
  let prob x := nth 0 x 0 / 2 in let pts := box_grid 4 [0] [2] in
  is_box [0] [2] /\ pts <> [] /\ (forall x, In x pts -> 0 <= prob x <= 1) /\
  volume [0] [2] * average pts prob == 3 # 4 /\
  (lipschitz (1 / 2) (fun x => x / 2) /\ forall x, Q2R (prob [x]) = Q2R x / 2)%R.
Proof.
  cbv zeta. split; [simpl; split; [lra|auto]|]. split; [discriminate|]. split.
  - intros x I. cbn in I. repeat (destruct I as [<-|I]; [split; vm_compute; discriminate|]). destruct I.
  - split; [vm_compute; reflexivity|]. split.
    + intros x y. replace (x / 2 - y / 2)%R with ((1 / 2) * (x - y))%R by field. rewrite Rabs_mult, (Rabs_right (1 / 2)) by Lra.lra. Lra.lra.
    + intros x. cbn [nth]. rewrite Q2R_div by discriminate. replace (Q2R 2) with 2%R by (unfold Q2R; simpl; Lra.lra). reflexivity.
Qed.
