(** A turn that makes the single proposal worse, for any component density. *)
From Coq Require Import List Bool Arith Lia QArith Lqa.
Import ListNotations.
From Verif Require Import Prelude.Py Prelude.QBase Prelude.QFacts Model.Base Model.Mixture Model.Population Model.MPMC
  Spec.MPMCSpec Proofs.MPMCProofs Proofs.MPMCHistory Proofs.MPMCWitness.
Open Scope Q_scope.

Section Worse.
Variable comp : vec -> mat -> vec -> Q.
Hypothesis Cp : forall m c x, 0 < comp m c x.
(** One dimension, [-1, 1], one proposal of variance 1 centred at 0, two samples per turn: -1 and 1. *)
Definition one_normal : mp_params := mkMpP [-1] [1] 1 2 1 comp.
Definition at_zero : list vec := [[1 # 2]].
Definition both_sides : mp_round := vround [[-1]; [1]].
Let s := mp_new one_normal at_zero.
Lemma one_normal_ok : mp_params_ok one_normal.
Proof. split; [simpl; lia|]. split; [simpl; lia|]. intros m c x. apply Cp. Qed.
Lemma one_mix x : 0 < mp_mix one_normal s x.
Proof.
  unfold mp_mix, s, mp_new, one_normal, at_zero. cbn [mp_N mp_props mp_mixw map repeat map2 Qsum fold_right mp_comp fst snd].
  match goal with |- 0 < _ * ?c + 0 => assert (0 < c) by apply Cp; set (y := c) in * end.
  assert (E : 1 / Qnat 1 * y + 0 == y) by (unfold Qnat; simpl; field). rewrite E. auto.
Qed.
Lemma worse_turn : exists s' c m, mp_iter one_normal (mp_mix one_normal s) both_sides s = Done s' /\ mp_dead s' = false /\
  mp_samples s' = [[-1]; [1]] /\ mp_props s' = [([m], [[c]])] /\ m == 0 /\ c == 2 /\
  forall x, mp_raw one_normal (mp_mix one_normal s) s x == 1.
Proof.
  assert (Raw : forall x, mp_raw one_normal (mp_mix one_normal s) s x == 1).
  { intros x. unfold mp_raw. pose proof (one_mix x). field. lra. }
  assert (Rho : forall x, mp_rho one_normal s 0 x == 1).
  { intros x. pose proof (one_mix x) as M. unfold mp_rho. cbv zeta.
    assert (E : nth 0 (mp_alpha s) 0 * mp_comp one_normal (fst (nth 0 (mp_props s) ([], []))) (snd (nth 0 (mp_props s) ([], []))) x == mp_mix one_normal s x).
    { unfold mp_mix, s, mp_new, one_normal, at_zero. cbn [mp_N mp_alpha mp_props mp_mixw map repeat map2 Qsum fold_right mp_comp fst snd nth]. ring. }
    rewrite E. field. lra. }
  assert (Smp : mixture_sample (mp_mixw s) 2 (mr_us both_sides) (mr_draw both_sides) = Ok [[-1]; [1]]) by (vm_compute; reflexivity).
  unfold mp_iter. change (mp_K one_normal) with 2%nat. change (mp_N one_normal) with 1%nat. rewrite Smp.
  set (raw := map (mp_raw one_normal (mp_mix one_normal s) s) [[-1]; [1]]).
  assert (Sr : Qsum raw == 2) by (unfold raw; cbn [map Qsum fold_right]; rewrite !Raw; reflexivity).
  assert (Qeq_bool (Qsum raw) 0 = false) as -> by (apply not_true_iff_false; rewrite Qeq_bool_iff, Sr; discriminate).
  set (ws := map (fun w => w / Qsum raw) raw). set (rd := map (mp_rho one_normal s 0) [[-1]; [1]]).
  assert (Ews : exists w0 w1, ws = [w0; w1] /\ w0 == 1 # 2 /\ w1 == 1 # 2).
  { exists (mp_raw one_normal (mp_mix one_normal s) s [-1] / Qsum raw), (mp_raw one_normal (mp_mix one_normal s) s [1] / Qsum raw).
    split; [reflexivity|]. split.
    - rewrite Sr, (Raw [-1]). reflexivity.
    - rewrite Sr, (Raw [1]). reflexivity. }
  assert (Erd : exists r0 r1, rd = [r0; r1] /\ r0 == 1 /\ r1 == 1).
  { unfold rd. cbn [map]. eexists. eexists. split; [reflexivity|]. split; rewrite Rho; reflexivity. }
  destruct Ews as (w0 & w1 & Ews & W0 & W1). destruct Erd as (r0 & r1 & Erd & R0 & R1).
  cbn [seq mp_adapt]. fold rd. rewrite Ews, Erd.
  change (mp_dims one_normal) with 1%nat. change (mp_K one_normal) with 2%nat.
  set (a := Qsum (map2 Qmult [w0; w1] [r0; r1])).
  assert (A : a == 1) by (unfold a; cbn [map2 Qsum fold_right]; rewrite W0, W1, R0, R1; reflexivity).
  assert (Emu : exists m, mp_mu 1 [[-1]; [1]] [w0; w1] [r0; r1] a = [m] /\ m == 0).
  { unfold mp_mu. cbn [seq map map2 Qsum fold_right nth]. eexists. split; [reflexivity|]. rewrite W0, W1, R0, R1, A. reflexivity. }
  destruct Emu as (m & Emu & M0). rewrite Emu.
  assert (Ecov : exists c, mp_cov 2 [w0; w1] [r0; r1] a (mp_scatter 1 [[-1]; [1]] [m]) = [[c]] /\ c == 2).
  { unfold mp_cov, mp_scatter. cbn [seq map Qsum fold_right nth]. eexists. split; [reflexivity|]. rewrite W0, W1, R0, R1, A, M0. reflexivity. }
  destruct Ecov as (c & Ecov & C2). rewrite Ecov.
  assert (mp_failsafe 1 [[c]] = [[c]]) as ->.
  { unfold mp_failsafe. cbn [existsb]. assert (Qltb 10 c = false) as -> by (apply not_true_iff_false; rewrite Qltb_true; lra). reflexivity. }
  assert (Qltb 0 (detn 1 [[c]]) = true) as ->.
  { apply Qltb_true. cbn [detn seq map Qsum fold_right Nat.even nth]. lra. }
  eexists. exists c, m. split; [reflexivity|]. split; [reflexivity|]. split; [reflexivity|]. split; [reflexivity|]. auto.
Qed.
End Worse.
