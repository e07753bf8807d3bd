(** Batches of uniform densities and their logarithms. *)
From Coq Require Import List Bool Arith Lia QArith Reals Qreals Lra.
Import ListNotations.
From Verif Require Import Prelude.Py Prelude.QBase Prelude.QFacts Prelude.RBase Model.Shape Model.Misc Model.Uniform
  Spec.Box Spec.UniformSpec Spec.DensitySpec Proofs.UniformProofs.
Open Scope Q_scope.

Lemma Q2R_pos p : 0 < p -> (0 < Q2R p)%R.
Proof. intros H. apply Qlt_Rlt in H. now rewrite RMicromega.Q2R_0 in H. Qed.

Lemma uniform_batch d rows : unif_inv d -> rows <> [] -> Forall (fun r => length r = u_dims d) rows ->
  exists ps ls, uniform_prob d (Arr2 (u_dims d) rows) = Ok ps /\ uniform_log_prob d (Arr2 (u_dims d) rows) = Ok ls /\
    Forall2 (fun x p =>
      (half_open (u_lo d) (u_hi d) x -> exists v, p = Fin v /\ 0 < v /\ v * volume (u_lo d) (u_hi d) == 1) /\
      (~ half_open (u_lo d) (u_hi d) x -> p = Fin 0)) rows ps /\
    Forall2 (fun p l => exists v, p = Fin v /\ log_of l (Q2R v)) ps ls.
Proof.
  intros I N F. destruct (prob_val_spec d I) as (v & Ev & Pv & Vv).
  destruct rows as [|r0 rows]; [congruence|]. unfold uniform_prob, uniform_log_prob, check_shape.
  rewrite Nat.eqb_refl. cbn [bind]. do 2 eexists. split; [reflexivity|]. split; [reflexivity|].
  destruct I as (L & C & _). pose proof (corners_length _ _ C) as LC. split.
  - induction F as [|r rs Hr F IH]; [constructor|]. cbn [map]. constructor.
    2:{ destruct rs; [constructor|]. apply IH. discriminate. }
    pose proof (inlier_half_open (u_lo d) (u_hi d) r LC ltac:(congruence)) as E.
    destruct (inlier (u_lo d) (u_hi d) r).
    + split; [|intros H; exfalso; apply H; now apply E]. intros _. eauto.
    + split; [|auto]. intros H. apply E in H. discriminate.
  - rewrite Ev. clear - Pv. apply Q2R_pos in Pv. induction (r0 :: rows) as [|r rs IH]; cbn [map]; constructor; auto.
    destruct (inlier (u_lo d) (u_hi d) r).
    + exists v. split; auto. left. split; auto. cbn [flR fln]. unfold Rltb. destruct (Rlt_dec 0 (Q2R v)); tauto.
    + exists 0. split; auto. right. split; auto. apply RMicromega.Q2R_0.
Qed.
