(** Concrete cases for the base class properties. *)
From Coq Require Import List Bool Arith Lia ZArith QArith Lqa.
Import ListNotations.
From Verif Require Import Prelude.Py Prelude.QBase Model.Base Model.Rejection Model.MetropolisHastings
  Spec.Box Spec.GridSpec Proofs.BaseProofs Proofs.RejectionWitness Proofs.MHWitness.
Open Scope Q_scope.

Lemma approx_ness_ex :
  Forall (fun w => 0 <= w) [1; 0; 3] /\ 0 < Qsum [1; 0; 3] /\
  exists v, get_approx_NESS [1; 0; 3] 3 = Fin v /\ v == 8 # 15.
Proof.
  split; [repeat constructor; lra|]. split; [simpl; lra|]. eexists. split; vm_compute; reflexivity.
Qed.

Lemma grid_ex :
  is_box [0; -(1)] [1; 1] /\ 0 < (1#2) /\ strictly_below [0; -(1)] [1; 1] /\
  exists rows ds, make_grid [0; -(1)] [1; 1] (1#2) = Ok (rows, ds, [2; 4]%nat) /\
    length rows = 8%nat.
Proof.
  split; [simpl; repeat split; lra|]. split; [lra|]. split; [repeat constructor; lra|].
  do 2 eexists. split; vm_compute; reflexivity.
Qed.

Lemma kde_weights_ok k : (0 < k)%nat -> length (kde_weights k) = k /\ Qsum (kde_weights k) == 1 /\
  (forall a b, In a (kde_weights k) -> In b (kde_weights k) -> a = b).
Proof.
  intros H. destruct (kde_weights_sum k H) as [H1 H2]. split; auto. split; auto.
  intros a b Ha Hb. apply repeat_spec in Ha. apply repeat_spec in Hb. congruence.
Qed.

Lemma kde_ex :
  rej_reachable exP ex_c1 /\ model ex_c1 <> None /\
  mh_reachable wP wx0 [wop] ws1 /\ model (mh_core ws1) <> None.
Proof.
  split; [exact ex_c1_reach|]. split; [vm_compute; discriminate|]. split; [exact ws1_reach|].
  vm_compute; discriminate.
Qed.
