(** Concrete runs of the rejection sampler. *)
From Coq Require Import List Bool Arith Lia QArith Lqa.
Import ListNotations.
From Verif Require Import Prelude.Py Prelude.QBase Prelude.QFacts Model.Base Model.Rejection Spec.RejectionSpec.
Open Scope Q_scope.

Definition exP : rej_params := mkRej (fun _ => 1) 2 3.
Definition ex_target (x : vec) : Q := match x with a :: _ => a | [] => 0 end.
Definition ex_r1 : rej_round :=
  mkRound (fun i => match i with O => [3#2] | _ => [1#8] end) (fun _ => 1#2) 1.
Definition ex_r2 : rej_round := mkRound (fun _ => [7#4]) (fun _ => 1#4) 2.
Definition ex_late : rej_round := mkRound (fun _ => [1#8]) (fun _ => 1#2) 61.
Definition ex_c1 : core :=
  Eval vm_compute in out_state (rej_importance_sample exP ex_target 2 60 0 [ex_r1; ex_r2] (fun i => i) core_init).
Definition ex_c2 : core :=
  Eval vm_compute in out_state (rej_importance_sample exP ex_target 3 60 0 [ex_r1; ex_r2] (fun i => i) ex_c1).

Lemma exP_env x : 0 <= rj_q exP x * rj_scaling exP.
Proof. simpl. lra. Qed.

Lemma ex_c1_run : rej_importance_sample exP ex_target 2 60 0 [ex_r1; ex_r2] (fun i => i) core_init = Done ex_c1.
Proof. vm_compute. reflexivity. Qed.

Lemma ex_c1_reach : rej_reachable exP ex_c1.
Proof.
  eapply (rej_reach_call exP core_init (mkRejCall ex_target 2 60 0 [ex_r1; ex_r2] (fun i => i))).
  - constructor.
  - left. exact ex_c1_run.
Qed.

Lemma ex_request :
  (forall x, 0 <= rj_q exP x * rj_scaling exP) /\
  rej_reachable exP ex_c1 /\ length (samples ex_c1) = 2%nat /\
  rej_importance_sample exP ex_target 3 60 0 [ex_r1; ex_r2] (fun i => i) ex_c1 = Done ex_c2 /\
  length (samples ex_c2) = 3%nat.
Proof.
  split; [exact exP_env|]. split; [exact ex_c1_reach|]. repeat split; vm_compute; reflexivity.
Qed.

Lemma ex_terminates : exists r, In r [ex_r1; ex_late] /\ 60 <= rr_clock r.
Proof. exists ex_late. split; [simpl; auto|simpl; lra]. Qed.

Lemma ex_rule :
  rej_importance_sample exP ex_target 2 60 0 [ex_r1; ex_r2] (fun i => i) core_init = Done ex_c1 /\
  rr_draw ex_r1 1%nat = [1#8] /\ ~ In [1#8] (samples ex_c1) /\ In (rr_draw ex_r1 0%nat) (samples ex_c1).
Proof.
  split; [exact ex_c1_run|]. split; [reflexivity|]. split.
  - vm_compute. intuition congruence.
  - vm_compute. auto.
Qed.

Lemma ex_counters :
  exists P c, (forall x, 0 <= rj_q P x * rj_scaling P) /\ rej_reachable P c /\
    num_pi_evals c <> length (ghost_drawn c) /\ num_q_samples c <> length (ghost_drawn c).
Proof.
  exists exP, ex_c1. split; [exact exP_env|]. split; [exact ex_c1_reach|].
  split; vm_compute; congruence.
Qed.

Lemma ex_acceptance : rej_reachable exP ex_c1 /\ exists a, get_acceptance_rate ex_c1 = Ok a /\ a == 1#2.
Proof. split; [exact ex_c1_reach|]. eexists. split; vm_compute; reflexivity. Qed.

Lemma ex_fails :
  exists P target n timeout e0 tape pick,
    (forall x, 0 <= rj_q P x * rj_scaling P) /\ (0 < rj_kde P)%nat /\ (0 < n)%nat /\ 0 < timeout /\
    (exists x, 0 < target x) /\
    exists c', rej_importance_sample P target n timeout e0 tape pick core_init = Failed ValueError c'.
Proof.
  exists exP, ex_target, 1%nat, 60, 0, [mkRound (fun _ => [1#8]) (fun _ => 1#2) 61], (fun i => i).
  split; [exact exP_env|]. split; [simpl; lia|]. split; [lia|]. split; [lra|]. split.
  - exists [1]. simpl. lra.
  - eexists. vm_compute. reflexivity.
Qed.

Lemma ex_returns :
  samples ex_c1 <> [] /\
  (exists r i, head [ex_r1; ex_r2] = Some r /\ 0 < 60 /\ (i < 2 - length (samples core_init))%nat /\
     keeps ex_target (fun x => rj_q exP x * rj_scaling exP) (rr_draw r i) (rr_u r i)).
Proof.
  split; [vm_compute; congruence|]. exists ex_r1, 0%nat. repeat split; vm_compute; auto.
Qed.
