(** Concrete Metropolis-Hastings runs. *)
From Coq Require Import List Bool Arith Lia QArith Lqa.
Import ListNotations.
From Verif Require Import Prelude.Py Prelude.QBase Prelude.QFacts Model.Base Model.MetropolisHastings
  Spec.Box Spec.MHSpec Proofs.MHProofs Proofs.MHBook Proofs.MHLabels.
Open Scope Q_scope.

Definition wP : mh_params := mkMH [0; 0] [1; 2] 1 1 2 (fun _ => Fin 0).
(** log density growing with the first coordinate *)
Definition wlp (x : vec) : fl Q := match x with a :: _ => Fin (4 * a) | [] => NInf end.
(** an accepted move up, a refused move down followed by an accepted one *)
Definition up : attempt := mkAttempt [1#2; 5] (Fin (-1)) 0.
Definition down : attempt := mkAttempt [-(1); 1#3] (Fin (-(1#8))) 0.
Definition jump : attempt := mkAttempt [7#2; 5] (Fin (-1)) 0.
Definition wsteps1 : list step_ev := [mkStep 0 [jump]; mkStep 0 [down; up]].
Definition wsteps2 : list step_ev := [mkStep 1 [down; down; up]].
Definition wop : mh_op := OpIS wlp 60 2 [mkIs wsteps1 1; mkIs wsteps2 2] (fun i => i).
(** the first state is outside the space: the constructor does not clip it *)
Definition wx0 : vec := [-(3); 7].
Definition ws1 : mh := Eval vm_compute in out_state (mh_run wP wop (mh_new wx0)).

Lemma ws1_run : mh_run wP wop (mh_new wx0) = Done ws1.
Proof. vm_compute. reflexivity. Qed.

Lemma ws1_reach : mh_reachable wP wx0 [wop] ws1.
Proof. eapply mh_reach_op; [constructor|]. left. exact ws1_run. Qed.

Lemma wop_ok : op_ok wP wop.
Proof. repeat constructor. Qed.

Lemma wbox : is_box (mh_lo wP) (mh_hi wP).
Proof. simpl. repeat split; lra. Qed.

Lemma confined_example :
  is_box (mh_lo wP) (mh_hi wP) /\ length wx0 = length (mh_lo wP) /\
  Forall (op_ok wP) [wop; wop] /\ mh_reachable wP wx0 [wop] ws1 /\
  length (mh_traj ws1) = 6%nat /\ length (samples (mh_core ws1)) = 2%nat.
Proof.
  split; [exact wbox|]. split; [reflexivity|]. split; [repeat constructor|].
  split; [exact ws1_reach|]. split; vm_compute; reflexivity.
Qed.

Lemma labels_example :
  mh_steps wP <> O /\ Forall op_timely [wop] /\ mh_reachable wP wx0 [wop] ws1 /\
  mh_types ws1 = [BURN_IN; REJECT; SAMPLE; REJECT; REJECT; SAMPLE].
Proof.
  split; [discriminate|]. split.
  - repeat constructor.
  - split; [exact ws1_reach|]. vm_compute. reflexivity.
Qed.

(** sample(2) with four steps returns four rows *)
Definition tape4 : list step_ev := [mkStep 0 [up]; mkStep 0 [up]; mkStep 0 [up]; mkStep 0 [up]].
Lemma sample_n_refuted :
  exists P lp timeout n tape s s' rows t',
    0 < timeout /\ mh_sample P lp timeout n tape s = (Done s', rows, t') /\ length rows <> n.
Proof.
  exists wP, wlp, 60, 2%nat, (mkStep 0 [up] :: tape4), (mh_new [0; 0]).
  do 3 eexists. split; [lra|]. split; [vm_compute; reflexivity|]. vm_compute. discriminate.
Qed.

(** the time limit expires during a refused attempt: the refused point becomes the state *)
Definition late_down : attempt := mkAttempt [-(1); 1#3] (Fin (-(1#8))) 61.
Lemma timed_out_move_refuted :
  exists P lp timeout tape x s x' s',
    0 < timeout /\ mcmc_step P lp timeout tape x s = SDone x' s' /\
    (forall a, In a tape -> mh_accept P lp x x' a = false) /\ x' <> x.
Proof.
  exists wP, wlp, 60, [late_down], [1#2; 1], (mh_new [1#2; 1]).
  do 2 eexists. split; [lra|]. split; [vm_compute; reflexivity|]. split.
  - intros a [<-|[]]. vm_compute. reflexivity.
  - vm_compute. discriminate.
Qed.

Lemma step_example :
  0 < 60 /\ (forall a, In a [down; up] -> at_clock a < 60) /\
  exists x' s', mcmc_step wP wlp 60 [down; up] [1#2; 1] (mh_new [1#2; 1]) = SDone x' s' /\ x' = [clip1 (Qplus (1#2) (1#2)) 0 1; clip1 (Qplus 1 5) 0 2].
Proof.
  split; [lra|]. split.
  - intros a [<-|[<-|[]]]; simpl; lra.
  - do 2 eexists. split; vm_compute; reflexivity.
Qed.

Lemma rule_example :
  at_logu up = Fin (-1) /\ wlp [1#2; 1] = Fin (4 * (1#2)) /\ wlp [1; 2] = Fin (4 * 1) /\
  mh_lq wP (vsub [1; 2] [1#2; 1]) = Fin 0 /\ mh_rule (-1) (4 * (1#2)) (4 * 1) 0 0.
Proof. repeat split; try reflexivity. Qed.

Lemma is_example :
  mh_importance_sample wP wlp 2 60 [mkIs wsteps1 1; mkIs wsteps2 2] (fun i => i) (mh_new wx0) = Done ws1 /\
  0 < 60 /\ (forall e, In e [mkIs wsteps1 1; mkIs wsteps2 2] -> ie_clock e < 60).
Proof.
  split; [vm_compute; reflexivity|]. split; [lra|]. intros e [<-|[<-|[]]]; simpl; lra.
Qed.

(** reset keeps the chain position: the same later call returns different samples *)
Lemma reset_refuted :
  exists P x0 ops s1 lp timeout n tape pick r1 r2,
    mh_reachable P x0 ops s1 /\
    mh_importance_sample P lp n timeout tape pick (mh_reset s1) = Done r1 /\
    mh_importance_sample P lp n timeout tape pick (mh_new x0) = Done r2 /\
    samples (mh_core r1) <> samples (mh_core r2).
Proof.
  exists wP, [0; 0], [OpIS wlp 60 1 [mkIs [mkStep 0 [up]; mkStep 0 [up]] 1] (fun i => i)],
    (out_state (mh_run wP (OpIS wlp 60 1 [mkIs [mkStep 0 [up]; mkStep 0 [up]] 1] (fun i => i)) (mh_new [0; 0]))),
    wlp, 60, 1%nat, [mkIs [mkStep 0 [mkAttempt [1#8; 1#8] (Fin (-1)) 0]; mkStep 0 [mkAttempt [1#8; 1#8] (Fin (-1)) 0]] 1], (fun i => i).
  do 2 eexists. split.
  { eapply mh_reach_op; [constructor|]. left. vm_compute. reflexivity. }
  split; [vm_compute; reflexivity|]. split; [vm_compute; reflexivity|].
  vm_compute. discriminate.
Qed.
