(** Concrete runs of nested and multi-nested sampling. *)
From Coq Require Import List Bool Arith Lia QArith Lqa.
Import ListNotations.
From Verif Require Import Prelude.Py Prelude.QBase Model.Base Model.Nested Spec.Box
  Proofs.NestedProofs Proofs.NestedHistory Proofs.MultiNestedProofs.
Open Scope Q_scope.

(** One dimension, unit interval, two live points; the target is x on [0, 1] and 0 elsewhere. *)
Definition nP : ns_params := mkNsP [0] [1] 1 2 0.
Definition nus : list vec := [[1 # 4]; [3 # 4]].
Definition npi (x : vec) : Q := match x with [a] => if Qle_bool 0 a && Qle_bool a 1 then a else 0 | _ => 0 end.
(** As above but not cut off at 1. *)
Definition npi_open (x : vec) : Q := match x with [a] => if Qle_bool 0 a then a else 0 | _ => 0 end.
Definition rep1 : repl := mkRepl 1 [-(1 # 8)] [].
Definition rep2 : repl := mkRepl 1 [-(1 # 2)] [([2], 1); ([1 # 8], 2)].
Definition rep3 : repl := mkRepl 1 [-(3 # 4)] [([1], 1)].
Definition ncall : ns_op := NsCall npi 2 60 [rep1; rep2] (fun i => i).
Definition ns1 : nst := Eval vm_compute in out_state (nested_run nP ncall (ns_new nP nus)).

Lemma n_start : start_ok nP nus.
Proof.
  split; [reflexivity|]. split; [simpl; lia|]. repeat constructor; simpl; lra.
Qed.
Lemma n_ok : ns_op_ok nP ncall.
Proof. repeat constructor. Qed.
Lemma n_timely : ns_timely ncall.
Proof. split; [reflexivity|]. repeat constructor. Qed.
Lemma n_run : nested_run nP ncall (ns_new nP nus) = Done ns1.
Proof. vm_compute. reflexivity. Qed.
Lemma n_reach : nested_reachable nP nus [ncall] ns1.
Proof. apply nested_next with (ns_new nP nus); [constructor|left; exact n_run]. Qed.
Lemma n_inside : inside_only nP npi.
Proof.
  split.
  - intros [|a [|b x]]; simpl; try lra. destruct (Qle_bool 0 a && Qle_bool a 1) eqn:E; [|lra].
    apply andb_true_iff in E. destruct E as (E & _). now apply Qle_bool_iff in E.
  - intros [|a [|b x]]; simpl; try lra. destruct (Qle_bool 0 a && Qle_bool a 1) eqn:E; [|lra].
    apply andb_true_iff in E. destruct E as (E1 & E2). apply Qle_bool_iff in E1, E2. auto.
Qed.

Definition ncall_open : ns_op := NsCall npi_open 1 60 [rep3] (fun i => i).
Definition ns2 : nst := Eval vm_compute in out_state (nested_run nP ncall_open (ns_new nP nus)).
Lemma n2_run : nested_run nP ncall_open (ns_new nP nus) = Done ns2.
Proof. vm_compute. reflexivity. Qed.

(** Four live points in two clusters of two. *)
Definition mP : ns_params := mkNsP [0] [1] 1 4 0.
Definition mus : list vec := [[1 # 10]; [2 # 10]; [8 # 10]; [9 # 10]].
Definition moc : oracle := mkOracle
  (fun k => match k with 2%nat => [0; 0; 1; 1]%nat | 3%nat => [0; 1; 2; 2]%nat | _ => [0; 0; 0; 0]%nat end)
  (fun m => if (count_true m =? 4)%nat then 1 else 1 # 10)
  (fun _ _ => 7 # 10).
Definition mrep : repl := mkRepl 0 [19 # 20] [].
Definition mcall : mn_op := MnCall moc npi 5 60 [mrep; mrep; mrep; mrep] (fun i => i).
Definition ms1 : nst := Eval vm_compute in out_state (multi_run mP mcall (ns_new mP mus)).
Lemma m_ready : mn_ready mP.
Proof. split; simpl; lia. Qed.
Lemma m_start : start_ok mP mus.
Proof.
  split; [reflexivity|]. split; [simpl; lia|]. repeat constructor; simpl; lra.
Qed.
Lemma m_labels : labels_ok 4 moc.
Proof.
  intros k Hk. destruct k as [|[|[|[|k]]]]; try lia; (split; [reflexivity|]); cbn [o_labels moc]; apply Forall_forall; intros l Hl; simpl in Hl; intuition lia.
Qed.
Lemma m_ok : mn_op_ok mP mcall.
Proof. split; [exact m_labels|]. repeat constructor. Qed.
Lemma m_run : multi_run mP mcall (ns_new mP mus) = Done ms1.
Proof. vm_compute. reflexivity. Qed.
Lemma m_reach : multi_reachable mP mus [mcall] ms1.
Proof. apply multi_next with (ns_new mP mus); [constructor|left; exact m_run]. Qed.
