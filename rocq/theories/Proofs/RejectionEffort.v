(** The counters of rejection sampling over whole histories. *)
From Coq Require Import List Bool Arith Lia QArith Lqa.
Import ListNotations.
From Verif Require Import Prelude.Py Prelude.QBase Prelude.QFacts Model.Base Model.Rejection Spec.RejectionSpec Proofs.RejectionProofs.
Open Scope Q_scope.

(** Rounds of a call on an object holding [held]. *)
Definition call_rounds (P : rej_params) (k : rej_call) (held : list vec) : nat :=
  rounds_taken (rc_target k) (fun x => rj_q P x * rj_scaling P) (rc_n k) (rc_timeout k) (rc_e0 k) held
    (map (fun r => (rr_draw r, rr_u r, rr_clock r)) (rc_tape k)).

(** A state after a history since the last reset in which sample() returned [a] points in total and the calls of
    importance_sample ran rounds worth [b] requested points in total (every round counts its whole request). *)
Inductive rej_worked (P : rej_params) : nat -> nat -> core -> Prop :=
| rw_init : rej_worked P 0 0 core_init
| rw_reset a b c : rej_worked P a b c -> rej_worked P 0 0 (core_reset c)
| rw_sample a b c pick m c' : rej_worked P a b c -> core_sample (rj_kde P) pick m c = Done c' -> rej_worked P (a + m) b c'
| rw_sample_fails a b c pick m e c' : rej_worked P a b c -> core_sample (rj_kde P) pick m c = Failed e c' -> rej_worked P a b c'
| rw_query a b c pick : rej_worked P a b c -> rej_worked P a b (out_state (core_query (rj_kde P) pick c))
| rw_call a b c k c' : rej_worked P a b c ->
    (rej_importance_sample P (rc_target k) (rc_n k) (rc_timeout k) (rc_e0 k) (rc_tape k) (rc_pick k) c = Done c' \/
     exists e, rej_importance_sample P (rc_target k) (rc_n k) (rc_timeout k) (rc_e0 k) (rc_tape k) (rc_pick k) c = Failed e c') ->
    rej_worked P a (b + call_rounds P k (samples c) * rc_n k) c'.

Lemma loop_rounds P t n timeout tape : forall e0 c c', (forall x, 0 <= rj_q P x * rj_scaling P) ->
  rej_loop P t n timeout tape e0 c = Done c' ->
  let k := rounds_taken t (fun x => rj_q P x * rj_scaling P) n timeout e0 (samples c) (map (fun r => (rr_draw r, rr_u r, rr_clock r)) tape) in
  num_q_samples c' = (num_q_samples c + k * n)%nat /\ num_q_evals c' = (num_q_evals c + k * n)%nat /\
  num_pi_evals c' = (num_pi_evals c + k * n)%nat.
Proof.
  induction tape as [|r tape IH]; intros e0 c c' HP H; cbn zeta; simpl in H; simpl.
  - destruct (Qltb e0 timeout && _); inversion H; subst. lia.
  - unfold Qltb in H. destruct (Qle_bool timeout e0) eqn:E; simpl in H; [inversion H; subst; lia|].
    destruct (Nat.ltb_spec (length (samples c)) n) as [L|L].
    + destruct (Nat.leb_spec n (length (samples c))) as [L'|_]; [lia|].
      apply (IH _ _ _ HP) in H. cbn [samples num_q_samples num_q_evals num_pi_evals rej_iter] in H.
      rewrite accepted_kept in H by exact HP. destruct H as (A & B & C). lia.
    + destruct (Nat.leb_spec n (length (samples c))) as [_|L']; [|lia]. inversion H; subst. lia.
Qed.

Lemma rej_worked_counters P : (forall x, 0 <= rj_q P x * rj_scaling P) -> forall a b c, rej_worked P a b c ->
  num_q_samples c = (a + b)%nat /\ num_q_evals c = b /\ num_pi_evals c = b.
Proof.
  intros HP a b c W. induction W as [|a b c W IH|a b c pick m c' W IH H|a b c pick m e c' W IH H|a b c pick W IH|a b c k c' W IH H].
  - auto.
  - auto.
  - unfold core_sample in H. destruct (model c); [|destruct (update_model _ _ _)]; inversion H; subst; simpl; lia.
  - unfold core_sample in H. destruct (model c); [|destruct (update_model _ _ _)]; inversion H; subst; exact IH.
  - unfold core_query. destruct (model c); [|destruct (update_model _ _ _)]; exact IH.
  - unfold rej_importance_sample in H. destruct (rej_loop P _ _ _ _ _ c) as [c1|c1|e c1] eqn:L.
    + apply loop_rounds in L; [|exact HP]. cbn zeta in L. unfold call_rounds.
      assert (F : num_q_samples c' = num_q_samples c1 /\ num_q_evals c' = num_q_evals c1 /\ num_pi_evals c' = num_pi_evals c1).
      { unfold rej_finish in H. destruct (update_model _ _ _); destruct H as [H|[e' H]]; inversion H; subst; simpl; auto. }
      lia.
    + destruct H as [H|[e' H]]; discriminate.
    + exfalso. clear - L. revert L. generalize (rc_e0 k). revert c. induction (rc_tape k) as [|r tp IH]; intros c e0 H; simpl in H;
        destruct (Qltb e0 _ && _); try discriminate. exact (IH _ _ H).
Qed.

Lemma reachable_worked P c : rej_reachable P c -> exists a b, rej_worked P a b c.
Proof.
  induction 1 as [|c _ [a [b W]]|c pick m _ [a [b W]]|c pick _ [a [b W]]|c k c' _ [a [b W]] H].
  - exists 0%nat, 0%nat. constructor.
  - exists 0%nat, 0%nat. econstructor; eauto.
  - destruct (core_sample (rj_kde P) pick m c) as [c'|c'|e c'] eqn:E.
    + do 2 eexists. simpl. eapply rw_sample; eauto.
    + exfalso. unfold core_sample in E. destruct (model c); [|destruct (update_model _ _ _)]; discriminate.
    + do 2 eexists. simpl. eapply rw_sample_fails; eauto.
  - do 2 eexists. apply rw_query. eauto.
  - do 2 eexists. eapply rw_call; eauto.
Qed.
