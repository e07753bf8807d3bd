(** C63: the non-blocking stream reader. *)
From Coq Require Import List Bool Arith Lia.
Import ListNotations.
From Verif Require Import Model.StreamReader Spec.StreamSpec Proofs.StreamReaderProofs.

(** If the consumer only calls read(), then whatever the interleaving the lines it got, followed by
    those waiting and those still to come, are exactly the stream: nothing lost, reordered or repeated. *)
Theorem C63_reads_in_order : forall (line : Type) (stream : list line) cs r,
  Forall reads_only cs -> reader_run cs (reader_new stream) = Some r ->
  returned (log r) ++ queue r ++ opt_list (held r) ++ src r = stream.
Proof.
  intros line stream cs r F E.
  exact (reads_run line stream cs (reader_new stream) r F eq_refl eq_refl E).
Qed.

Example C63_reads_example : exists r,
  Forall reads_only [ChThread; ChRead; ChThread; ChRead; ChThread] /\
  reader_run [ChThread; ChRead; ChThread; ChRead; ChThread] (reader_new [1; 2; 3]) = Some r /\
  log r = [RRead None; RRead (Some 1)] /\ held r = Some 2.
Proof.
  eexists. split; [|split; [vm_compute; reflexivity|split; vm_compute; reflexivity]].
  repeat (apply Forall_cons; [unfold reads_only; auto|]). apply Forall_nil.
Qed.

(** Mixing read() with read_last_and_clear(keep_last=False), in every interleaving the lines the
    consumer gets come in stream order without repetition, and only already delivered lines are
    discarded: what is waiting and still to come is an end of the stream. *)
Theorem C63_clear_in_order : forall (line : Type) (stream : list line) cs r,
  Forall no_keep cs -> reader_run cs (reader_new stream) = Some r ->
  exists seen, seen ++ queue r ++ opt_list (held r) ++ src r = stream /\ subsequence (returned (log r)) seen.
Proof.
  intros line stream cs r F E.
  destruct (nokeep_run line stream cs (reader_new stream) r F eq_refl (sub_nil [])) as [A B]; auto.
  exists (taken r). split; [exact A|]. exact (pc_inv_sub line _ _ _ B).
Qed.

(** ... and what read_last_and_clear(keep_last=False) returns is the newest delivered line. *)
Theorem C63_clear_newest : forall (line : Type) (stream : list line) cs c r r' v,
  Forall no_keep (cs ++ [c]) -> reader_run cs (reader_new stream) = Some r -> reader_step c r = Some r' ->
  log r' = log r ++ [RLast (Some v)] ->
  exists older, stream = older ++ [v] ++ opt_list (held r') ++ src r'.
Proof.
  intros line stream cs c r r' v F E S L. apply Forall_app in F. destruct F as [F1 F2].
  destruct (nokeep_run line stream cs (reader_new stream) r F1 eq_refl (sub_nil [])) as [A B]; auto.
  assert (W : quiet_window cs (reader_new stream)).
  { apply nokeep_quiet; auto. constructor. }
  eapply keep_last; eauto.
  - eapply keep_run; [|exact W|exact E]. exists []. split; reflexivity.
  - intros _. destruct (pc r); simpl in B; tauto.
Qed.

Example C63_clear_example : exists r r',
  let cs := [ChThread; ChThread; ChThread; ChThread; ChLast false; ChGo; ChGo; ChGo; ChGo; ChThread] in
  Forall no_keep (cs ++ [ChGo]) /\
  reader_run cs (reader_new [1; 2; 3; 4]) = Some r /\ reader_step ChGo r = Some r' /\
  log r' = log r ++ [RLast (Some 2)] /\ held r' = Some 3.
Proof.
  do 2 eexists. split; [|split; [vm_compute; reflexivity|split; [vm_compute; reflexivity|split; vm_compute; reflexivity]]].
  repeat (apply Forall_cons; [unfold no_keep; discriminate|]). apply Forall_nil.
Qed.

(** In every schedule (also with keep_last=True) the consumer is never blocked by an empty queue. *)
Theorem C63_never_blocks : forall (line : Type) (stream : list line) cs,
  exists r, reader_run cs (reader_new stream) = Some r.
Proof.
  intros line stream cs. destruct (run_unblocked line cs (reader_new stream) I) as (r & E & _). eauto.
Qed.

(** A call of read_last_and_clear returns within a bounded number of its own steps, however the thread
    is interleaved: twice the lines not yet consumed, plus two. *)
Theorem C63_call_returns : forall (line : Type) (stream : list line) cs keep more r r',
  reader_run cs (reader_new stream) = Some r ->
  Forall go_or_thread more ->
  2 * length (queue r ++ opt_list (held r) ++ src r) + 2 <= length (filter is_go more) ->
  reader_run (ChLast keep :: more) r = Some r' -> pc r' = CIdle.
Proof.
  intros line stream cs keep more r r' E F G H.
  assert (P : pending line r = length (queue r ++ opt_list (held r) ++ src r)).
  { unfold pending. rewrite !app_length. lia. }
  simpl in H. apply mu_idle.
  destruct (reader_step (ChLast keep) r) as [r1|] eqn:E1.
  2:{ simpl in E1. destruct (pc r); discriminate. }
  assert (P1 : pending line r1 = pending line r).
  { simpl in E1. destruct (pc r) eqn:C; inversion E1; subst; reflexivity. }
  assert (H1 : reader_run more r1 = Some r').
  { simpl in E1. destruct (pc r); inversion E1; subst; exact H. }
  pose proof (run_mu line more r1 r' F H1) as M. pose proof (mu_bound line r1) as B. lia.
Qed.

Example C63_call_returns_example : exists r r',
  reader_run [ChThread; ChThread; ChThread] (reader_new [1; 2]) = Some r /\
  Forall go_or_thread [ChGo; ChGo; ChThread; ChGo; ChGo; ChGo; ChGo] /\
  2 * length (queue r ++ opt_list (held r) ++ src r) + 2 <= length (filter is_go [ChGo; ChGo; ChThread; ChGo; ChGo; ChGo; ChGo]) /\
  reader_run (ChLast true :: [ChGo; ChGo; ChThread; ChGo; ChGo; ChGo; ChGo]) r = Some r' /\ queue r' = [2].
Proof.
  do 2 eexists. split; [vm_compute; reflexivity|]. split.
  { repeat (apply Forall_cons; [unfold go_or_thread; auto|]). apply Forall_nil. }
  split; [simpl; lia|]. split; vm_compute; reflexivity.
Qed.

(** The full claim for keep_last=True would be that the value put back is still the newest and later
    reads stay in order. It fails: if the thread queues a line between the last emptiness test and the
    put, the older line ends up behind the newer one ... *)
Theorem C63_keep_last_refuted :
  exists cs r, reader_run cs (reader_new [1; 2]) = Some r /\
    log r = [RLast (Some 1); RRead (Some 2); RRead (Some 1)].
Proof.
  exists [ChThread; ChThread; ChLast true; ChGo; ChGo; ChGo; ChThread; ChThread; ChGo; ChRead; ChRead].
  eexists. split; vm_compute; reflexivity.
Qed.

(** ... and a following read_last_and_clear throws the newest line away for good. *)
Theorem C63_keep_last_loses_refuted :
  exists cs r, reader_run cs (reader_new [1; 2]) = Some r /\
    log r = [RLast (Some 1); RLast (Some 1)] /\ queue r = [] /\ held r = None /\ src r = [].
Proof.
  exists [ChThread; ChThread; ChLast true; ChGo; ChGo; ChGo; ChThread; ChThread; ChGo;
          ChLast false; ChGo; ChGo; ChGo; ChGo; ChGo].
  eexists. split; [vm_compute; reflexivity|]. repeat split; vm_compute; reflexivity.
Qed.

(** That window is the only problem: if the thread queues nothing in it, the queue is always an end of
    the delivered lines in order, and read_last_and_clear returns the newest of them. *)
Theorem C63_keep_last_partial : forall (line : Type) (stream : list line) cs r,
  quiet_window cs (reader_new stream) -> reader_run cs (reader_new stream) = Some r ->
  exists seen, seen ++ queue r ++ opt_list (held r) ++ src r = stream.
Proof.
  intros line stream cs r W E.
  destruct (keep_run line stream cs (reader_new stream) r) as (t & H & _); auto.
  - exists []. split; reflexivity.
  - exists t. exact H.
Qed.

Theorem C63_keep_newest_partial : forall (line : Type) (stream : list line) cs c r r' v,
  quiet_window (cs ++ [c]) (reader_new stream) -> reader_run cs (reader_new stream) = Some r ->
  reader_step c r = Some r' -> log r' = log r ++ [RLast (Some v)] ->
  exists older, stream = older ++ [v] ++ opt_list (held r') ++ src r'.
Proof.
  intros line stream cs c r r' v W E S L.
  assert (Q : forall r0, quiet_window (cs ++ [c]) r0 -> reader_run cs r0 = Some r ->
              quiet_window cs r0 /\ quiet_window [c] r).
  { clear. induction cs as [|d cs IH]; intros r0 W E.
    - simpl in E. inversion E; subst. split; [exact I|exact W].
    - simpl in W, E. destruct W as [W1 W2]. destruct (reader_step d r0) as [r1|] eqn:E1; [|discriminate].
      destruct (IH r1 W2 E) as [Q1 Q2]. split; [|exact Q2]. simpl. rewrite E1. auto. }
  destruct (Q _ W E) as [W1 [W2 _]].
  eapply keep_last; eauto. eapply keep_run; [|exact W1|exact E]. exists []. split; reflexivity.
Qed.

Example C63_keep_example : exists r r',
  let cs := [ChThread; ChThread; ChThread; ChLast true; ChGo; ChGo; ChThread; ChGo; ChGo; ChThread; ChGo] in
  quiet_window (cs ++ [ChGo]) (reader_new [1; 2; 3]) /\
  reader_run cs (reader_new [1; 2; 3]) = Some r /\
  reader_step ChGo r = Some r' /\ log r' = log r ++ [RLast (Some 2)] /\ held r' = Some 3.
Proof.
  do 2 eexists. split; [simpl; repeat split; intros; discriminate|]. split; [vm_compute; reflexivity|].
  split; [vm_compute; reflexivity|]. split; vm_compute; reflexivity.
Qed.

Print Assumptions C63_reads_in_order.
Print Assumptions C63_clear_in_order.
Print Assumptions C63_clear_newest.
Print Assumptions C63_never_blocks.
Print Assumptions C63_call_returns.
Print Assumptions C63_keep_last_refuted.
Print Assumptions C63_keep_last_loses_refuted.
Print Assumptions C63_keep_last_partial.
Print Assumptions C63_keep_newest_partial.
