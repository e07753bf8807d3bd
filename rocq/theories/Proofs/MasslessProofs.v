(** Targets that are zero everywhere. *)
From Coq Require Import List Bool Arith Lia QArith Lqa.
Import ListNotations.
From Verif Require Import Prelude.Py Prelude.QBase Prelude.QFacts Model.Base Model.Rejection Model.Population.
From Verif Require Import Model.Nested.
From Verif Require Import Spec.Box Proofs.PopulationProofs Proofs.PopulationHistory Proofs.NestedProofs Proofs.NestedHistory.
Open Scope Q_scope.

Definition massless (pi : vec -> Q) : Prop := forall x, pi x == 0.

(** ** Rejection sampling *)
Lemma massless_refused P pi u x : massless pi -> (forall y, 0 <= rj_q P y * rj_scaling P) -> 0 <= u -> fgtQ (rej_ratio P pi x) u = false.
Proof.
  intros M Q U. unfold rej_ratio, fdivQ. destruct (Qeq_bool_spec (rj_q P x * rj_scaling P) 0) as [E|E].
  - destruct (Qeq_bool_spec (pi x) 0) as [Z|Z]; [reflexivity|]. destruct Z. apply M.
  - simpl. apply Qltb_false. rewrite (M x). unfold Qdiv. rewrite Qmult_0_l. exact U.
Qed.
Lemma massless_iter P pi n c r : massless pi -> (forall y, 0 <= rj_q P y * rj_scaling P) -> (forall i, 0 <= rr_u r i) ->
  samples (rej_iter P pi n c r) = samples c.
Proof.
  intros M Q U. unfold rej_iter, rej_accepted. cbn [samples]. replace (filter _ _) with (@nil nat); [apply app_nil_r|].
  induction (seq 0 (n - length (samples c))) as [|i l IH]; simpl; auto. rewrite massless_refused; auto.
Qed.
Lemma massless_loop P pi n timeout tape : massless pi -> (forall y, 0 <= rj_q P y * rj_scaling P) -> (forall r i, In r tape -> 0 <= rr_u r i) ->
  forall el c, samples (out_state (rej_loop P pi n timeout tape el c)) = samples c.
Proof.
  intros M Q. induction tape as [|r t IH]; intros U el c; cbn [rej_loop]; destruct (Qltb el timeout && _); auto.
  rewrite IH; [apply massless_iter; auto|]; intros; apply U; simpl; auto.
Qed.
Lemma massless_loop_running P pi n timeout tape : massless pi -> (forall y, 0 <= rj_q P y * rj_scaling P) -> (forall r i, In r tape -> 0 <= rr_u r i) ->
  Forall (fun r => rr_clock r < timeout) tape -> forall el c, el < timeout -> (length (samples c) < n)%nat ->
  exists c', rej_loop P pi n timeout tape el c = Running c'.
Proof.
  intros M Q. induction tape as [|r t IH]; intros U F el c L N; cbn [rej_loop];
    rewrite (proj2 (Qltb_true el timeout) L), (proj2 (Nat.ltb_lt _ _) N); cbn [andb]; eauto.
  inversion F; subst. apply IH; auto; [intros; apply U; simpl; auto|]. rewrite massless_iter; auto. intros; apply U; simpl; auto.
Qed.

(** ** Population samplers *)
Lemma zero_sum ws : Forall (fun w => w == 0) ws -> Qsum ws == 0.
Proof. induction 1 as [|w ws W F IH]; simpl; [reflexivity|]. rewrite W, IH. reflexivity. Qed.
Lemma normalise_nan ws : Forall (fun w => w == 0) ws -> Forall (fun w => w = NaN) (normalise (map Fin ws)).
Proof.
  intros F. destruct (normalise_zero ws (zero_sum ws F)) as (E & _). rewrite E. rewrite Forall_map. eapply Forall_impl; [|exact F].
  intros w W. unfold fdivQ. rewrite (proj2 (Qeq_bool_iff _ _) (zero_sum ws F)), (proj2 (Qeq_bool_iff _ _) W). reflexivity.
Qed.
Lemma batch_zero P pi ms xs : massless pi -> comp_pos P -> ms <> [] -> exists ws, pop_weigh P pi ms xs = map Fin ws /\ Forall (fun w => w == 0) ws /\ length ws = length xs.
Proof.
  intros M C N. exists (map (fun x => pi x / pop_prob P ms x) xs). split; [|split; [|apply map_length]].
  - unfold pop_weigh. rewrite map_map. apply map_ext. intros x. unfold fdivQ. pose proof (pop_prob_pos P ms x C N) as D.
    destruct (Qeq_bool_spec (pop_prob P ms x) 0); [lra|reflexivity].
  - rewrite Forall_map. apply Forall_forall. intros x _. rewrite (M x). reflexivity.
Qed.
Lemma walk_stuck P pi ev n : massless pi -> forall l x, mcmc_mh P pi ev n l x = x.
Proof.
  intros M. induction n as [|n IH]; intros l x; cbn [mcmc_mh]; auto. unfold fdivQ.
  rewrite (proj2 (Qeq_bool_iff _ _) (M x)), (proj2 (Qeq_bool_iff _ _) (M _)). apply IH.
Qed.
Lemma walks_stuck P pi (g : nat -> nat -> vec * Q) n : massless pi -> forall ms o,
  map (fun jm => mcmc_mh P pi (g (fst jm)) n 0 (snd jm)) (combine (seq o (length ms)) ms) = ms.
Proof.
  intros M ms. induction ms as [|m ms IH]; intros o; simpl; auto. rewrite walk_stuck by auto. f_equal. apply IH.
Qed.
Lemma dm_iter_fails P pi r s : massless pi -> pop_params_ok P -> pop_means s <> [] ->
  exists s', pop_iter DM P pi r s = Failed ValueError s' /\ pop_samples s' = pop_samples s /\ pop_weights s' = pop_weights s.
Proof.
  intros M (_ & NP & KP & C) N. unfold pop_iter. cbn [pop_adapt]. unfold dm_adapt.
  set (xs := pop_draws P (pop_means s) r).
  assert (X : (0 < length xs)%nat).
  { unfold xs. rewrite pop_draws_length. destruct (pop_means s); [congruence|]. simpl. lia. }
  destruct (batch_zero P pi (pop_means s) xs M C N) as (ws & E & F & L). rewrite E. pose proof (normalise_nan ws F) as NN.
  assert (B : forallb is_fin (normalise (map Fin ws)) = false).
  { destruct (normalise (map Fin ws)) as [|w l] eqn:Q.
    - apply (f_equal (@length _)) in Q. unfold normalise in Q. rewrite !map_length in Q. simpl in Q. lia.
    - inversion NN; subst. reflexivity. }
  rewrite B. eexists. split; [reflexivity|]. split; reflexivity.
Qed.
Lemma lais_iter_zero P pi r s s' : massless pi -> comp_pos P -> pop_means s <> [] -> pop_iter LAIS P pi r s = Done s' ->
  pop_means s' = pop_means s /\ exists ws, pop_weights s' = pop_weights s ++ map Fin ws /\ Forall (fun w => w == 0) ws.
Proof.
  intros M C N. unfold pop_iter. cbn [pop_adapt]. unfold lais_adapt. set (xs := pop_draws P (pop_means s) r). cbn [pop_means pop_weights].
  intros H; injection H as <-. cbn [pop_means pop_weights]. split; [apply walks_stuck; auto|].
  destruct (batch_zero P pi (pop_means s) xs M C N) as (ws & E & F & _). exists ws. rewrite E. auto.
Qed.
Lemma lais_iter_done P pi r s : exists s', pop_iter LAIS P pi r s = Done s'.
Proof. unfold pop_iter. cbn [pop_adapt]. unfold lais_adapt. eauto. Qed.
Lemma lais_loop_zero P pi n timeout tape : massless pi -> comp_pos P -> forall el s, pop_means s <> [] ->
  let o := pop_loop LAIS P pi n timeout tape el s in
  pop_means (out_state o) = pop_means s /\ exists ws, pop_weights (out_state o) = pop_weights s ++ map Fin ws /\ Forall (fun w => w == 0) ws.
Proof.
  intros M C. induction tape as [|r t IH]; intros el s N; cbn [pop_loop]; destruct (_ && _); cbv zeta;
    try (split; [reflexivity|]; exists []; simpl; rewrite app_nil_r; auto).
  destruct (lais_iter_done P pi r s) as (s1 & E). rewrite E. destruct (lais_iter_zero P pi r s s1 M C N E) as (E1 & ws & E2 & F).
  destruct (IH (pr_clock r) s1) as (A & ws' & B & G); [congruence|]. split; [congruence|]. exists (ws ++ ws').
  rewrite B, E2, map_app, app_assoc. split; auto. apply Forall_app; auto.
Qed.
(** All calls are for targets that are zero everywhere. *)
Definition massless_op (o : pop_op) : Prop := match o with PopCall pi _ _ _ => massless pi | _ => True end.
Definition zeros (s : pop) : Prop := exists ws, pop_weights s = map Fin ws /\ Forall (fun w => w == 0) ws.
Lemma lais_zeros P us ops s : pop_params_ok P -> us_ok P us -> Forall (fun e => pop_op_ok P (fst e) /\ massless_op (fst e)) ops -> pop_reachable LAIS P us ops s ->
  pop_means s <> [] /\ zeros s.
Proof.
  intros (BX & NP & KP & C) U F R.
  assert (NEW : forall us', us_ok P us' -> pop_means (pop_new P us') <> [] /\ zeros (pop_new P us')).
  { intros us' (L & _). split; [|exists []; split; [reflexivity|constructor]]. simpl. intros E. apply (f_equal (@length _)) in E. rewrite map_length in E. simpl in E. lia. }
  assert (STEP : forall o s0, (pop_op_ok P o /\ massless_op o) -> pop_means s0 <> [] /\ zeros s0 ->
     pop_means (out_state (pop_run LAIS P o s0)) <> [] /\ zeros (out_state (pop_run LAIS P o s0))).
  { intros [pi n timeout tape|m|us'] s0 (OK & M) (N & ws & W & Z); cbn [pop_run].
    - destruct (lais_loop_zero P pi n timeout tape M C 0 s0 N) as (A & ws' & B & G). unfold pop_call. split; [congruence|].
      exists (ws ++ ws'). rewrite B, W, map_app. split; auto. apply Forall_app; auto.
    - split; [exact N|]. exists ws. auto.
    - apply (NEW us' OK). }
  induction R as [|o ops s s' R IH E|o ops s e s' R IH E].
  - apply NEW; auto.
  - inversion F; subst. pose proof (STEP o s H1 (IH H2)) as G. rewrite E in G. exact G.
  - inversion F; subst. pose proof (STEP o s H1 (IH H2)) as G. rewrite E in G. exact G.
Qed.

(** ** Nested sampling *)
Lemma massless_L P us ops s : start_ok P us -> Forall (ns_op_ok P) ops -> Forall (ns_target massless) ops -> nested_reachable P us ops s ->
  Forall (fun l => l == 0) (ns_L s).
Proof.
  intros S0 OK KK R. apply (history_inv P us (fun s => Forall (fun l => l == 0) (ns_L s)) (ns_target massless)) with (ops := ops); auto.
  - intros; constructor.
  - intros a b (_ & _ & _ & E & _). now rewrite E.
  - intros pi n timeout tape pick H _ a b _ F (ev & g & c & big & k & y & seen & _ & _ & _ & SF).
    rewrite (sf_L _ _ _ _ _ _ _ _ _ _ _ _ SF). apply Forall_app. split; auto.
Qed.
