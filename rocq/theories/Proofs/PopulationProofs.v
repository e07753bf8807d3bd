(** Proofs about deterministic mixture AIS and layered AIS. *)
From Coq Require Import List Bool Arith Lia QArith Lqa.
Import ListNotations.
From Verif Require Import Prelude.Py Prelude.QBase Prelude.QFacts Prelude.ListFacts Model.Base Model.Mixture Model.Population
  Spec.Box Spec.PopulationSpec Proofs.MixtureProofs Proofs.MHProofs Proofs.NestedHistory.
Open Scope Q_scope.

Definition comp_pos (P : pop_params) : Prop := forall m x, 0 < pp_comp P m x.

Lemma total_of_Qsum l : total_of l = Qsum l.
Proof. induction l; simpl; congruence. Qed.

Lemma Qsum_pos l : l <> [] -> Forall (fun x => 0 < x) l -> 0 < Qsum l.
Proof.
  intros H F. induction F as [|x l X F IH]; [congruence|]. simpl. destruct l; [simpl; lra|].
  specialize (IH ltac:(discriminate)). lra.
Qed.

Lemma pop_prob_pos P means x : comp_pos P -> means <> [] -> 0 < pop_prob P means x.
Proof.
  intros C H. unfold pop_prob. apply Qsum_pos.
  - destruct means; simpl; congruence.
  - apply Forall_forall. intros y Y. apply in_map_iff in Y. destruct Y as (m & <- & _).
    assert (N : 0 < Qnat (length means)) by (apply Qnat_pos; destruct means; simpl; [congruence|lia]).
    apply Qmult_lt_0_compat; auto. apply Qlt_shift_div_l; auto. lra.
Qed.

Lemma pop_prob_mixture P means x : means <> [] -> equal_mixture (pp_comp P) means x (pop_prob P means x).
Proof.
  intros H. unfold equal_mixture, pop_prob. rewrite (total_of_Qsum (map (fun m => pp_comp P m x) means)). fold (Qnat (length means)).
  assert (N : 0 < Qnat (length means)) by (apply Qnat_pos; destruct means; simpl; [congruence|lia]).
  set (c := 1 / Qnat (length means)).
  assert (E : Qsum (map (fun m => c * pp_comp P m x) means) == c * Qsum (map (fun m => pp_comp P m x) means)).
  { rewrite <- Qsum_scale, map_map. reflexivity. }
  rewrite E. unfold c. field. lra.
Qed.

(** The finite weights of a batch. *)
Definition batch_w (P : pop_params) (pi : vec -> Q) (means xs : list vec) : list Q :=
  map (fun x => pi x / pop_prob P means x) xs.

Lemma pop_weigh_fin P pi means xs : comp_pos P -> means <> [] ->
  pop_weigh P pi means xs = map Fin (batch_w P pi means xs).
Proof.
  intros C H. unfold pop_weigh, batch_w. rewrite map_map. apply map_ext. intros x. unfold fdivQ.
  destruct (Qeq_bool_spec (pop_prob P means x) 0) as [E|E]; auto.
  pose proof (pop_prob_pos P means x C H). lra.
Qed.

Lemma batch_w_nonneg P pi means xs : comp_pos P -> means <> [] -> (forall x, 0 <= pi x) ->
  Forall (fun w => 0 <= w) (batch_w P pi means xs).
Proof.
  intros C H N. apply Forall_forall. intros w W. apply in_map_iff in W. destruct W as (x & <- & _).
  apply Qle_shift_div_l; [apply pop_prob_pos; auto|]. rewrite Qmult_0_l. apply N.
Qed.

Lemma batch_w_spec P pi means xs : comp_pos P -> means <> [] ->
  Forall2 (mixture_weight pi (pp_comp P) means) xs (batch_w P pi means xs).
Proof.
  intros C H. induction xs as [|x xs IH]; simpl; constructor; auto.
  exists (pop_prob P means x). pose proof (pop_prob_pos P means x C H).
  repeat split; auto; [apply pop_prob_mixture; auto|]. field. lra.
Qed.

(** ** Normalisation *)
Lemma fsumQ_fin l : fsumQ (map Fin l) = Fin (Qsum l).
Proof. induction l; simpl; auto. rewrite IHl. auto. Qed.

Lemma normalise_fin ws : 0 < Qsum ws -> normalise (map Fin ws) = map Fin (map (fun w => w / Qsum ws) ws).
Proof.
  intros H. unfold normalise. rewrite fsumQ_fin, !map_map. apply map_ext. intros w. simpl. unfold fdivQ.
  destruct (Qeq_bool_spec (Qsum ws) 0); auto. lra.
Qed.
Lemma normalise_zero ws : Qsum ws == 0 -> normalise (map Fin ws) = map (fun w => fdivQ w (Qsum ws)) ws /\
  Forall (fun w => is_fin w = false) (normalise (map Fin ws)).
Proof.
  intros H. unfold normalise. rewrite fsumQ_fin, map_map. simpl. split; auto.
  apply Forall_forall. intros w W. apply in_map_iff in W. destruct W as (a & <- & _). unfold fdivQ.
  destruct (Qeq_bool_spec (Qsum ws) 0); [|contradiction]. destruct (Qeq_bool a 0); auto. destruct (Qltb 0 a); auto.
Qed.

Lemma Qsum_div l c : Qsum (map (fun w => w / c) l) == Qsum l / c.
Proof.
  induction l as [|a l IH]; simpl.
  - unfold Qdiv. rewrite Qmult_0_l. reflexivity.
  - rewrite IH. unfold Qdiv. rewrite Qmult_plus_distr_l. reflexivity.
Qed.

Lemma shares_norm ws : Forall (fun w => 0 <= w) ws -> 0 < Qsum ws -> shares ws (map (fun w => w / Qsum ws) ws).
Proof.
  intros F H. repeat split.
  - rewrite map_length. auto.
  - apply Forall_forall. intros w W. apply in_map_iff in W. destruct W as (a & <- & A).
    rewrite Forall_forall in F. apply Qle_shift_div_l; auto. rewrite Qmult_0_l. auto.
  - rewrite (total_of_Qsum (map (fun w => w / Qsum ws) ws)), Qsum_div. field. lra.
  - intros i a b A B. rewrite nth_error_map, A in B. simpl in B.
    assert (b = a / Qsum ws) by congruence. subst b. rewrite (total_of_Qsum ws). field. lra.
Qed.

Lemma Qsum_zero_all l : Forall (fun w => 0 <= w) l -> Qsum l == 0 -> Forall (fun w => w == 0) l.
Proof.
  induction 1 as [|a l A F IH]; simpl; intros H; constructor.
  - pose proof (Qsum_nonneg l F). lra.
  - apply IH. pose proof (Qsum_nonneg l F). lra.
Qed.
Lemma Qsum_all_zero l : Forall (fun w => w == 0) l -> Qsum l == 0.
Proof. induction 1; simpl; lra. Qed.
Lemma Qsum_pos_in l a : Forall (fun w => 0 <= w) l -> In a l -> 0 < a -> 0 < Qsum l.
Proof.
  induction 1 as [|b l B F IH]; simpl; [tauto|]. pose proof (Qsum_nonneg l F).
  intros [-> |I] A; [lra|]. specialize (IH I A). lra.
Qed.

(** ** Draws *)
Lemma pop_draws_length P means r : length (pop_draws P means r) = (length means * pp_K P)%nat.
Proof.
  unfold pop_draws. rewrite (flat_map_length_const _ _ (pp_K P)).
  - rewrite seq_length. auto.
  - intros. rewrite map_length, seq_length. auto.
Qed.

Lemma nth_error_flat_const {A B} (f : A -> list B) k : (forall a, length (f a) = k) ->
  forall l j i a, nth_error l j = Some a -> (i < k)%nat -> nth_error (flat_map f l) (j * k + i) = nth_error (f a) i.
Proof.
  intros H. induction l as [|b l IH]; intros [|j] i a E I; try discriminate; simpl.
  - simpl in E. assert (b = a) by congruence. subst. apply nth_error_app1. rewrite H. auto.
  - rewrite nth_error_app2; rewrite H; [|lia]. rewrite <- (IH j i a E I). f_equal. lia.
Qed.

Lemma pop_draws_nth P means r j k : (j < length means)%nat -> (k < pp_K P)%nat ->
  nth_error (pop_draws P means r) (j * pp_K P + k) = Some (pr_draw r j k).
Proof.
  intros J K. unfold pop_draws. rewrite (nth_error_flat_const _ (pp_K P)) with (a := j); auto.
  - rewrite nth_error_map. replace (nth_error (seq 0 (pp_K P)) k) with (Some k); auto.
    symmetry. rewrite (nth_error_nth' _ 0%nat); [|rewrite seq_length; auto]. rewrite seq_nth; auto.
  - intros. rewrite map_length, seq_length. auto.
  - rewrite (nth_error_nth' _ 0%nat); [|rewrite seq_length; auto]. rewrite seq_nth; auto.
Qed.

(** ** One turn of the loop *)
Definition same_books (s s' : pop) (dq dp dd : nat) : Prop :=
  pop_q_samples s' = (pop_q_samples s + dq)%nat /\ pop_q_evals s' = pop_q_evals s /\
  pop_pi_evals s' = (pop_pi_evals s + dp)%nat /\ pop_qdens s' = (pop_qdens s + dd)%nat.

Definition dqs (k : pop_kind) P n := match k with DM => (n * pp_K P)%nat | LAIS => (n * pp_K P + n * pp_L P)%nat end.
Definition dps (k : pop_kind) P n := match k with DM => (n * pp_K P)%nat | LAIS => (n * pp_K P + n * (2 * pp_L P))%nat end.

Lemma pop_iter_done k P pi r s s' : pop_iter k P pi r s = Done s' ->
  pop_samples s' = pop_samples s ++ pop_draws P (pop_means s) r /\
  pop_weights s' = pop_weights s ++ pop_weigh P pi (pop_means s) (pop_draws P (pop_means s) r) /\
  length (pop_means s') = length (pop_means s) /\
  same_books s s' (dqs k P (length (pop_means s))) (dps k P (length (pop_means s)))
    (length (pop_means s) * pp_K P * length (pop_means s)).
Proof.
  unfold pop_iter. destruct k; simpl.
  - unfold dm_adapt. simpl. destruct (forallb _ _); [|discriminate]. intros [= <-]. simpl.
    rewrite map_length, seq_length. unfold same_books. simpl. rewrite !pop_draws_length. repeat split; auto.
  - intros [= <-]. simpl. rewrite map_length, combine_length, seq_length, Nat.min_id.
    unfold same_books. simpl. rewrite !pop_draws_length. repeat split; lia.
Qed.

Lemma pop_iter_failed k P pi r s e s' : pop_iter k P pi r s = Failed e s' ->
  k = DM /\ e = ValueError /\ pop_samples s' = pop_samples s /\ pop_weights s' = pop_weights s /\
  pop_means s' = pop_means s /\ same_books s s' (length (pop_means s) * pp_K P) (length (pop_means s) * pp_K P)
    (length (pop_means s) * pp_K P * length (pop_means s)).
Proof.
  unfold pop_iter. destruct k; simpl; [|discriminate].
  unfold dm_adapt. simpl. destruct (forallb _ _); [discriminate|]. intros [= <- <-]. simpl.
  unfold same_books. simpl. rewrite !pop_draws_length. repeat split; auto.
Qed.
Lemma pop_iter_not_running k P pi r s s' : pop_iter k P pi r s <> Running s'.
Proof. unfold pop_iter. destruct k; simpl; [|discriminate]. unfold dm_adapt. destruct (forallb _ _); discriminate. Qed.

(** Failure of a turn of deterministic mixture AIS: exactly when no sample of the batch has positive density. *)
Lemma dm_iter_fails_iff P pi r s : comp_pos P -> pop_means s <> [] -> (0 < pp_K P)%nat -> (forall x, 0 <= pi x) ->
  ((exists e s', pop_iter DM P pi r s = Failed e s') <->
   Forall (fun x => pi x == 0) (pop_draws P (pop_means s) r)).
Proof.
  intros C H K N. set (xs := pop_draws P (pop_means s) r). set (ws := batch_w P pi (pop_means s) xs).
  assert (L : xs <> []).
  { intros E. pose proof (pop_draws_length P (pop_means s) r) as D. fold xs in D. rewrite E in D. simpl in D.
    destruct (pop_means s); simpl in D; [congruence|]. destruct (pp_K P); simpl in D; lia. }
  assert (W : pop_weigh P pi (pop_means s) xs = map Fin ws) by (apply pop_weigh_fin; auto).
  pose proof (batch_w_nonneg P pi (pop_means s) xs C H N) as F. fold ws in F.
  assert (Z : Forall (fun w => w == 0) ws <-> Forall (fun x => pi x == 0) xs).
  { unfold ws, batch_w. rewrite !Forall_forall. split.
    - intros A x X. specialize (A _ (in_map _ _ _ X)). simpl in A. pose proof (pop_prob_pos P (pop_means s) x C H) as Pp.
      assert (E : pi x == pi x / pop_prob P (pop_means s) x * pop_prob P (pop_means s) x) by (field; lra).
      rewrite E, A. ring.
    - intros A w X. apply in_map_iff in X. destruct X as (x & <- & X). rewrite (A x X). unfold Qdiv. ring. }
  rewrite <- Z. unfold pop_iter, pop_adapt, dm_adapt. fold xs. rewrite W.
  pose proof (Qsum_nonneg ws F) as S0.
  destruct (Qlt_le_dec 0 (Qsum ws)) as [S|S].
  - rewrite (normalise_fin ws S).
    assert (forallb is_fin (map Fin (map (fun w => w / Qsum ws) ws)) = true) as ->.
    { apply forallb_forall. intros x X. apply in_map_iff in X. destruct X as (? & <- & _). auto. }
    split; [intros (? & ? & ?); discriminate|]. intros A. pose proof (Qsum_all_zero ws A). lra.
  - assert (E : Qsum ws == 0) by lra. destruct (normalise_zero ws E) as [_ Nf].
    assert (forallb is_fin (normalise (map Fin ws)) = false) as ->.
    { destruct (normalise (map Fin ws)) as [|w l] eqn:Q.
      - unfold normalise in Q. apply map_eq_nil in Q. apply map_eq_nil in Q. unfold ws, batch_w in Q.
        apply map_eq_nil in Q. congruence.
      - inversion Nf; subst. simpl. rewrite H2. auto. }
    split; [|eauto]. intros _. apply Qsum_zero_all; auto.
Qed.

(** Adaptation of deterministic mixture AIS. *)
Lemma dm_iter_means P pi r s s' : comp_pos P -> pop_means s <> [] -> (0 < pp_K P)%nat -> (forall x, 0 <= pi x) ->
  (forall j i, 0 <= pr_u r j i < 1) -> pop_iter DM P pi r s = Done s' ->
  Forall (fun m => exists i w, nth_error (pop_draws P (pop_means s) r) i = Some m /\
                               nth_error (batch_w P pi (pop_means s) (pop_draws P (pop_means s) r)) i = Some w /\ 0 < w)
         (pop_means s').
Proof.
  intros C H K N U. set (xs := pop_draws P (pop_means s) r). set (ws := batch_w P pi (pop_means s) xs).
  unfold pop_iter, pop_adapt, dm_adapt. fold xs. rewrite (pop_weigh_fin P pi _ xs C H). fold ws.
  pose proof (batch_w_nonneg P pi (pop_means s) xs C H N) as F. fold ws in F. pose proof (Qsum_nonneg ws F) as S0.
  destruct (forallb is_fin (normalise (map Fin ws))) eqn:Q; [|discriminate]. intros [= <-]. simpl.
  apply Forall_forall. intros m M. apply in_map_iff in M. destruct M as (j & <- & J).
  apply in_seq in J.
  destruct (Qlt_le_dec 0 (Qsum ws)) as [S|S].
  - rewrite (normalise_fin ws S), map_map, map_map. simpl.
    pose proof (shares_norm ws F S) as (L & F1 & T & R). rewrite total_of_Qsum in T.
    destruct (multinomial1_live (map (fun w => w / Qsum ws) ws) 1 (pr_u r j) 0 F1 T ltac:(lra) (U j)) as (p & E & Pp).
    rewrite Nat.sub_0_r in E. set (i := multinomial1 (map (fun w => w / Qsum ws) ws) 1 (pr_u r j) 0) in *.
    rewrite nth_error_map in E. destruct (nth_error ws i) as [w|] eqn:W; [|discriminate]. simpl in E.
    assert (I : (i < length xs)%nat).
    { assert (length xs = length ws) as -> by (unfold ws, batch_w; rewrite map_length; auto).
      apply nth_error_Some. congruence. }
    exists i, w. repeat split; auto.
    + apply nth_error_nth'. auto.
    + assert (p = w / Qsum ws) by congruence. subst p.
      assert (w == w / Qsum ws * Qsum ws) as -> by (field; lra). apply Qmult_lt_0_compat; auto.
  - exfalso. assert (E : Qsum ws == 0) by lra. destruct (normalise_zero ws E) as [Z Nf].
    rewrite forallb_forall in Q.
    destruct (normalise (map Fin ws)) as [|w l] eqn:V.
    + assert (ws = []) as W0 by (unfold normalise in V; apply map_eq_nil in V; apply map_eq_nil in V; auto).
      unfold ws, batch_w in W0. apply map_eq_nil in W0. fold xs in W0.
      pose proof (pop_draws_length P (pop_means s) r) as D. fold xs in D. rewrite W0 in D. simpl in D.
      destruct (pop_means s); [congruence|]. destruct (pp_K P); simpl in D; lia.
    + inversion Nf; subst. specialize (Q w (or_introl eq_refl)). congruence.
Qed.

(** ** The loop *)
Section Loop.
Variables (k : pop_kind) (P : pop_params) (pi : vec -> Q) (I : pop -> Prop).
Hypothesis step : forall r s, I s -> I (out_state (pop_iter k P pi r s)).
Lemma pop_loop_inv n timeout tape : forall elapsed s, I s -> I (out_state (pop_loop k P pi n timeout tape elapsed s)).
Proof.
  induction tape as [|r t IH]; intros elapsed s H; simpl.
  - destruct (_ && _); auto.
  - destruct (_ && _); auto. specialize (step r s H). destruct (pop_iter k P pi r s); simpl in *; auto.
Qed.
End Loop.

Section LoopT.
Variables (k : pop_kind) (P : pop_params) (pi : vec -> Q) (OK : pop_round -> Prop) (I : pop -> Prop).
Hypothesis step : forall r s, OK r -> I s -> I (out_state (pop_iter k P pi r s)).
Lemma pop_loop_inv_ok n timeout tape : Forall OK tape -> forall elapsed s, I s -> I (out_state (pop_loop k P pi n timeout tape elapsed s)).
Proof.
  induction 1 as [|r t R F IH]; intros elapsed s H; simpl.
  - destruct (_ && _); auto.
  - destruct (_ && _); auto. specialize (step r s R H). destruct (pop_iter k P pi r s); simpl in *; auto.
Qed.
End LoopT.

Lemma pop_loop_request k P pi n timeout tape : forall elapsed s s',
  pop_loop k P pi n timeout tape elapsed s = Done s' ->
  ((n <= length (pop_samples s))%nat -> s' = s) /\
  ((length (pop_samples s) < n)%nat -> (length (pop_samples s') < n + length (pop_means s) * pp_K P)%nat) /\
  (Forall (fun r => pr_clock r < timeout) tape -> elapsed < timeout -> (n <= length (pop_samples s'))%nat).
Proof.
  induction tape as [|r t IH]; intros elapsed s s'; simpl.
  - destruct (Nat.ltb_spec (length (pop_samples s)) n), (Qltb_spec elapsed timeout); simpl; intros E;
      try discriminate; assert (s' = s) by congruence; subst; repeat split; try lia; intros; try lra; try lia.
  - destruct (Nat.ltb_spec (length (pop_samples s)) n) as [L|L], (Qltb_spec elapsed timeout) as [T|T]; simpl; intros E;
      try (assert (s' = s) by congruence; subst; repeat split; try lia; intros; try lra; lia).
    destruct (pop_iter k P pi r s) as [s1|s1|e s1] eqn:Q; try discriminate.
    destruct (pop_iter_done _ _ _ _ _ _ Q) as (A & _ & B & _). destruct (IH _ _ _ E) as (X & Y & Z).
    assert (length (pop_samples s1) = length (pop_samples s) + length (pop_means s) * pp_K P)%nat
      by (rewrite A, app_length, pop_draws_length; auto).
    repeat split.
    + intros; lia.
    + intros _. destruct (le_lt_dec n (length (pop_samples s1))) as [G|G].
      * rewrite (X G). lia.
      * specialize (Y G). rewrite B in Y. auto.
    + intros F _. inversion F; subst. apply Z; auto.
Qed.

Lemma mcmc_mh_box P pi ev n : is_box (pp_lo P) (pp_hi P) -> (forall l, length (fst (ev l)) = length (pp_lo P)) ->
  forall l x, in_box (pp_lo P) (pp_hi P) x -> in_box (pp_lo P) (pp_hi P) (mcmc_mh P pi ev n l x).
Proof.
  intros B D. induction n as [|n IH]; intros l x X; simpl; auto. apply IH. destruct (fgtQ _ _); auto.
  apply vclip_in_box; auto. rewrite vadd_length; rewrite (in_box_length _ _ _ X); auto.
Qed.
Lemma uniform_draw_box : forall lo hi u, is_box lo hi -> length u = length lo -> Forall (fun a => 0 <= a <= 1) u ->
  in_box lo hi (uniform_draw lo hi u).
Proof.
  unfold uniform_draw, vadd, vsub. induction lo as [|l lo IH]; intros [|h hi] [|a u] B L F; simpl in *; try tauto; try discriminate.
  destruct B as [B0 B]. inversion F; subst. repeat split; try nra. apply IH; auto.
Qed.
