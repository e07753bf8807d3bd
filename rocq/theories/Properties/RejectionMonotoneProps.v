(** Property C129. *)
From Coq Require Import List Bool Arith Lia QArith Lqa.
Import ListNotations.
From Verif Require Import Prelude.Py Prelude.QBase Prelude.QFacts Model.Base Model.Rejection Proofs.RejectionWitness.
Open Scope Q_scope.

(** The second setting is at least as easy as the first: larger target, smaller envelope (scaling times proposal density). *)
Definition easier (P P' : rej_params) (pi pi' : vec -> Q) : Prop :=
  forall x, 0 <= pi x <= pi' x /\ 0 <= rj_q P' x * rj_scaling P' <= rj_q P x * rj_scaling P.
Definition unit_below (tape : list rej_round) : Prop := forall r i, In r tape -> 0 <= rr_u r i.

Lemma ratio_mono P P' pi pi' x u : easier P P' pi pi' -> 0 <= u -> fgtQ (rej_ratio P pi x) u = true -> fgtQ (rej_ratio P' pi' x) u = true.
Proof.
  intros E U. destruct (E x) as ((A & B) & (C & D)). unfold rej_ratio, fdivQ. set (d := rj_q P x * rj_scaling P) in *. set (d' := rj_q P' x * rj_scaling P') in *. clearbody d d'.
  destruct (Qeq_bool_spec d 0) as [Z|Z]; destruct (Qeq_bool_spec d' 0) as [Z'|Z'].
  - destruct (Qeq_bool_spec (pi x) 0) as [Y|Y]; simpl; [discriminate|]. destruct (Qeq_bool_spec (pi' x) 0) as [Y'|Y']; [exfalso; apply Y; lra|]. intros _.
    destruct (Qltb_spec 0 (pi' x)) as [|N]; auto. exfalso. lra.
  - exfalso. apply Z'. lra.
  - simpl. intros H0. destruct (Qltb_spec u (pi x / d)) as [H|]; [|discriminate]. destruct (Qeq_bool_spec (pi' x) 0) as [Y'|Y'].
    + exfalso. assert (Y : pi x == 0) by lra. rewrite Y in H. unfold Qdiv in H. lra.
    + destruct (Qltb_spec 0 (pi' x)) as [|N]; auto. exfalso. lra.
  - simpl. intros H0. destruct (Qltb_spec u (pi x / d)) as [H|]; [|discriminate]. destruct (Qltb_spec u (pi' x / d')) as [|K]; auto. exfalso.
    assert (H2 : u * d < pi x). { assert (G : pi x / d * d == pi x) by (field; auto). nra. }
    assert (H3 : pi' x <= u * d'). { assert (G : pi' x / d' * d' == pi' x) by (field; auto). nra. } nra.
Qed.

Definition accepts (P : rej_params) (pi : vec -> Q) (r : rej_round) (i : nat) : bool := fgtQ (rej_ratio P pi (rr_draw r i)) (rr_u r i).
Definition accepted (P : rej_params) (pi : vec -> Q) (r : rej_round) (k : nat) : nat := length (rej_accepted P pi r k).
Lemma accepted_S P pi r k : accepted P pi r (S k) = (accepted P pi r k + (if accepts P pi r k then 1 else 0))%nat.
Proof.
  unfold accepted, rej_accepted. rewrite !map_length, seq_S, filter_app, app_length. simpl. fold (accepts P pi r k).
  destruct (accepts P pi r k); reflexivity.
Qed.
Lemma accepted_le P pi r j k : (j <= k)%nat -> (accepted P pi r j <= accepted P pi r k <= accepted P pi r j + (k - j))%nat.
Proof.
  induction 1 as [|k H IH]; [lia|]. rewrite accepted_S. destruct (accepts P pi r k); lia.
Qed.
Lemma accepted_mono P P' pi pi' r : easier P P' pi pi' -> (forall i, 0 <= rr_u r i) -> forall k, (accepted P pi r k <= accepted P' pi' r k)%nat.
Proof.
  intros E U. induction k as [|k IH]; [reflexivity|]. rewrite !accepted_S. destruct (accepts P pi r k) eqn:A; [|lia].
  unfold accepts in *. rewrite (ratio_mono P P' pi pi' _ _ E (U k) A). lia.
Qed.
Lemma accepted_all P pi r k : (accepted P pi r k <= k)%nat.
Proof. pose proof (accepted_le P pi r 0 k ltac:(lia)) as H. unfold accepted at 2 in H. simpl in H. lia. Qed.
Lemma iter_count P pi n c r : length (samples (rej_iter P pi n c r)) = (length (samples c) + accepted P pi r (n - length (samples c)))%nat.
Proof. unfold rej_iter. cbn [samples]. now rewrite app_length. Qed.

Lemma loop_grows P pi n timeout tape : forall e c, (length (samples c) <= length (samples (out_state (rej_loop P pi n timeout tape e c))) <= Nat.max n (length (samples c)))%nat.
Proof.
  induction tape as [|r t IH]; intros e c; simpl; destruct (Qltb e timeout && (length (samples c) <? n)%nat) eqn:B; simpl; try lia.
  specialize (IH (rr_clock r) (rej_iter P pi n c r)). rewrite iter_count in IH. pose proof (accepted_all P pi r (n - length (samples c))).
  apply andb_true_iff in B. destruct B as (_ & B). apply Nat.ltb_lt in B. lia.
Qed.
Lemma step_mono P P' pi pi' n n' c c' r : easier P P' pi pi' -> (forall i, 0 <= rr_u r i) -> (n <= n')%nat -> (length (samples c) <= length (samples c'))%nat ->
  (length (samples (rej_iter P pi n c r)) <= length (samples (rej_iter P' pi' n' c' r)))%nat.
Proof.
  intros E U N L. rewrite !iter_count. set (b := length (samples c)) in *. set (a := length (samples c')) in *.
  pose proof (accepted_mono P P' pi pi' r E U (n - b)) as M1.
  destruct (Nat.le_gt_cases (n - b) (n' - a)) as [G|G].
  - pose proof (accepted_le P' pi' r _ _ G). lia.
  - pose proof (accepted_le P' pi' r (n' - a) (n - b) ltac:(lia)). lia.
Qed.
Lemma loop_mono P P' pi pi' n n' timeout timeout' tape : easier P P' pi pi' -> unit_below tape -> (n <= n')%nat -> timeout <= timeout' ->
  forall e c c', (length (samples c) <= length (samples c'))%nat ->
  (length (samples (out_state (rej_loop P pi n timeout tape e c))) <= length (samples (out_state (rej_loop P' pi' n' timeout' tape e c'))))%nat.
Proof.
  intros E U N T. induction tape as [|r t IH]; intros e c c' L.
  - simpl. destruct (_ && _), (_ && _); exact L.
  - simpl. destruct (Qltb_spec e timeout) as [X|X]; cbn [andb].
    + destruct (Nat.ltb_spec (length (samples c)) n) as [Y|Y].
      * destruct (Qltb_spec e timeout') as [X'|X']; [|exfalso; lra]. cbn [andb]. destruct (Nat.ltb_spec (length (samples c')) n') as [Y'|Y'].
        -- apply IH; [intros q i Hq; apply U; simpl; auto|]. apply step_mono; auto. intros i. apply U. simpl; auto.
        -- cbn [out_state]. pose proof (loop_grows P pi n timeout t (rr_clock r) (rej_iter P pi n c r)) as G. rewrite iter_count in G.
           pose proof (accepted_all P pi r (n - length (samples c))). lia.
      * cbn [out_state]. destruct (_ && _); [|exact L]. pose proof (loop_grows P' pi' n' timeout' t (rr_clock r) (rej_iter P' pi' n' c' r)) as G. rewrite iter_count in G. lia.
    + cbn [out_state]. destruct (_ && _); [|exact L]. pose proof (loop_grows P' pi' n' timeout' t (rr_clock r) (rej_iter P' pi' n' c' r)) as G. rewrite iter_count in G. lia.
Qed.
Lemma call_samples P pi n timeout e0 tape pick c : samples (out_state (rej_importance_sample P pi n timeout e0 tape pick c)) = samples (out_state (rej_loop P pi n timeout tape e0 c)).
Proof. unfold rej_importance_sample. destruct (rej_loop _ _ _ _ _ _ _) as [c1|c1|e c1]; auto. unfold rej_finish. destruct (update_model _ _ _); reflexivity. Qed.

(** C129. For the same object, draws and clock readings, a larger target, a smaller scaling, a longer time limit and a larger request never
    leave the rejection sampler with fewer samples, however the calls end. *)
Theorem C129_more_samples :
  forall P P' pi pi' n n' timeout timeout' e0 tape pick pick' c, easier P P' pi pi' -> unit_below tape -> (n <= n')%nat -> timeout <= timeout' ->
  (length (samples (out_state (rej_importance_sample P pi n timeout e0 tape pick c))) <=
   length (samples (out_state (rej_importance_sample P' pi' n' timeout' e0 tape pick' c))))%nat.
Proof. intros. rewrite !call_samples. apply loop_mono; auto. Qed.
Print Assumptions C129_more_samples.

Lemma loop_effort P P' pi pi' n timeout tape : easier P P' pi pi' -> unit_below tape ->
  forall e c c' s, (length (samples c) <= length (samples c'))%nat -> rej_loop P pi n timeout tape e c = Done s ->
  exists s', rej_loop P' pi' n timeout tape e c' = Done s' /\
    exists a b, (b <= a)%nat /\ num_pi_evals s = (num_pi_evals c + a)%nat /\ num_pi_evals s' = (num_pi_evals c' + b)%nat /\
      num_q_samples s = (num_q_samples c + a)%nat /\ num_q_samples s' = (num_q_samples c' + b)%nat /\
      num_q_evals s = (num_q_evals c + a)%nat /\ num_q_evals s' = (num_q_evals c' + b)%nat.
Proof.
  intros E U. induction tape as [|r t IH]; intros e c c' s L H; simpl in *.
  - destruct (Qltb_spec e timeout) as [X|X]; cbn [andb] in *.
    + destruct (Nat.ltb_spec (length (samples c)) n) as [Y|Y]; [discriminate|]. injection H as <-. destruct (Nat.ltb_spec (length (samples c')) n) as [Y'|Y']; [lia|].
      exists c'. split; auto. exists 0%nat, 0%nat. repeat split; lia.
    + injection H as <-. exists c'. split; auto. exists 0%nat, 0%nat. repeat split; lia.
  - destruct (Qltb_spec e timeout) as [X|X]; cbn [andb] in *.
    + destruct (Nat.ltb_spec (length (samples c)) n) as [Y|Y].
      * destruct (Nat.ltb_spec (length (samples c')) n) as [Y'|Y'].
        -- destruct (IH ltac:(intros q i Hq; apply U; simpl; auto) (rr_clock r) (rej_iter P pi n c r) (rej_iter P' pi' n c' r) s) as (s' & R & a & b & AB & Q); auto.
           { apply step_mono; auto. intros i. apply U. simpl; auto. }
           exists s'. split; auto. exists (n + a)%nat, (n + b)%nat. cbn [rej_iter num_pi_evals num_q_samples num_q_evals] in Q. repeat split; lia.
        -- exists c'. split; auto.
           assert (G : exists a, num_pi_evals s = (num_pi_evals c + a)%nat /\ num_q_samples s = (num_q_samples c + a)%nat /\ num_q_evals s = (num_q_evals c + a)%nat).
           { clear - H. revert H. generalize (rr_clock r) as e. intros e H.
             assert (W : forall t e c s, rej_loop P pi n timeout t e c = Done s -> exists a, num_pi_evals s = (num_pi_evals c + a)%nat /\ num_q_samples s = (num_q_samples c + a)%nat /\ num_q_evals s = (num_q_evals c + a)%nat).
             { clear. induction t as [|r t IH]; intros e c s H; simpl in H; destruct (_ && _); try discriminate.
               - injection H as <-. exists 0%nat. lia.
               - destruct (IH _ _ _ H) as (a & A). cbn [rej_iter num_pi_evals num_q_samples num_q_evals] in A. exists (n + a)%nat. lia.
               - injection H as <-. exists 0%nat. lia. }
             destruct (W _ _ _ _ H) as (a & A). cbn [rej_iter num_pi_evals num_q_samples num_q_evals] in A. exists (n + a)%nat. lia. }
           destruct G as (a & A). exists a, 0%nat. repeat split; lia.
      * injection H as <-. destruct (Nat.ltb_spec (length (samples c')) n) as [Y'|Y']; [lia|]. exists c'. split; auto. exists 0%nat, 0%nat. repeat split; lia.
    + injection H as <-. exists c'. split; auto. exists 0%nat, 0%nat. repeat split; lia.
Qed.

(** C129. And with the same request and time limit, when the call for the harder setting returns, so does the one for the easier setting, on
    the same draws and clock readings, with at least as many samples and no higher effort. *)
Theorem C129_less_effort :
  forall P P' pi pi' n timeout e0 tape pick pick' c s, easier P P' pi pi' -> rj_kde P' = rj_kde P -> unit_below tape ->
  rej_importance_sample P pi n timeout e0 tape pick c = Done s ->
  exists s', rej_importance_sample P' pi' n timeout e0 tape pick' c = Done s' /\ (length (samples s) <= length (samples s'))%nat /\
    (num_pi_evals s' <= num_pi_evals s)%nat /\ (num_q_samples s' <= num_q_samples s)%nat /\ (num_q_evals s' <= num_q_evals s)%nat.
Proof.
  intros P P' pi pi' n timeout e0 tape pick pick' c s E K U H. unfold rej_importance_sample in *.
  destruct (rej_loop P pi n timeout tape e0 c) as [c1|c1|x c1] eqn:R; try discriminate.
  destruct (loop_effort P P' pi pi' n timeout tape E U e0 c c c1 (le_n _) R) as (c2 & R2 & a & b & AB & Q).
  pose proof (loop_mono P P' pi pi' n n timeout timeout tape E U (le_n _) (Qle_refl _) e0 c c (le_n _)) as M. rewrite R, R2 in M. cbn [out_state] in M.
  rewrite R2. unfold rej_finish in *. cbv zeta in *. cbn [samples num_pi_evals num_q_samples num_q_evals] in *.
  destruct (update_model (rj_kde P) pick (samples c1)) as [m|x] eqn:U1; [|discriminate]. injection H as <-.
  assert (NE : samples c2 <> []). { intros Z. rewrite Z in M. simpl in M. clear - U1 M. cbn [samples] in U1. unfold update_model in U1. destruct (rj_kde P); [discriminate|]. destruct (samples c1); [discriminate|simpl in M; lia]. }
  destruct (update_model (rj_kde P') pick' (samples c2)) as [m'|x'] eqn:U2.
  - eexists. split; [reflexivity|]. cbn [samples num_pi_evals num_q_samples num_q_evals]. repeat split; lia.
  - exfalso. rewrite K in U2. unfold update_model in U1, U2. destruct (rj_kde P); [discriminate|]. cbn [samples] in *. destruct (samples c2); [congruence|discriminate].
Qed.
Print Assumptions C129_less_effort.

(** One sample of two needs a second turn with scaling 2; with scaling 1 the first turn suffices. *)
Definition tight : rej_params := mkRej (fun _ => 1) 1 3.
Definition easy_round : rej_round := mkRound (fun i => match i with O => [3 # 2] | _ => [3 # 4] end) (fun _ => 1 # 2) 1.
Definition last_round : rej_round := mkRound (fun _ => [7 # 4]) (fun _ => 1 # 4) 2.
Definition size_target (x : vec) : Q := match x with a :: _ => if Qle_bool 0 a then a else 0 | [] => 0 end.
Example C129_example :
  easier exP tight size_target size_target /\ rj_kde tight = rj_kde exP /\ unit_below [easy_round; last_round] /\
  exists s s', rej_importance_sample exP size_target 2 60 0 [easy_round; last_round] (fun i => i) core_init = Done s /\
    rej_importance_sample tight size_target 2 60 0 [easy_round; last_round] (fun i => i) core_init = Done s' /\
    num_pi_evals s = 4%nat /\ num_pi_evals s' = 2%nat /\ length (samples s') = 2%nat.
Proof.
  split; [|split; [reflexivity|split]].
  - intros x. simpl. split; [|lra]. unfold size_target. destruct x as [|a x]; [lra|]. destruct (Qle_bool 0 a) eqn:E; [apply Qle_bool_iff in E|]; lra.
  - intros r i [<-|[<-|[]]]; simpl; lra.
  - eexists _, _. split; [vm_compute; reflexivity|]. split; [vm_compute; reflexivity|]. repeat split; vm_compute; reflexivity.
Qed.
