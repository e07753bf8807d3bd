From Coq Require Import List Bool Arith Lia QArith Lqa.
Import ListNotations.
From Verif Require Import Prelude.Py Prelude.QBase Prelude.QFacts Model.Base Model.Rejection Spec.RejectionSpec.
Open Scope Q_scope.

Lemma filter_length_le {A} (f : A -> bool) l : (length (filter f l) <= length l)%nat.
Proof. induction l; simpl; [lia|]. destruct (f a); simpl; lia. Qed.

Lemma rej_accepted_le P t r k : (length (rej_accepted P t r k) <= k)%nat.
Proof.
  unfold rej_accepted. rewrite map_length.
  etransitivity; [apply filter_length_le|]. rewrite seq_length; lia.
Qed.

Lemma rej_drawn_length r k : length (rej_drawn r k) = k.
Proof. unfold rej_drawn. now rewrite map_length, seq_length. Qed.

(** The division test of the code is the multiplicative rejection rule. *)
Lemma accept_equiv P t x u :
  0 <= rj_q P x * rj_scaling P ->
  fgtQ (rej_ratio P t x) u = keepsb t (fun y => rj_q P y * rj_scaling P) x u.
Proof.
  intros H. unfold rej_ratio, fdivQ, keepsb. set (e := rj_q P x * rj_scaling P) in *.
  destruct (Qeq_bool_spec e 0) as [E|E].
  - assert (M : u * e == 0) by (rewrite E; ring).
    destruct (Qeq_bool_spec (t x) 0) as [T|T]; simpl.
    + symmetry. apply negb_false_iff, Qle_bool_iff. lra.
    + destruct (Qltb_spec 0 (t x)); simpl; symmetry.
      * apply negb_true_iff, Qle_bool_false. lra.
      * apply negb_false_iff, Qle_bool_iff. lra.
  - assert (P0 : 0 < e) by (destruct (Qlt_le_dec 0 e); auto; exfalso; apply E; lra).
    cbn [fgtQ]. unfold Qltb. f_equal.
    apply eq_true_iff_eq. rewrite !Qle_bool_iff. split; intros L.
    + assert (t x == (t x / e) * e) by (field; lra).
      rewrite H0. apply Qmult_le_compat_r; lra.
    + apply Qle_shift_div_r; auto.
Qed.

Lemma accepted_kept P t r k :
  (forall x, 0 <= rj_q P x * rj_scaling P) ->
  rej_accepted P t r k = kept t (fun y => rj_q P y * rj_scaling P) (rr_draw r) (rr_u r) k.
Proof.
  intros H. unfold rej_accepted, kept, offers.
  induction (seq 0 k) as [|i l IH]; simpl; auto.
  rewrite accept_equiv by auto.
  destruct (keepsb _ _ (rr_draw r i) (rr_u r i)); simpl; [f_equal|]; auto.
Qed.

(** Everything the loop does, in one statement. *)
Lemma rej_loop_spec P t n timeout tape : forall e0 c c',
  (forall x, 0 <= rj_q P x * rj_scaling P) ->
  rej_loop P t n timeout tape e0 c = Done c' ->
  exists used rest, tape = used ++ rest /\
    samples c' = held_after t (fun y => rj_q P y * rj_scaling P) n (samples c)
                   (map (fun r => (rr_draw r, rr_u r)) used) /\
    (length (samples c) <= length (samples c') <= Nat.max n (length (samples c)))%nat /\
    (exists added, samples c' = samples c ++ added) /\
    ((n <= length (samples c'))%nat \/ timeout <= last (map rr_clock used) e0) /\
    model c' = model c /\
    num_q_samples c' = (num_q_samples c + length used * n)%nat /\
    num_q_evals c' = (num_q_evals c + length used * n)%nat /\
    num_pi_evals c' = (num_pi_evals c + length used * n)%nat.
Proof.
  assert (Stop : forall tp e0 c, ((n <= length (samples c))%nat \/ timeout <= e0) ->
    exists used rest, tp = used ++ rest /\
    samples c = held_after t (fun y => rj_q P y * rj_scaling P) n (samples c)
                   (map (fun r => (rr_draw r, rr_u r)) used) /\
    (length (samples c) <= length (samples c) <= Nat.max n (length (samples c)))%nat /\
    (exists added, samples c = samples c ++ added) /\
    ((n <= length (samples c))%nat \/ timeout <= last (map rr_clock used) e0) /\
    model c = model c /\
    num_q_samples c = (num_q_samples c + length used * n)%nat /\
    num_q_evals c = (num_q_evals c + length used * n)%nat /\
    num_pi_evals c = (num_pi_evals c + length used * n)%nat).
  { intros tp e0 c H. exists [], tp. simpl. repeat split; auto; try lia.
    exists []; now rewrite app_nil_r. }
  induction tape as [|r tape IH]; intros e0 c c' HP; cbn [rej_loop];
    destruct (Qltb_spec e0 timeout) as [L|L];
    destruct (Nat.ltb_spec (length (samples c)) n) as [N|N]; cbn [andb]; intros H; try discriminate;
    try (injection H as <-; apply Stop; auto; right; lra).
  apply IH in H; auto. destruct H as (used & rest & -> & Hs & Hl & [a Ha] & Hc & Hm & H1 & H2 & H3).
  exists (r :: used), rest. split; [reflexivity|]. cbn [samples rej_iter] in *.
  rewrite accepted_kept in Hs by auto.
  rewrite app_length in Hl.
  pose proof (rej_accepted_le P t r (n - length (samples c))).
  split; [exact Hs|]. split; [lia|]. split.
  { exists (rej_accepted P t r (n - length (samples c)) ++ a). rewrite Ha. now rewrite app_assoc. }
  split.
  { destruct Hc as [|Hc]; [now left|right].
    replace (last (map rr_clock (r :: used)) e0) with (last (map rr_clock used) (rr_clock r)); auto.
    clear. simpl. destruct (map rr_clock used) as [|a l]; auto.
    revert a; induction l as [|b l IHl]; intros a; auto. simpl in *. apply IHl. }
  rewrite Hm, H1, H2, H3. cbn [model num_q_samples num_q_evals num_pi_evals rej_iter length]. repeat split; lia.
Qed.

(** Invariant of every reachable state. *)
Record rej_inv (c : core) : Prop := {
  ri_weights : length (weights c) = length (samples c);
  ri_evals : num_q_evals c = num_pi_evals c;
  ri_q : (num_pi_evals c <= num_q_samples c)%nat;
  ri_drawn : (length (ghost_drawn c) <= num_pi_evals c)%nat;
  ri_acc : (length (samples c) <= length (ghost_drawn c))%nat
}.

Lemma rej_iter_inv P t n c r :
  (length (samples c) < n)%nat -> rej_inv c -> rej_inv (rej_iter P t n c r).
Proof.
  intros N [H1 H2 H3 H4 H5].
  pose proof (rej_accepted_le P t r (n - length (samples c))).
  constructor; cbn [rej_iter samples weights num_q_samples num_q_evals num_pi_evals ghost_drawn];
    rewrite ?app_length, ?map_length, ?rej_drawn_length; lia.
Qed.

Lemma rej_loop_inv P t n timeout tape : forall e0 c,
  rej_inv c -> rej_inv (out_state (rej_loop P t n timeout tape e0 c)).
Proof.
  induction tape as [|r tape IH]; intros e0 c I; cbn [rej_loop];
    destruct (Qltb_spec e0 timeout) as [L|L];
    destruct (Nat.ltb_spec (length (samples c)) n) as [N|N]; cbn [andb out_state]; auto.
  apply IH, rej_iter_inv; auto.
Qed.

Lemma rej_finish_inv P pick c : rej_inv c -> rej_inv (out_state (rej_finish P pick c)).
Proof.
  intros [H1 H2 H3 H4 H5]. unfold rej_finish. cbn [samples].
  destruct (update_model _ _ _); cbn [out_state]; constructor; cbn; rewrite ?map_length; auto.
Qed.

Lemma rej_call_inv P t n timeout e0 tape pick c :
  rej_inv c -> rej_inv (out_state (rej_importance_sample P t n timeout e0 tape pick c)).
Proof.
  intros I. unfold rej_importance_sample.
  pose proof (rej_loop_inv P t n timeout tape e0 c I) as J.
  destruct (rej_loop _ _ _ _ _ _ _); auto. apply rej_finish_inv; auto.
Qed.

Lemma core_sample_inv k pick m c : rej_inv c -> rej_inv (out_state (core_sample k pick m c)).
Proof.
  intros [H1 H2 H3 H4 H5]. unfold core_sample.
  destruct (model c); [|destruct (update_model _ _ _)]; constructor; cbn; auto; lia.
Qed.

Lemma core_query_inv k pick c : rej_inv c -> rej_inv (out_state (core_query k pick c)).
Proof.
  intros [H1 H2 H3 H4 H5]. unfold core_query.
  destruct (model c); [|destruct (update_model _ _ _)]; constructor; cbn; auto; lia.
Qed.

Lemma rej_reachable_inv P c : rej_reachable P c -> rej_inv c.
Proof.
  induction 1 as [| c H IH | c pick m H IH | c pick H IH | c k c' H IH Hc].
  - constructor; simpl; auto.
  - constructor; simpl; auto.
  - now apply core_sample_inv.
  - now apply core_query_inv.
  - pose proof (rej_call_inv P (rc_target k) (rc_n k) (rc_timeout k) (rc_e0 k) (rc_tape k) (rc_pick k) c IH) as J.
    destruct Hc as [Hc|[e Hc]]; rewrite Hc in J; exact J.
Qed.

Lemma map_const_repeat {A B} (b : B) (l : list A) : map (fun _ => b) l = repeat b (length l).
Proof. induction l; simpl; f_equal; auto. Qed.

Lemma uniform_weights_sum n : (0 < n)%nat -> Qsum (repeat (1 / Qnat n) n) == 1.
Proof. intros H. rewrite Qsum_repeat. pose proof (Qnat_pos n H). field. lra. Qed.

Lemma rej_finish_done P pick c c' :
  rej_finish P pick c = Done c' ->
  samples c' = samples c /\ weights c' = repeat (1 / Qnat (length (weights c))) (length (weights c)) /\
  samples c <> [] /\ (0 < rj_kde P)%nat /\
  num_q_samples c' = num_q_samples c /\ num_q_evals c' = num_q_evals c /\ num_pi_evals c' = num_pi_evals c /\
  ghost_drawn c' = ghost_drawn c /\
  update_model (rj_kde P) pick (samples c) = Ok (match model c' with Some m => m | None => [] end).
Proof.
  unfold rej_finish. cbn [samples].
  destruct (update_model _ _ _) as [m|e] eqn:E; [|discriminate].
  intros H; injection H as <-. cbn. rewrite map_const_repeat. repeat split; auto.
  - intros Hs. rewrite Hs in E. unfold update_model in E. destruct (rj_kde P); discriminate.
  - unfold update_model in E. destruct (rj_kde P); [discriminate|lia].
Qed.

Lemma last_cons_in {A} (l : list A) a d : In (last (a :: l) d) (a :: l).
Proof.
  revert a; induction l as [|b l IH]; intros a; [simpl; auto|].
  change (last (a :: b :: l) d) with (last (b :: l) d). right. apply IH.
Qed.

Lemma rej_request P t n timeout e0 tape pick c c' :
  (forall x, 0 <= rj_q P x * rj_scaling P) ->
  rej_reachable P c ->
  rej_importance_sample P t n timeout e0 tape pick c = Done c' ->
  (exists added, samples c' = samples c ++ added) /\
  (length (samples c') <= Nat.max n (length (samples c)))%nat /\
  (e0 < timeout -> (forall r, In r tape -> rr_clock r < timeout) ->
     length (samples c') = Nat.max n (length (samples c))) /\
  weights c' = repeat (1 / Qnat (length (samples c'))) (length (samples c')) /\
  Qsum (weights c') == 1.
Proof.
  intros HP HR. apply rej_reachable_inv in HR. unfold rej_importance_sample.
  pose proof (rej_loop_inv P t n timeout tape e0 c HR) as J.
  destruct (rej_loop P t n timeout tape e0 c) as [c1|c1|e c1] eqn:E; try discriminate.
  apply rej_loop_spec in E; auto.
  destruct E as (used & rest & -> & _ & Hl & Ha & Hc & _).
  intros F. apply rej_finish_done in F. destruct F as (Fs & Fw & Fne & _).
  cbn [out_state] in J. destruct J as [J1 _ _ _ _].
  rewrite Fs. rewrite J1 in Fw. split; [exact Ha|]. split; [lia|]. split; [|split; auto].
  - intros He Hr. destruct Hc as [Hc|Hc]; [lia|exfalso].
    destruct used as [|r0 used]; simpl map in Hc; [simpl in Hc; lra|].
    pose proof (last_cons_in (map rr_clock used) (rr_clock r0) e0) as I.
    change (rr_clock r0 :: map rr_clock used) with (map rr_clock (r0 :: used)) in I.
    apply in_map_iff in I. destruct I as (r & Er & Ir).
    specialize (Hr r (in_or_app _ _ _ (or_introl Ir))).
    cbn [map] in Er. rewrite <- Er in Hc. lra.
  - rewrite Fw. apply uniform_weights_sum. destruct (samples c1); simpl; [congruence|lia].
Qed.

Lemma rej_terminates P t n timeout e0 tape pick c :
  (exists r, In r tape /\ timeout <= rr_clock r) ->
  forall c', rej_importance_sample P t n timeout e0 tape pick c <> Running c'.
Proof.
  intros H c'. unfold rej_importance_sample.
  assert (L : forall c1, rej_loop P t n timeout tape e0 c <> Running c1).
  { revert e0 c. destruct H as (r & Hr & Hc). revert r Hr Hc.
    induction tape as [|r0 tape IH]; intros r Hr Hc e0 c c1; [destruct Hr|].
    cbn [rej_loop]. destruct (_ && _); [|discriminate].
    destruct Hr as [->|Hr]; [|apply (IH r); auto].
    destruct tape; cbn [rej_loop]; (destruct (Qltb_spec (rr_clock r) timeout); [lra|]); cbn; discriminate. }
  destruct (rej_loop P t n timeout tape e0 c) as [c1|c1|e c1] eqn:E; try congruence.
  unfold rej_finish. cbn. destruct (update_model _ _ _); discriminate.
Qed.

Lemma rej_rule P t n timeout e0 tape pick c c' :
  (forall x, 0 <= rj_q P x * rj_scaling P) ->
  rej_importance_sample P t n timeout e0 tape pick c = Done c' ->
  exists used rest, tape = used ++ rest /\
    samples c' = held_after t (fun y => rj_q P y * rj_scaling P) n (samples c)
                   (map (fun r => (rr_draw r, rr_u r)) used).
Proof.
  intros HP. unfold rej_importance_sample.
  destruct (rej_loop P t n timeout tape e0 c) as [c1|c1|e c1] eqn:E; try discriminate.
  apply rej_loop_spec in E; auto. destruct E as (used & rest & Ht & Hs & _).
  intros F. apply rej_finish_done in F. destruct F as (Fs & _). exists used, rest. rewrite Fs; auto.
Qed.

(** No returned new point has zero target density. *)
Lemma held_after_in {X} (t env : X -> Q) n rounds : forall held x,
  In x (held_after t env n held rounds) ->
  In x held \/ exists d u i, In (d, u) rounds /\ x = d i /\ keeps t env (d i) (u i).
Proof.
  induction rounds as [|[d u] rs IH]; intros held x; cbn [held_after]; auto.
  intros H. apply IH in H. destruct H as [H|(d' & u' & i & Hi & Hx & Hk)].
  - apply in_app_or in H. destruct H as [H|H]; auto. right.
    unfold kept, offers in H. apply in_map_iff in H. destruct H as ((y & v) & <- & H).
    apply filter_In in H. destruct H as [H K]. apply in_map_iff in H. destruct H as (i & Hi & _).
    injection Hi as <- <-. exists d, u, i. split; [now left|]. split; [reflexivity|].
    simpl in *. unfold keeps, keepsb in *. apply negb_true_iff, Qle_bool_false in K. exact K.
  - right. exists d', u', i. split; [now right|]. auto.
Qed.

Lemma rej_positive P t n timeout e0 tape pick c c' :
  (forall x, 0 <= rj_q P x * rj_scaling P) ->
  (forall r i, In r tape -> 0 <= rr_u r i) ->
  rej_importance_sample P t n timeout e0 tape pick c = Done c' ->
  forall x, In x (samples c') -> In x (samples c) \/ 0 < t x.
Proof.
  intros HP HU H x Hx. apply rej_rule in H; auto. destruct H as (used & rest & -> & Hs).
  rewrite Hs in Hx. apply held_after_in in Hx. destruct Hx as [|(d & u & i & Hi & -> & Hk)]; auto.
  right. apply in_map_iff in Hi. destruct Hi as (r & Er & Hr). injection Er as <- <-.
  unfold keeps in Hk. specialize (HP (rr_draw r i)).
  specialize (HU r i (in_or_app _ _ _ (or_introl Hr))).
  pose proof (Qmult_le_0_compat _ _ HU HP). lra.
Qed.

Lemma rej_counters P c :
  rej_reachable P c ->
  num_q_evals c = num_pi_evals c /\ (num_pi_evals c <= num_q_samples c)%nat /\
  (length (ghost_drawn c) <= num_pi_evals c)%nat /\
  (length (samples c) <= length (ghost_drawn c))%nat.
Proof. intros H. apply rej_reachable_inv in H. destruct H; auto. Qed.

Lemma rej_acceptance P c a :
  rej_reachable P c -> get_acceptance_rate c = Ok a -> 0 < a <= 1.
Proof.
  intros H. apply rej_reachable_inv in H. destruct H as [_ _ H1 H2 H3]. unfold get_acceptance_rate.
  destruct (samples c) as [|x l] eqn:E; [discriminate|].
  destruct (num_q_samples c) as [|k] eqn:K; [discriminate|]. intros G; injection G as <-.
  assert (Q1 : 0 < Qnat (length (x :: l))) by (apply Qnat_pos; simpl; lia).
  assert (Q2 : 0 < Qnat (S k)) by (apply Qnat_pos; lia).
  split.
  - apply Qlt_shift_div_l; [exact Q2 | rewrite Qmult_0_l; exact Q1].
  - apply Qle_shift_div_r; auto. rewrite Qmult_1_l. apply Qnat_le. simpl in H3. lia.
Qed.

(** A call that ends with something held returns. *)
Lemma rej_returns P t n timeout e0 tape pick c :
  (forall x, 0 <= rj_q P x * rj_scaling P) ->
  (0 < rj_kde P)%nat ->
  (samples c <> [] \/
   (exists r i, head tape = Some r /\ e0 < timeout /\ (i < n - length (samples c))%nat /\
        keeps t (fun y => rj_q P y * rj_scaling P) (rr_draw r i) (rr_u r i))) ->
  forall e c', rej_importance_sample P t n timeout e0 tape pick c <> Failed e c'.
Proof.
  intros HP HK H e c'. unfold rej_importance_sample.
  destruct (rej_loop P t n timeout tape e0 c) as [c1|c1|e1 c1] eqn:E; try discriminate.
  - assert (N : samples c1 <> []).
    { destruct H as [H|(r & i & Hh & He & Hi & Hk)].
      - apply rej_loop_spec in E; auto. destruct E as (u & rs & _ & _ & Hl & _).
        destruct (samples c); [congruence|]. destruct (samples c1); simpl in Hl; [lia|discriminate].
      - destruct tape as [|r0 tape]; [discriminate|]. injection Hh as ->.
        cbn [rej_loop] in E. destruct (Qltb_spec e0 timeout); [|lra].
        destruct (Nat.ltb_spec (length (samples c)) n); [|lia]. cbn [andb] in E.
        apply rej_loop_spec in E; auto. destruct E as (u & rs & _ & _ & Hl & _).
        intros Z. rewrite Z in Hl. cbn [rej_iter samples] in Hl. rewrite app_length in Hl. simpl in Hl.
        assert (A : rej_accepted P t r (n - length (samples c)) = []).
        { destruct (rej_accepted _ _ _ _); auto. simpl in Hl. lia. }
        rewrite accepted_kept in A by auto. unfold kept in A. apply map_eq_nil in A.
        assert (G : In (rr_draw r i, rr_u r i)
          (filter (fun xu => keepsb t (fun y => rj_q P y * rj_scaling P) (fst xu) (snd xu))
             (offers (rr_draw r) (rr_u r) (n - length (samples c))))).
        { apply filter_In. split.
          - unfold offers. apply in_map_iff. exists i. split; auto. apply in_seq. lia.
          - simpl. unfold keepsb. apply negb_true_iff, Qle_bool_false. exact Hk. }
        rewrite A in G. destruct G. }
    unfold rej_finish. cbn [samples]. unfold update_model.
    destruct (rj_kde P); [lia|]. destruct (samples c1); [congruence|]. discriminate.
  - exfalso. clear -E. revert e0 c E. induction tape as [|r tape IH]; intros e0 c; cbn [rej_loop];
      destruct (_ && _); try discriminate. apply IH.
Qed.

(** Exact cost of one call. *)
Lemma rej_counter_law P t n timeout e0 tape pick c c' :
  (forall x, 0 <= rj_q P x * rj_scaling P) ->
  rej_importance_sample P t n timeout e0 tape pick c = Done c' ->
  exists used rest, tape = used ++ rest /\
    samples c' = held_after t (fun y => rj_q P y * rj_scaling P) n (samples c)
                   (map (fun r => (rr_draw r, rr_u r)) used) /\
    num_q_samples c' = (num_q_samples c + length used * n)%nat /\
    num_q_evals c' = (num_q_evals c + length used * n)%nat /\
    num_pi_evals c' = (num_pi_evals c + length used * n)%nat.
Proof.
  intros HP. unfold rej_importance_sample.
  destruct (rej_loop P t n timeout tape e0 c) as [c1|c1|e c1] eqn:E; try discriminate.
  apply rej_loop_spec in E; auto. destruct E as (used & rest & Ht & Hs & _ & _ & _ & _ & H1 & H2 & H3).
  intros F. apply rej_finish_done in F. destruct F as (Fs & _ & _ & _ & F1 & F2 & F3 & _).
  exists used, rest. rewrite Fs, F1, F2, F3; auto.
Qed.
