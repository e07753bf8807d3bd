(** C123: estimates from the samples of nested sampling. *)
From Coquelicot Require Import Coquelicot.
From Coq Require Import List Bool Arith Lia QArith Reals Qreals Lqa Lra.
Import ListNotations.
From Verif Require Import Prelude.Py Prelude.QBase Prelude.RBase Model.Base.
From Verif Require Import Model.Nested.
From Verif Require Import Spec.Box Spec.FlatSpec Spec.NestedSpec Spec.EstimateSpec.
From Verif Require Import Proofs.NestedProofs Proofs.NestedHistory Proofs.NestedWeights Proofs.NestedEstimate Proofs.FlatNested.
Open Scope R_scope.

Lemma many_L P pi timeout tape G m a b : many (one P pi timeout tape G) m a b -> exists added, ns_L b = (ns_L a ++ added)%list.
Proof.
  induction 1 as [a|m a b c O M (l & E)]; [exists []; now rewrite app_nil_r|].
  destruct O as (ev & g & cd & big & k & y & seen & _ & _ & _ & SF). rewrite E, (sf_L _ _ _ _ _ _ _ _ _ _ _ _ SF), <- app_assoc. eauto.
Qed.
Lemma call_L P us ops s pi n timeout tape pick s' : start_ok P us -> Forall (ns_op_ok P) ops -> nested_reachable P us ops s ->
  nested_call P pi n timeout tape pick s = Done s' -> exists added, ns_L s' = (ns_L s ++ added)%list.
Proof.
  intros S0 OK R E. destruct (booked_reachable P us S0 ops s OK R) as (_ & LS).
  assert (NE : ns_live s <> []). { destruct S0 as (_ & S1 & _). destruct (ns_live s); simpl in *; [lia|discriminate]. }
  destruct (nested_call_done P pi n timeout tape pick s (Done s') NE E) as (s1 & M & SD & _); [discriminate|].
  destruct (many_L _ _ _ _ _ _ _ _ M) as (l & EL). simpl in SD. destruct SD as (_ & _ & _ & EE & _). exists l. rewrite EE, EL. reflexivity.
Qed.
Definition L_const (c : Q) (s : nst) : Prop := Forall (fun l => (l == c)%Q) (ns_L s).
Lemma L_const_reachable P us c : start_ok P us -> forall ops s, Forall (ns_op_ok P) ops ->
  Forall (ns_target (fun pi => forall x, (pi x == c)%Q)) ops -> nested_reachable P us ops s -> L_const c s.
Proof.
  intros S0 ops s OK KK R. apply (history_inv P us (L_const c) (ns_target (fun pi => forall x, (pi x == c)%Q))) with (ops := ops); auto.
  - intros; constructor.
  - intros a b (_ & _ & _ & E & _). unfold L_const. now rewrite E.
  - intros pi n timeout tape pick H _ a b _ F (ev & g & cd & big & k & y & seen & _ & _ & _ & SF). unfold L_const. rewrite (sf_L _ _ _ _ _ _ _ _ _ _ _ _ SF).
    apply Forall_app. split; auto.
Qed.

(** C123: the weight of the very first sample has a lower bound that does not depend on the number of samples: the first recorded likelihood
    against its sum with the largest one. *)
Theorem C123_first_weight :
  forall P us ops s l b, start_ok P us -> Forall (ns_op_ok P) ops -> nested_reachable P us ops s -> nth_error (ns_L s) 0 = Some l -> (0 < l)%Q ->
  Forall (fun x => (0 <= x <= b)%Q) (ns_L s) ->
  exists ws, nested_weights (ns_N P) (map Q2R (ns_L s)) = map Fin ws /\ length ws = length (ns_samples s) /\ Forall (fun w => 0 <= w) ws /\ Rsum ws = 1 /\
    Q2R l / (Q2R l + Q2R b) <= nth 0 ws 0.
Proof.
  intros P us ops s l b S0 OK R E Hl F. destruct (booked_reachable P us S0 ops s OK R) as ((BL & _) & _). destruct S0 as (_ & HN & _).
  destruct (ns_L s) as [|x L]; [discriminate|]. injection E as ->. inversion F as [|? ? F1 F2]; subst. rewrite <- BL.
  destruct (first_weight (ns_N P) (Q2R l) (map Q2R L) (Q2R b) HN) as (ws & A & B & C).
  - replace 0 with (Q2R 0) by apply RMicromega.Q2R_0. now apply Qlt_Rlt.
  - apply Qle_Rle, F1.
  - rewrite Forall_map. eapply Forall_impl; [|exact F2]. simpl. intros x (X1 & X2). split; [|now apply Qle_Rle].
    replace 0 with (Q2R 0) by apply RMicromega.Q2R_0. now apply Qle_Rle.
  - exists ws. rewrite map_length in B. simpl. auto.
Qed.
Print Assumptions C123_first_weight.

(** C123, what holds: estimates settle. Sampling on changes the estimate of a function bounded by B by at most 2 B (b / a) exp(- (m - 1) / N) after m
    samples with N live points, likelihoods between a and b: samples beyond a few multiples of N hardly count. *)
Theorem C123_settles_partial :
  forall P us ops s pi n timeout tape pick s' (a b : Q) (f : vec -> R) B, start_ok P us -> Forall (ns_op_ok P) ops -> nested_reachable P us ops s ->
  nested_call P pi n timeout tape pick s = Done s' -> ns_samples s <> [] -> (0 < a)%Q -> Forall (fun l => (a <= l <= b)%Q) (ns_L s') ->
  (forall x, Rabs (f x) <= B) ->
  exists ws ws', nested_weights (ns_N P) (map Q2R (ns_L s)) = map Fin ws /\ nested_weights (ns_N P) (map Q2R (ns_L s')) = map Fin ws' /\
    Rabs (weighted_mean f ws' (ns_samples s') - weighted_mean f ws (ns_samples s)) <=
      2 * B * (Q2R b / Q2R a) * exp (- (INR (length (ns_samples s) - 1) / INR (ns_N P))).
Proof.
  intros P us ops s pi n timeout tape pick s' a b f B S0 OK R E NE Ha F Hf. destruct (booked_reachable P us S0 ops s OK R) as ((BL & _) & _).
  destruct (call_L P us ops s pi n timeout tape pick s' S0 OK R E) as (M & EM).
  destruct (nested_request P us S0 ops s OK R _ _ _ _ _ _ E) as (_ & (ys & EY) & _). rewrite EM in F |- *. rewrite map_app, EY.
  destruct S0 as (_ & HN & _).
  destruct (settles f B (ns_N P) (Q2R a) (Q2R b) (map Q2R (ns_L s)) (map Q2R M) (ns_samples s) ys HN) as (ws & vs & A1 & A2 & A3); auto.
  - replace 0 with (Q2R 0) by apply RMicromega.Q2R_0. now apply Qlt_Rlt.
  - specialize (Hf []). pose proof (Rabs_pos (f [])). Lra.lra.
  - rewrite <- map_app, Forall_map. eapply Forall_impl; [|exact F]. simpl. intros x (X1 & X2). split; now apply Qle_Rle.
  - intros H. apply map_eq_nil in H. rewrite H in BL. destruct (ns_samples s); [congruence|discriminate].
  - now rewrite map_length.
  - exists ws, vs. split; auto. split; auto. rewrite map_length, BL in A3. exact A3.
Qed.
Print Assumptions C123_settles_partial.

(** On constant targets the first sample has at least half of the weight, so the estimate of a non-negative function is at least half of its value
    there, whatever comes later. *)
Lemma flat_half P us ops s c x0 xs (f : vec -> R) : start_ok P us -> Forall (ns_op_ok P) ops -> Forall (ns_target (fun pi => forall x, (pi x == c)%Q)) ops ->
  nested_reachable P us ops s -> (0 < c)%Q -> ns_samples s = x0 :: xs -> (forall x, 0 <= f x) ->
  exists ws, nested_weights (ns_N P) (map Q2R (ns_L s)) = map Fin ws /\ Rsum ws = 1 /\ f x0 / 2 <= weighted_mean f ws (ns_samples s).
Proof.
  intros S0 OK KK R Hc ES Hf. pose proof (L_const_reachable P us c S0 ops s OK KK R) as LC. destruct (booked_reachable P us S0 ops s OK R) as ((BL & _) & _).
  unfold L_const in LC. destruct (ns_L s) as [|l L] eqn:EL; [rewrite ES in BL; discriminate|].
  assert (Hl : (l == c)%Q) by (inversion LC; auto).
  destruct (C123_first_weight P us ops s l l S0 OK R) as (ws & A & B & C & D & E).
  - now rewrite EL.
  - now rewrite Hl.
  - rewrite EL. eapply Forall_impl; [|exact LC]. simpl. intros x Hx. rewrite Hx, Hl. split; Lqa.lra.
  - exists ws. rewrite <- EL. split; auto. split; auto. rewrite ES in B |- *. destruct ws as [|w ws]; [discriminate|]. simpl in E |- *.
    assert (0 < Q2R l). { replace 0 with (Q2R 0) by apply RMicromega.Q2R_0. apply Qlt_Rlt. now rewrite Hl. }
    replace (Q2R l / (Q2R l + Q2R l)) with (/ 2) in E by (field; Lra.lra). inversion C; subst.
    pose proof (weighted_mean_nonneg f ws xs Hf ltac:(assumption)). specialize (Hf x0). Lra.nra.
Qed.

Lemma mean_of_squares : RInt (fun x => x ^ 2) 0 1 = / 3.
Proof.
  apply is_RInt_unique. replace (/ 3) with (minus (1 ^ 3 / 3) (0 ^ 3 / 3)) by (unfold minus, plus, opp; simpl; field).
  apply (is_RInt_derive (fun x => x ^ 3 / 3)).
  - intros x _. auto_derive; auto. field.
  - intros x _. apply (ex_derive_continuous (fun x => x ^ 2)). auto_derive; auto.
Qed.

Definition unit_P : ns_params := mkNsP [0%Q] [1%Q] 1 3 0.
Definition unit_us : list vec := [[1 # 4]; [1 # 2]; [3 # 4]]%Q.
Definition first_call : ns_op := NsCall (fun _ => 1%Q) 1 1 [mkRepl 0 [1%Q] []] (fun _ => 0%nat).
Definition unit_s1 : nst := out_state (nested_run unit_P first_call (ns_new unit_P unit_us)).
Definition square (x : vec) : R := Q2R (nth 0 x 0%Q) ^ 2.
Lemma unit_start : start_ok unit_P unit_us.
Proof. repeat split; simpl; auto. repeat constructor; simpl; Lqa.lra. Qed.
Lemma first_ok : ns_op_ok unit_P first_call.
Proof. constructor; [|constructor]. split; [reflexivity|constructor]. Qed.
Lemma unit_reach : nested_reachable unit_P unit_us [first_call] unit_s1.
Proof. eapply nested_next; [constructor|]. left. vm_compute. reflexivity. Qed.
Lemma unit_first : exists x, ns_samples unit_s1 = [x] /\ square x = 1.
Proof. eexists. split; [vm_compute; reflexivity|]. unfold square. cbn [nth]. unfold Q2R. simpl. field. Qed.

Definition more_call (n : nat) : ns_op := NsCall (fun _ => 1%Q) n 1 (repeat (mkRepl 1 [1 # 8]%Q []) n) (fun _ => 0%nat).
Lemma more_ok n : ns_op_ok unit_P (more_call n).
Proof. apply Forall_forall. intros r Hr. apply repeat_spec in Hr. subst r. split; [reflexivity|constructor]. Qed.
Lemma more_done n : (1 <= n)%nat -> exists s, nested_run unit_P (more_call n) unit_s1 = Done s.
Proof.
  intros Hn. assert (B : is_box (ns_lo unit_P) (ns_hi unit_P)) by (simpl; repeat split; Lqa.lra).
  assert (FN : flat (ns_lo unit_P) (ns_hi unit_P) 1%Q (fun _ => 1%Q)) by (intros x _; reflexivity).
  destruct (flat_reach unit_P unit_us 2 B unit_start eq_refl [first_call] unit_s1) as (I & _).
  { constructor; [apply first_ok|constructor]. } { constructor; [exists 1%Q; exact FN|constructor]. } { apply unit_reach. }
  pose proof (flat_call unit_P B 2 (fun _ => 1%Q) 1%Q n 1%Q (repeat (mkRepl 1 [1 # 8]%Q []) n) (fun _ => 0%nat) unit_s1 FN (more_ok n) I) as (_ & _ & _ & A3).
  rewrite repeat_length in A3. specialize (A3 ltac:(lia)).
  change (nested_run unit_P (more_call n) unit_s1) with (nested_call unit_P (fun _ => 1%Q) n 1%Q (repeat (mkRepl 1 [1 # 8]%Q []) n) (fun _ => 0%nat) unit_s1).
  destruct (nested_call unit_P (fun _ => 1%Q) n 1%Q (repeat (mkRepl 1 [1 # 8]%Q []) n) (fun _ => 0%nat) unit_s1) as [s'|s'|e s'] eqn:E; [eauto|exfalso; apply (A3 s'); auto|].
  exfalso. destruct (nested_fails unit_P unit_us unit_start ltac:(simpl; lia) [first_call] unit_s1 ltac:(constructor; [apply first_ok|constructor]) unit_reach _ _ _ _ _ _ _ E) as (_ & X & _). lia.
Qed.

(** C123 (full statement: the estimates tend to the mean under the target) is false. On the uniform density of [0, 1], where squares have the
    mean 1/3, there are runs of every length whose estimate is at least 1/2; in every run on a constant target the estimate of a non-negative
    function stays above half of its value at the first sample. *)
Theorem C123_converges_refuted :
  (forall P us ops s c x0 xs (f : vec -> R), start_ok P us -> Forall (ns_op_ok P) ops -> Forall (ns_target (fun pi => forall x, (pi x == c)%Q)) ops ->
     nested_reachable P us ops s -> (0 < c)%Q -> ns_samples s = x0 :: xs -> (forall x, 0 <= f x) ->
     exists ws, nested_weights (ns_N P) (map Q2R (ns_L s)) = map Fin ws /\ f x0 / 2 <= weighted_mean f ws (ns_samples s)) /\
  RInt (fun x => x ^ 2) 0 1 = / 3 /\
  exists P us, start_ok P us /\ ns_lo P = [0%Q] /\ ns_hi P = [1%Q] /\
  forall n, (1 <= n)%nat -> exists ops s ws, Forall (ns_op_ok P) ops /\ Forall (ns_target (fun pi => forall x, pi x = 1%Q)) ops /\ nested_reachable P us ops s /\
    length (ns_samples s) = n /\ nested_weights (ns_N P) (map Q2R (ns_L s)) = map Fin ws /\
    / 2 <= weighted_mean (fun x => Q2R (nth 0 x 0%Q) ^ 2) ws (ns_samples s).
Proof.
  split; [|split; [apply mean_of_squares|]].
  - intros P us ops s c x0 xs f S0 OK KK R Hc ES Hf. destruct (flat_half P us ops s c x0 xs f S0 OK KK R Hc ES Hf) as (ws & A & _ & B). eauto.
  - exists unit_P, unit_us. split; [apply unit_start|]. split; [reflexivity|]. split; [reflexivity|]. intros n Hn.
    destruct (more_done n Hn) as (s & E). destruct unit_first as (x0 & E0 & Q0).
    assert (OK : Forall (ns_op_ok unit_P) [more_call n; first_call]). { constructor; [apply more_ok|]. constructor; [apply first_ok|constructor]. }
    assert (R : nested_reachable unit_P unit_us [more_call n; first_call] s) by (eapply nested_next; [apply unit_reach|left; exact E]).
    destruct (nested_request unit_P unit_us unit_start [first_call] unit_s1 ltac:(constructor; [apply first_ok|constructor]) unit_reach _ _ _ _ _ _ E) as (X & (added & Y) & _).
    rewrite E0 in X, Y. simpl in X.
    destruct (flat_half unit_P unit_us [more_call n; first_call] s 1%Q x0 added square unit_start OK) as (ws & A & _ & B); auto.
    + repeat constructor.
    + reflexivity.
    + intros x. unfold square. apply pow2_ge_0.
    + exists [more_call n; first_call], s, ws. split; auto. split; [repeat constructor|]. split; auto. split; [lia|]. split; auto. rewrite Q0 in B. unfold square in B.
      replace (1 / 2) with (/ 2) in B by field. exact B.
Qed.
Print Assumptions C123_converges_refuted.

Example C123_first_weight_example :
  start_ok unit_P unit_us /\ nested_reachable unit_P unit_us [first_call] unit_s1 /\ nth_error (ns_L unit_s1) 0 = Some 1%Q /\ Forall (fun x => (0 <= x <= 3)%Q) (ns_L unit_s1).
Proof.
  split; [apply unit_start|]. split; [apply unit_reach|]. split; [vm_compute; reflexivity|].
  replace (ns_L unit_s1) with [1%Q] by (vm_compute; reflexivity). constructor; [split; Lqa.lra|constructor].
Qed.
Lemma more_facts n : (1 <= n)%nat -> exists s', nested_run unit_P (more_call n) unit_s1 = Done s' /\ Forall (fun l => (1 <= l <= 1)%Q) (ns_L s') /\ length (ns_samples s') = n.
Proof.
  intros Hn. destruct (more_done n Hn) as (s & E). exists s. split; auto.
  assert (OK : Forall (ns_op_ok unit_P) [more_call n; first_call]). { constructor; [apply more_ok|]. constructor; [apply first_ok|constructor]. }
  split.
  - pose proof (L_const_reachable unit_P unit_us 1%Q unit_start [more_call n; first_call] s OK ltac:(repeat constructor) ltac:(eapply nested_next; [apply unit_reach|left; exact E])) as LC.
    eapply Forall_impl; [|exact LC]. simpl. intros x Hx. rewrite Hx. split; Lqa.lra.
  - destruct (nested_request unit_P unit_us unit_start [first_call] unit_s1 ltac:(constructor; [apply first_ok|constructor]) unit_reach _ _ _ _ _ _ E) as (X & _).
    destruct unit_first as (x0 & E0 & _). rewrite E0 in X. simpl in X. lia.
Qed.
Example C123_settles_partial_example :
  ns_samples unit_s1 <> [] /\ exists s', nested_run unit_P (more_call 5) unit_s1 = Done s' /\ Forall (fun l => (1 <= l <= 1)%Q) (ns_L s') /\ length (ns_samples s') = 5%nat.
Proof.
  split; [destruct unit_first as (x & -> & _); discriminate|]. apply more_facts. lia.
Qed.
