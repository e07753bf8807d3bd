(** Property C95. *)
From Coq Require Import List Bool Arith Lia QArith Qabs Lqa.
Import ListNotations.
From Verif Require Import Prelude.Py Prelude.QBase Prelude.QFacts Model.Base Model.Mixture Model.Population Model.PopulationLaw
  Spec.Box Spec.PopulationSpec Spec.UnbiasedSpec Spec.DrawSpec Proofs.PopulationProofs Proofs.PopulationHistory Proofs.PopulationUnbiased
  Proofs.PopulationError Properties.PopulationUnbiasedProps.
From Verif Require Proofs.IndepLaw.
Open Scope Q_scope.

Definition dm_ok (s0 : pop) (pts : list vec) (s : pop) : Prop := forall m, In m (pop_means s) -> In m (pop_means s0) \/ In m pts.
Lemma dm_step P pi pts (rest : nat -> list vec -> pop_round) s0 : pop_params_ok P -> (forall x, 0 < pi x) -> (forall i xs, round_ok P (rest i xs)) ->
  forall s i xs, dm_ok s0 pts s -> regular P s -> pop_draws P (pop_means s) (rest i xs) = xs -> (forall x, In x xs -> In x pts) ->
  dm_ok s0 pts (out_state (pop_iter DM P pi (rest i xs) s)).
Proof.
  intros (_ & N & K & C) Pi Ro s i xs O (A & B & L) D Hp. assert (Pi0 : forall x, 0 <= pi x) by (intros x; specialize (Pi x); lra).
  destruct (iter_live DM P pi C K Pi0 (or_intror Pi) (rest i xs) s B) as (s' & E). rewrite E. simpl.
  pose proof (dm_iter_means P pi (rest i xs) s s' C B K Pi0 (proj1 (Ro i xs)) E) as F. rewrite D in F. rewrite Forall_forall in F.
  intros m M. right. destruct (F m M) as (j & w & J & _). apply Hp. eapply nth_error_In; eauto.
Qed.
Lemma turns_enough n c : (0 < c)%nat -> (n <= (n + c - 1) / c * c)%nat.
Proof. intros H. pose proof (Nat.div_mod (n + c - 1) c ltac:(lia)). pose proof (Nat.mod_upper_bound (n + c - 1) c ltac:(lia)). nia. Qed.

(** C95 for layered AIS. After any history, the sum of weight times f that one call adds, divided by the number of samples it
    adds, is an estimate of the integral of target times f. Its mean square error is at most W times the integral of target
    times f squared over that number of samples, however the chains move the proposals, when the target is at most W times
    every proposal centred in the box. *)
Theorem C95_lais_integral :
  forall P us ops s, pop_params_ok P -> us_ok P us -> Forall (fun e => pop_op_ok P (fst e)) ops -> pop_reachable LAIS P us ops s ->
  forall pi f v W pts rest n timeout t, (forall x, 0 <= pi x) -> 0 <= v -> (forall m, integral v pts (pp_comp P m) == 1) ->
  (forall m x, in_box (pp_lo P) (pp_hi P) m -> In x pts -> pi x <= W * pp_comp P m x) ->
  (forall i xs j l, (j < pp_N P)%nat -> (l < pp_K P)%nat -> pr_draw (rest i xs) j l = nth (j * pp_K P + l) xs []) ->
  (forall (i : nat) (xs : list vec), round_ok P (rest i xs)) -> 0 < timeout -> (forall i xs, pr_clock (rest i xs) < timeout) ->
  let c := (pp_N P * pp_K P)%nat in let turns := ((n - length (pop_samples s) + c - 1) / c)%nat in (turns <= t)%nat -> (0 < turns)%nat ->
  let after tape := out_state (pop_call LAIS P pi n timeout tape s) in
  let T := Qnat (turns * c) in
  expect_turns LAIS P pi v pts rest t s (fun tape =>
    sq ((weighted_total f (pop_samples (after tape)) (pop_weights (after tape)) - weighted_total f (pop_samples s) (pop_weights s)) / T
        - integral v pts (fun x => pi x * f x)))
  <= W * integral v pts (fun x => pi x * sq (f x)) / T.
Proof.
  intros P us ops s A B C D pi f v W pts rest n timeout t Pi V I Cov R Ro Ht Cl c turns Hb Hp after T.
  apply (call_error LAIS P pi f v W pts rest (means_in P) A V Pi (or_introl eq_refl) I R); auto.
  - intros s0 O m x M X. apply Cov; auto. unfold means_in in O. rewrite Forall_forall in O. auto.
  - intros s0 i xs O _ _ _. apply means_in_iter; auto. apply A.
  - eapply reachable_regular; eauto.
  - apply (means_in_reachable P us ops s (PopSample 0) (proj1 A) B C); simpl; auto.
Qed.
Print Assumptions C95_lais_integral.

(** C95 for layered AIS with no stored samples (fresh or reset): the chance that the returned samples and weights miss the
    expectation of f under the normalised target by more than eps is at most 4 W / (T Z) * (1 + variance of f / eps^2), where
    T is the number of samples and Z the integral of the target. T is at least the number of samples asked for, so the estimates
    converge as more are asked for. *)
Theorem C95_lais_estimate :
  forall P us ops s, pop_params_ok P -> us_ok P us -> Forall (fun e => pop_op_ok P (fst e)) ops -> pop_reachable LAIS P us ops s ->
  pop_samples s = [] ->
  forall pi f v W pts rest n timeout t eps, (forall x, 0 <= pi x) -> 0 <= v -> (forall m, integral v pts (pp_comp P m) == 1) ->
  (forall m x, in_box (pp_lo P) (pp_hi P) m -> In x pts -> pi x <= W * pp_comp P m x) ->
  (forall i xs j l, (j < pp_N P)%nat -> (l < pp_K P)%nat -> pr_draw (rest i xs) j l = nth (j * pp_K P + l) xs []) ->
  (forall (i : nat) (xs : list vec), round_ok P (rest i xs)) -> 0 < timeout -> (forall i xs, pr_clock (rest i xs) < timeout) ->
  0 < eps -> (0 < n)%nat ->
  let c := (pp_N P * pp_K P)%nat in let turns := ((n + c - 1) / c)%nat in (turns <= t)%nat ->
  let after tape := out_state (pop_call LAIS P pi n timeout tape s) in
  let T := Qnat (turns * c) in let Z := integral v pts pi in let m := integral v pts (fun x => pi x * f x) / Z in 0 < Z ->
  (n <= turns * c)%nat /\
  expect_turns LAIS P pi v pts rest t s (fun tape => missed f m eps (pop_samples (after tape)) (pop_returned (after tape)))
  <= 4 * W / (T * Z) * (1 + integral v pts (fun x => pi x * sq (f x - m)) / Z / sq eps).
Proof.
  intros P us ops s A B C D Em pi f v W pts rest n timeout t eps Pi V I Cov R Ro Ht Cl He Hn c turns Hb after T Z m Hz.
  split; [apply turns_enough; unfold c; destruct A as (_ & N & K & _); nia|].
  apply (call_estimate LAIS P pi f v W pts rest (means_in P) A V Pi (or_introl eq_refl) I R); auto.
  - intros s0 O m0 x M X. apply Cov; auto. unfold means_in in O. rewrite Forall_forall in O. auto.
  - intros s0 i xs O _ _ _. apply means_in_iter; auto. apply A.
  - eapply reachable_regular; eauto.
  - eapply good_reachable; eauto.
  - apply (means_in_reachable P us ops s (PopSample 0) (proj1 A) B C); simpl; auto.
Qed.
Print Assumptions C95_lais_estimate.

(** C95 for deterministic mixture AIS, when the target is positive everywhere. Its proposals move to earlier samples, so the
    target must be covered by the proposals in force and by those centred at the points that can be drawn. Full statement: as
    [C95_lais_integral], for targets that may vanish. *)
Theorem C95_dm_integral_partial :
  forall P us ops s, pop_params_ok P -> us_ok P us -> Forall (fun e => pop_op_ok P (fst e)) ops -> pop_reachable DM P us ops s ->
  forall pi f v W pts rest n timeout t, (forall x, 0 < pi x) -> 0 <= v -> (forall m, integral v pts (pp_comp P m) == 1) ->
  (forall m x, In m (pop_means s) \/ In m pts -> In x pts -> pi x <= W * pp_comp P m x) ->
  (forall i xs j l, (j < pp_N P)%nat -> (l < pp_K P)%nat -> pr_draw (rest i xs) j l = nth (j * pp_K P + l) xs []) ->
  (forall (i : nat) (xs : list vec), round_ok P (rest i xs)) -> 0 < timeout -> (forall i xs, pr_clock (rest i xs) < timeout) ->
  let c := (pp_N P * pp_K P)%nat in let turns := ((n - length (pop_samples s) + c - 1) / c)%nat in (turns <= t)%nat -> (0 < turns)%nat ->
  let after tape := out_state (pop_call DM P pi n timeout tape s) in
  let T := Qnat (turns * c) in
  expect_turns DM P pi v pts rest t s (fun tape =>
    sq ((weighted_total f (pop_samples (after tape)) (pop_weights (after tape)) - weighted_total f (pop_samples s) (pop_weights s)) / T
        - integral v pts (fun x => pi x * f x)))
  <= W * integral v pts (fun x => pi x * sq (f x)) / T.
Proof.
  intros P us ops s A B C D pi f v W pts rest n timeout t Pi V I Cov R Ro Ht Cl c turns Hb Hp after T.
  assert (Pi0 : forall x, 0 <= pi x) by (intros x; specialize (Pi x); lra).
  apply (call_error DM P pi f v W pts rest (dm_ok s pts) A V Pi0 (or_intror Pi) I R); auto.
  - intros; apply dm_step; auto.
  - eapply reachable_regular; eauto.
  - intros m M. auto.
Qed.
Print Assumptions C95_dm_integral_partial.

(** Full statement: as [C95_lais_estimate], for targets that may vanish. *)
Theorem C95_dm_estimate_partial :
  forall P us ops s, pop_params_ok P -> us_ok P us -> Forall (fun e => pop_op_ok P (fst e)) ops -> pop_reachable DM P us ops s ->
  pop_samples s = [] ->
  forall pi f v W pts rest n timeout t eps, (forall x, 0 < pi x) -> 0 <= v -> (forall m, integral v pts (pp_comp P m) == 1) ->
  (forall m x, In m (pop_means s) \/ In m pts -> In x pts -> pi x <= W * pp_comp P m x) ->
  (forall i xs j l, (j < pp_N P)%nat -> (l < pp_K P)%nat -> pr_draw (rest i xs) j l = nth (j * pp_K P + l) xs []) ->
  (forall (i : nat) (xs : list vec), round_ok P (rest i xs)) -> 0 < timeout -> (forall i xs, pr_clock (rest i xs) < timeout) ->
  0 < eps -> (0 < n)%nat ->
  let c := (pp_N P * pp_K P)%nat in let turns := ((n + c - 1) / c)%nat in (turns <= t)%nat ->
  let after tape := out_state (pop_call DM P pi n timeout tape s) in
  let T := Qnat (turns * c) in let Z := integral v pts pi in let m := integral v pts (fun x => pi x * f x) / Z in 0 < Z ->
  (n <= turns * c)%nat /\
  expect_turns DM P pi v pts rest t s (fun tape => missed f m eps (pop_samples (after tape)) (pop_returned (after tape)))
  <= 4 * W / (T * Z) * (1 + integral v pts (fun x => pi x * sq (f x - m)) / Z / sq eps).
Proof.
  intros P us ops s A B C D Em pi f v W pts rest n timeout t eps Pi V I Cov R Ro Ht Cl He Hn c turns Hb after T Z m Hz.
  assert (Pi0 : forall x, 0 <= pi x) by (intros x; specialize (Pi x); lra).
  split; [apply turns_enough; unfold c; destruct A as (_ & N & K & _); nia|].
  apply (call_estimate DM P pi f v W pts rest (dm_ok s pts) A V Pi0 (or_intror Pi) I R); auto.
  - intros; apply dm_step; auto.
  - eapply reachable_regular; eauto.
  - eapply good_reachable; eauto.
  - intros m0 M. auto.
Qed.
Print Assumptions C95_dm_estimate_partial.

Lemma ucover m x : In x upts -> upi x <= 24 * ucomp m x.
Proof. intros _. unfold upi, ucomp. destruct (Qle_bool (nth 0 x 0) 2), (Bool.eqb _ _); lra. Qed.
Lemma uround_ok i xs : round_ok upop (uround i xs).
Proof. split; intros; simpl; repeat split; lra. Qed.

Example C95_lais_integral_example :
  pop_reachable LAIS upop [[1 # 4]; [3 # 4]] [] u0 /\ (forall i xs, round_ok upop (uround i xs)) /\
  (forall m x, in_box (pp_lo upop) (pp_hi upop) m -> In x upts -> upi x <= 24 * pp_comp upop m x) /\
  let after tape := out_state (pop_call LAIS upop upi 3 1 tape u0) in
  let e := expect_turns LAIS upop upi 2 upts uround 2 u0 (fun tape =>
    sq (weighted_total (fun _ => 1) (pop_samples (after tape)) (pop_weights (after tape)) / 4 - integral 2 upts (fun x => upi x * 1))) in
  0 < e /\ e <= 24 * integral 2 upts (fun x => upi x * sq 1) / 4.
Proof.
  split; [apply pop_init|]. split; [apply uround_ok|]. split; [intros m x _; apply ucover|]. vm_compute. split; [reflexivity|discriminate].
Qed.
Example C95_lais_estimate_example :
  pop_samples u0 = [] /\ 0 < integral 2 upts upi /\ integral 2 upts (fun x => upi x * nth 0 x 0) / integral 2 upts upi == 3 # 2 /\
  let after tape := out_state (pop_call LAIS upop upi 3 1 tape u0) in
  let chance := expect_turns LAIS upop upi 2 upts uround 2 u0 (fun tape =>
    missed (fun x => nth 0 x 0) (3 # 2) (1 # 4) (pop_samples (after tape)) (pop_returned (after tape))) in
  0 < chance /\ chance < 1.
Proof. repeat split; vm_compute; reflexivity. Qed.
Example C95_dm_integral_partial_example :
  pop_reachable DM upop [[1 # 4]; [3 # 4]] [] u0 /\ (forall x, 0 < upi x) /\
  (forall m x, In m (pop_means u0) \/ In m upts -> In x upts -> upi x <= 24 * pp_comp upop m x) /\
  let after tape := out_state (pop_call DM upop upi 3 1 tape u0) in
  0 < expect_turns DM upop upi 2 upts uround 2 u0 (fun tape =>
    sq (weighted_total (fun x => nth 0 x 0) (pop_samples (after tape)) (pop_weights (after tape)) / 4 - integral 2 upts (fun x => upi x * nth 0 x 0))).
Proof.
  split; [apply pop_init|]. split; [intros x; unfold upi; destruct (Qle_bool _ _); lra|]. split; [intros m x _; apply ucover|].
  vm_compute. reflexivity.
Qed.
Example C95_dm_estimate_partial_example :
  pop_samples u0 = [] /\
  let after tape := out_state (pop_call DM upop upi 3 1 tape u0) in
  let chance := expect_turns DM upop upi 2 upts uround 2 u0 (fun tape =>
    missed (fun x => nth 0 x 0) (3 # 2) (1 # 4) (pop_samples (after tape)) (pop_returned (after tape))) in
  0 < chance /\ chance < 1.
Proof. repeat split; vm_compute; reflexivity. Qed.

(** C95 is false of deterministic mixture AIS when the target vanishes somewhere: with chance 3/16 the first batch misses the
    support, the call ends with an exception and no estimate, however many samples are asked for. *)
Theorem C95_dm_estimate_refuted :
  exists P us s, pop_params_ok P /\ us_ok P us /\ pop_reachable DM P us [] s /\ pop_samples s = [] /\
  exists pi f v W pts rest timeout eps, (forall x, 0 <= pi x) /\ 0 <= v /\ (forall m, integral v pts (pp_comp P m) == 1) /\
  (forall m x, In m (pop_means s) \/ In m pts -> In x pts -> pi x <= W * pp_comp P m x) /\
  (forall i xs j l, (j < pp_N P)%nat -> (l < pp_K P)%nat -> pr_draw (rest i xs) j l = nth (j * pp_K P + l) xs []) /\
  (forall i xs, round_ok P (rest i xs)) /\ 0 < timeout /\ (forall i xs, pr_clock (rest i xs) < timeout) /\ 0 < eps /\
  let Z := integral v pts pi in let m := integral v pts (fun x => pi x * f x) / Z in 0 < Z /\
  forall n t, (0 < n)%nat -> (0 < t)%nat ->
  let after tape := out_state (pop_call DM P pi n timeout tape s) in
  3 # 16 <= expect_turns DM P pi v pts rest t s (fun tape => missed f m eps (pop_samples (after tape)) (pop_returned (after tape))).
Proof.
  exists upop, [[1 # 4]; [3 # 4]], u0. split; [apply uparams|]. split; [apply uus|]. split; [apply pop_init|]. split; [reflexivity|].
  exists uzero, (fun _ => 1), 2, 8, upts, uround, 1, (1 # 2).
  assert (Nz : forall x, 0 <= uzero x) by (intros x; unfold uzero; destruct (Qle_bool _ _); lra).
  split; [exact Nz|]. split; [lra|].
  split; [apply umass|]. split.
  { intros m x _ _. unfold uzero. simpl. unfold ucomp. destruct (Qle_bool (nth 0 x 0) 2), (Bool.eqb _ _); lra. }
  split; [apply uround_draw|]. split; [apply uround_ok|]. split; [lra|]. split; [intros; simpl; lra|]. split; [lra|]. cbv zeta. split; [reflexivity|].
  intros n t Hn Ht. destruct t as [|t]; [lia|]. destruct n as [|n]; [lia|].
  set (G := fun tape => missed _ _ _ _ _). assert (G0 : forall tape, 0 <= G tape) by (intros tape; unfold G, missed; destruct (_ && _); lra).
  assert (Pos : forall s H, (forall tape, 0 <= H tape) -> 0 <= expect_turns DM upop uzero 2 upts uround t s H).
  { intros s H Hh. rewrite <- (turns_const DM upop uzero 2 upts uround umass t s 0). apply turns_le; auto; try lra; [apply uparams|apply umass]. }
  assert (One : expect_turns DM upop uzero 2 upts uround t (out_state (pop_iter DM upop uzero (uround t [[3]; [3]]) u0)) (fun tape => G (uround t [[3]; [3]] :: tape)) == 1).
  { rewrite (turns_ext DM upop uzero 2 upts uround t _ _ (fun _ => 1)); [apply turns_const; apply umass|]. intros tape _. reflexivity. }
  cbn [expect_turns]. set (F := fun xs => expect_turns DM upop uzero 2 upts uround t (out_state (pop_iter DM upop uzero (uround t xs) u0)) (fun tape => G (uround t xs :: tape))).
  assert (F0 : forall xs, 0 <= F xs) by (intros xs; apply Pos; auto). fold (F [[3]; [3]]) in One.
  assert (E : expect_each (proposal_laws upop 2 upts u0) F ==
    (3 # 4) * ((1 # 4) * F [[1]; [1]] + (3 # 4) * F [[1]; [3]]) + (1 # 4) * ((1 # 4) * F [[3]; [1]] + (3 # 4) * F [[3]; [3]])).
  { assert (Lw : proposal_laws upop 2 upts u0 = [[(6 # 8, [1]); (2 # 8, [3])]; [(2 # 8, [1]); (6 # 8, [3])]]) by (vm_compute; reflexivity).
    rewrite Lw. clearbody F. cbn. unfold vec. field. }
  rewrite E, One. pose proof (F0 [[1]; [1]]). pose proof (F0 [[1]; [3]]). pose proof (F0 [[3]; [1]]). lra.
Qed.
Print Assumptions C95_dm_estimate_refuted.
