(** Property C126. *)
From Coq Require Import List Bool Arith Lia QArith Lqa Reals Qreals.
Import ListNotations.
From Verif Require Import Prelude.Py Prelude.QBase Prelude.RBase Model.Base Model.MetropolisHastings.
From Verif Require Import Model.Nested.
From Verif Require Import Model.Population Spec.Box Spec.SupportSpec.
From Verif Require Import Proofs.MHWitness Proofs.NestedProofs Proofs.NestedHistory Proofs.NestedWeights Proofs.NestedWitness Proofs.SupportProofs Proofs.PopulationProofs Proofs.PopulationHistory Proofs.PopulationWitness Properties.PopulationProps.
Open Scope Q_scope.

(** C126 (full statement: every sample of Metropolis-Hastings lies where the target has mass) is false: when the clock
    cuts off the search for an accepted proposal, the last refused one is stored, whatever its density. *)
Definition gap (x : vec) : fl Q := match x with a :: _ => if Qle_bool (1 # 4) a then Fin a else NInf | [] => NInf end.
Definition cut_op : mh_op := OpIS gap 60 1 [mkIs [mkStep 0 [up]; mkStep 0 [late_down]] 1] (fun i => i).
Theorem C126_mh_refuted :
  exists P lp x0 timeout n tape pick s, 0 < timeout /\ (0 < mh_steps P)%nat /\ has_mass (lp x0) /\ mh_reachable P x0 [OpIS lp timeout n tape pick] s /\
    exists x, In x (samples (mh_core s)) /\ lp x = NInf.
Proof.
  exists wP, gap, [1 # 2; 1], 60, 1%nat, [mkIs [mkStep 0 [up]; mkStep 0 [late_down]] 1], (fun i => i). eexists.
  split; [reflexivity|]. split; [simpl; lia|]. split; [exact I|].
  split; [eapply mh_reach_op; [constructor|]; left; vm_compute; reflexivity|].
  eexists. split; [left; reflexivity|vm_compute; reflexivity].
Qed.
Print Assumptions C126_mh_refuted.

(** C126, what holds for Metropolis-Hastings: in every history (with resets, queries and sample() in between) in which
    the calls for samples are for one target and no step is cut off, every sample lies where that target has mass,
    whatever the start and whatever the proposal density answers. *)
Theorem C126_mh_partial :
  forall P lp x0 ops s, (0 < mh_steps P)%nat -> Forall (support_op lp) ops -> mh_reachable P x0 ops s ->
    forall x, In x (samples (mh_core s)) -> has_mass (lp x).
Proof.
  intros P lp x0 ops s K F R. pose proof (mass_reachable P lp x0 ops s K F R) as M. apply Forall_forall. exact M.
Qed.
Print Assumptions C126_mh_partial.

(** The first state has no mass, and a proposal without mass is refused on the way. *)
Definition gap_op : mh_op := OpIS gap 60 1 [mkIs [mkStep 0 [up]; mkStep 0 [down; up]] 1] (fun i => i).
Example C126_mh_example :
  (0 < mh_steps wP)%nat /\ Forall (support_op gap) [gap_op] /\ gap [0; 0] = NInf /\
  exists s, mh_reachable wP [0; 0] [gap_op] s /\ length (samples (mh_core s)) = 1%nat.
Proof.
  split; [simpl; lia|]. split.
  - repeat constructor; simpl in *; intuition (subst; reflexivity).
  - split; [reflexivity|]. eexists. split; [eapply mh_reach_op; [constructor|]; left; vm_compute; reflexivity|reflexivity].
Qed.

(** C126 (full statement: a sample of nested sampling with a positive weight lies where the target is positive) is false:
    the first row is the point that replaced the live point, which is anything when the search is cut off. *)
Definition late_rep : repl := mkRepl 1 [-(3 # 4)] [([-(1)], 61)].
Definition late_call : ns_op := NsCall npi 1 60 [late_rep] (fun i => i).
Theorem C126_nested_refuted :
  exists P us pi ops s i w, start_ok P us /\ Forall (ns_op_ok P) ops /\ Forall (ns_target (eq pi)) ops /\ (forall x, 0 <= pi x) /\
    nested_reachable P us ops s /\ (i < length (ns_samples s))%nat /\
    nth_error (nested_weights (ns_N P) (map Q2R (ns_L s))) i = Some (Fin w) /\ (0 < w)%R /\ pi (nth i (ns_samples s) []) == 0.
Proof.
  assert (E : exists s, nested_run nP late_call (ns_new nP nus) = Done s /\ map Qred (ns_L s) = [1 # 4] /\ (0 < length (ns_samples s))%nat /\ npi (nth 0 (ns_samples s) []) == 0).
  { eexists. split; [vm_compute; reflexivity|]. split; [reflexivity|]. split; [simpl; lia|reflexivity]. }
  destruct E as (s & R & L & LS & Z). destruct (ns_L s) as [|l [|l' L']] eqn:EL; try discriminate. simpl in L. assert (Hl : l == 1 # 4) by (rewrite <- (Qred_correct l); congruence || (injection L as ->; reflexivity)).
  assert (P0 : (0 < Q2R l)%R). { rewrite <- RMicromega.Q2R_0. apply Qlt_Rlt. rewrite Hl. reflexivity. }
  destruct (weights_finite 2 (map Q2R [l])) as (ws & A & B & _ & D & _); [lia|constructor; [simpl; Lra.lra|constructor]|constructor; exact P0|].
  destruct ws as [|w [|w' ws]]; try discriminate. simpl in D.
  exists nP, nus, npi, [late_call], s, 0%nat, w. split; [exact n_start|]. split; [repeat constructor|]. split; [repeat constructor|].
  split; [exact (proj1 n_inside)|]. split; [apply nested_next with (ns_new nP nus); [constructor|left; exact R]|]. split; [exact LS|].
  change (ns_N nP) with 2%nat. rewrite EL, A. split; [reflexivity|]. split; [Lra.lra|exact Z].
Qed.
Print Assumptions C126_nested_refuted.

(** C126, what holds for nested sampling: in every history of calls for one non-negative target whose searches are not
    cut off, a sample whose weight is a positive number lies where the target is positive. *)
Theorem C126_nested_partial :
  forall P us pi, start_ok P us -> (forall x, 0 <= pi x) ->
  forall ops s, Forall (ns_op_ok P) ops -> Forall (fun o => ns_timely o /\ ns_target (eq pi) o) ops -> nested_reachable P us ops s ->
    forall i w, nth_error (nested_weights (ns_N P) (map Q2R (ns_L s))) i = Some (Fin w) -> (0 < w)%R -> 0 < pi (nth i (ns_samples s) []).
Proof.
  intros P us pi S0 NN ops s OK KK R i w E W.
  assert (F : Forall (fun l => 0 <= l) (ns_L s)).
  { apply (L_nonneg_reachable P us S0 ops s OK); auto. eapply Forall_impl; [|exact KK]. intros [] (_ & H); simpl in *; auto. now rewrite <- H. }
  assert (F' : Forall (fun l => (0 <= l)%R) (map Q2R (ns_L s))).
  { rewrite Forall_map. eapply Forall_impl; [|exact F]. intros l H. rewrite <- RMicromega.Q2R_0. now apply Qle_Rle. }
  destruct (below_reachable P us pi S0 ops s OK KK R) as (BL & AT). destruct S0 as (_ & NP & _).
  destruct (Exists_dec (fun l => (0 < l)%R) (map Q2R (ns_L s)) (fun l => Rlt_dec 0 l)) as [EX|NE].
  - destruct (weights_finite _ _ NP F' EX) as (ws & A & B & C & D & PR). rewrite map_length in *. rewrite A in E.
    assert (Hi : (i < length ws)%nat). { rewrite <- (map_length Fin). apply nth_error_Some. congruence. }
    rewrite nth_error_map in E. destruct (nth_error ws i) as [w'|] eqn:E2; [|discriminate]. simpl in E.
    assert (w' = w) by congruence. subst w'. apply nth_error_nth with (d := 0%R) in E2. rewrite B in Hi. specialize (PR i Hi). rewrite E2 in PR.
    pose proof (terms_positive _ _ NP F' EX) as T. rewrite (nth_map_in Q2R (ns_L s) i 0%R 0) in PR by exact Hi.
    specialize (AT i Hi). pose proof (shell_pos (ns_N P) i NP) as SH.
    assert (L0 : 0 <= nth i (ns_L s) 0). { rewrite Forall_forall in F. apply F, nth_In; auto. }
    destruct (Qlt_le_dec 0 (nth i (ns_L s) 0)) as [H|H]; [lra|]. exfalso. assert (Z : nth i (ns_L s) 0 == 0) by lra.
    rewrite (Qeq_eqR _ _ Z), RMicromega.Q2R_0 in PR. pose proof (Rmult_lt_0_compat _ _ W T). Lra.lra.
  - exfalso. assert (Z : Forall (fun l => l = 0%R) (map Q2R (ns_L s))).
    { rewrite Forall_forall in F' |- *. intros l Hl. specialize (F' l Hl). destruct (Rlt_dec 0 l) as [H|H]; [|Lra.lra]. exfalso. apply NE, Exists_exists. eauto. }
    destruct (map Q2R (ns_L s)) as [|l L] eqn:EL.
    + destruct i; simpl in E; discriminate.
    + assert (N : l :: L <> []) by discriminate. pose proof (weights_zero (ns_N P) _ Z N) as WZ. rewrite Forall_forall in WZ.
      apply nth_error_In, WZ in E. discriminate.
Qed.
Print Assumptions C126_nested_partial.

(** Two samples, both with a positive weight. *)
Example C126_nested_example :
  start_ok nP nus /\ (forall x, 0 <= npi x) /\ Forall (fun o => ns_timely o /\ ns_target (eq npi) o) [ncall] /\ nested_reachable nP nus [ncall] ns1 /\
  exists w, nth_error (nested_weights (ns_N nP) (map Q2R (ns_L ns1))) 0 = Some (Fin w) /\ (0 < w)%R.
Proof.
  split; [exact n_start|]. split; [exact (proj1 n_inside)|]. split; [constructor; [split; [exact n_timely|reflexivity]|constructor]|]. split; [exact n_reach|].
  assert (F : Forall (fun l => (0 < l)%R) (map Q2R (ns_L ns1))).
  { rewrite Forall_map. repeat constructor; rewrite <- RMicromega.Q2R_0; apply Qlt_Rlt; reflexivity. }
  assert (LE : length (ns_L ns1) = 2%nat) by reflexivity.
  assert (NP : (0 < ns_N nP)%nat) by (simpl; lia).
  assert (F0 : Forall (fun l => (0 <= l)%R) (map Q2R (ns_L ns1))) by (eapply Forall_impl; [|exact F]; intros; Lra.lra).
  generalize dependent (ns_L ns1). intros L F LE F0. destruct L as [|l [|l' [|]]]; try discriminate.
  assert (EX : Exists (fun l => (0 < l)%R) (map Q2R [l; l'])) by (constructor; inversion F; auto).
  destruct (weights_finite _ _ NP F0 EX) as (ws & A & B & _ & _ & PR). rewrite A. destruct ws as [|w ws]; [discriminate|]. exists w. split; [reflexivity|].
  specialize (PR 0%nat ltac:(simpl; lia)). pose proof (terms_positive _ _ NP F0 EX) as T. pose proof (shell_pos (ns_N nP) 0 NP) as SH.
  inversion F as [|? ? P1 _]; subst. cbn [nth map] in PR, P1, T. pose proof (Rmult_lt_0_compat _ _ P1 SH) as G. rewrite <- PR in G.
  destruct (Rlt_dec 0 w) as [H|H]; auto. exfalso. Lra.nra.
Qed.

(** C126. Deterministic mixture and layered sampling: after every history, a finished call adds rows whose weights are
    positive exactly where the target is positive. *)
Theorem C126_population :
  forall k P us ops s, k = DM \/ k = LAIS -> pop_params_ok P -> us_ok P us -> Forall (fun e => pop_op_ok P (fst e)) ops -> pop_reachable k P us ops s ->
  forall pi n timeout tape s', pop_op_ok P (PopCall pi n timeout tape) -> pop_call k P pi n timeout tape s = Done s' ->
  exists xs ws, pop_samples s' = pop_samples s ++ xs /\ pop_weights s' = pop_weights s ++ map Fin ws /\ Forall2 (fun x w => 0 < w <-> 0 < pi x) xs ws.
Proof.
  intros k P us ops s [-> | ->] A B C D pi n timeout tape s' O E.
  - destruct (C40_dm_run P us ops s A B C D pi n timeout tape s' O E) as (xs & ws & S1 & W1 & R). exists xs, ws. split; auto. split; auto. eapply run_support; eauto.
  - destruct (C70_lais_run P us ops s A B C D pi n timeout tape s' O E) as (xs & ws & S1 & W1 & R). exists xs, ws. split; auto. split; auto. eapply run_support; eauto.
Qed.
Print Assumptions C126_population.
Example C126_population_example :
  pop_params_ok wpop /\ us_ok wpop wus /\ pop_reachable DM wpop wus [] w0 /\ pop_op_ok wpop (wcall [wround]) /\
  pop_call DM wpop wpi 4 1 [wround] w0 = Done wdm /\ length (pop_samples wdm) = 4%nat.
Proof.
  destruct C40_dm_run_example as (A & B & C & D & E & _). split; [exact A|]. split; [exact B|]. split; [exact C|]. split; [exact D|]. split; [exact E|reflexivity].
Qed.
