(** Property C98. *)
From Coq Require Import List Bool Arith Lia ZArith QArith Lqa.
Import ListNotations.
From Verif Require Import Prelude.Py Prelude.QBase Prelude.QFacts Model.Base Model.Rejection Model.Mixture Model.Population Model.MPMC Model.Nested
  Model.MetropolisHastings Spec.TimeSpec Proofs.MPMCWitness.
Open Scope Q_scope.

Lemma late e limit : limit <= e -> Qltb e limit = false.
Proof. intros H. apply Qltb_false. exact H. Qed.

(** C98 for rejection sampling. *)
Lemma rej_late P pi n limit r after : limit <= rr_clock r -> forall before e c,
  rej_loop P pi n limit (before ++ r :: after) e c = rej_loop P pi n limit (before ++ [r]) e c /\
  forall s, rej_loop P pi n limit (before ++ [r]) e c <> Running s.
Proof.
  intros H. induction before as [|b t IH]; intros e c; cbn [app rej_loop].
  - destruct (Qltb e limit && (length (samples c) <? n)%nat); [|split; [reflexivity|discriminate]].
    destruct after; cbn [rej_loop]; rewrite (late _ _ H); cbn [andb]; split; try reflexivity; discriminate.
  - destruct (Qltb e limit && (length (samples c) <? n)%nat); [apply IH|split; [reflexivity|discriminate]].
Qed.
Lemma rej_early P pi n limit : forall tape e c c', rej_loop P pi n limit tape e c = Done c' -> (length (samples c') < n)%nat ->
  limit <= e \/ exists r, In r tape /\ limit <= rr_clock r.
Proof.
  induction tape as [|r t IH]; intros e c c' H L; cbn [rej_loop] in H.
  - destruct (Qltb e limit && (length (samples c) <? n)%nat) eqn:E; [discriminate|]. injection H as <-.
    rewrite (proj2 (Nat.ltb_lt _ _) L), andb_true_r in E. apply Qltb_false in E. auto.
  - destruct (Qltb e limit && (length (samples c) <? n)%nat) eqn:E.
    + destruct (IH _ _ _ H L) as [X|(q & Q1 & Q2)]; right; [exists r|exists q]; simpl; auto.
    + injection H as <-. rewrite (proj2 (Nat.ltb_lt _ _) L), andb_true_r in E. apply Qltb_false in E. auto.
Qed.
Theorem C98_rejection :
  forall P target n e0 pick c, let call limit tape := rej_importance_sample P target n limit e0 tape pick c in
  no_late_work rr_clock call /\ no_early_stop rr_clock (fun c => length (samples c)) n e0 call.
Proof.
  intros P target n e0 pick c call. split.
  - intros limit before r after H. unfold call, rej_importance_sample. destruct (rej_late P target n limit r after H before e0 c) as [A B]. rewrite A. split; [reflexivity|].
    intros s. destruct (rej_loop P target n limit (before ++ [r]) e0 c) eqn:E; [|destruct (B _ eq_refl)|discriminate]. unfold rej_finish. destruct (update_model _ _ _); discriminate.
  - intros limit tape s H L. unfold call, rej_importance_sample in H. destruct (rej_loop P target n limit tape e0 c) as [c'|c'|x c'] eqn:E; try discriminate.
    apply (rej_early P target n limit tape e0 c c' E). unfold rej_finish in H. destruct (update_model _ _ _); [|discriminate]. injection H as <-. exact L.
Qed.
Print Assumptions C98_rejection.
(** A slow first turn: the second is not begun although two of three samples are missing. *)
Example C98_rejection_example :
  let P := mkRej (fun _ => 1) 2 1 in let r t := mkRound (fun i => [Qnat i]) (fun i => Qnat i) t in
  exists c, rej_importance_sample P (fun _ => 1) 3 5 0 [r 7; r 9] (fun i => i) core_init = Done c /\ length (samples c) = 1%nat /\ 5 <= rr_clock (r 7).
Proof. cbv zeta. eexists. split; [vm_compute; reflexivity|split; vm_compute; [reflexivity|discriminate]]. Qed.


(** C98 for deterministic mixture AIS and layered AIS. *)
Lemma pop_late k P pi n limit r after : limit <= pr_clock r -> forall before e s,
  pop_loop k P pi n limit (before ++ r :: after) e s = pop_loop k P pi n limit (before ++ [r]) e s /\
  forall s', pop_loop k P pi n limit (before ++ [r]) e s <> Running s'.
Proof.
  intros H. assert (NR : forall q s s', pop_iter k P pi q s <> Running s').
  { intros q s s'. unfold pop_iter. destruct k; cbn [pop_adapt]; [unfold dm_adapt; destruct (forallb _ _)|unfold lais_adapt]; discriminate. }
  induction before as [|b t IH]; intros e s; cbn [app pop_loop].
  - destruct ((length (pop_samples s) <? n)%nat && Qltb e limit); [|split; [reflexivity|discriminate]].
    destruct (pop_iter k P pi r s) as [s1|s1|x s1] eqn:E; [|destruct (NR _ _ _ E)|split; [reflexivity|discriminate]].
    destruct after; cbn [pop_loop]; rewrite (late _ _ H), andb_false_r; split; try reflexivity; discriminate.
  - destruct ((length (pop_samples s) <? n)%nat && Qltb e limit); [|split; [reflexivity|discriminate]].
    destruct (pop_iter k P pi b s) as [s1|s1|x s1] eqn:E; [apply IH|destruct (NR _ _ _ E)|split; [reflexivity|discriminate]].
Qed.
Theorem C98_population :
  forall k P pi n s, let call limit tape := pop_call k P pi n limit tape s in
  no_late_work pr_clock call /\ no_early_stop pr_clock (fun s => length (pop_samples s)) n 0 call.
Proof.
  intros k P pi n s call. split.
  - intros limit before r after H. apply pop_late. exact H.
  - intros limit tape. unfold call, pop_call.
    assert (G : forall e s s', pop_loop k P pi n limit tape e s = Done s' -> (length (pop_samples s') < n)%nat -> limit <= e \/ exists r, In r tape /\ limit <= pr_clock r); [|apply G].
    clear. induction tape as [|r t IH]; intros e s s' H L; cbn [pop_loop] in H.
    + destruct ((length (pop_samples s) <? n)%nat && Qltb e limit) eqn:E; [discriminate|]. injection H as <-.
      rewrite (proj2 (Nat.ltb_lt _ _) L) in E. apply Qltb_false in E. auto.
    + destruct ((length (pop_samples s) <? n)%nat && Qltb e limit) eqn:E.
      * destruct (pop_iter k P pi r s) as [s1|s1|x s1] eqn:I; try discriminate.
        destruct (IH _ _ _ H L) as [X|(q & Q1 & Q2)]; right; [exists r|exists q]; simpl; auto.
      * injection H as <-. rewrite (proj2 (Nat.ltb_lt _ _) L) in E. apply Qltb_false in E. auto.
Qed.
Print Assumptions C98_population.
Example C98_population_example :
  let P := mkPop [0] [1] 1 1 1 (fun _ _ => 1) in let r t := mkPopR (fun _ _ => [1 # 2]) (fun _ _ => 0) (fun _ _ => ([0], 0)) t in
  exists s, pop_call LAIS P (fun _ => 1) 3 5 [r 2; r 7; r 9] (pop_new P [[1 # 4]]) = Done s /\ length (pop_samples s) = 2%nat /\ 5 <= pr_clock (r 7).
Proof. cbv zeta. eexists. split; [vm_compute; reflexivity|split; vm_compute; [reflexivity|discriminate]]. Qed.


(** C98 for M-PMC. A mixture that has become NaN is reported as running (its further course is not modelled). *)
Lemma mp_late P pi n limit r after : limit <= mr_clock r -> forall before e s,
  mp_loop P pi n limit (before ++ r :: after) e s = mp_loop P pi n limit (before ++ [r]) e s /\
  forall s', mp_loop P pi n limit (before ++ [r]) e s = Running s' -> mp_dead s' = true.
Proof.
  intros H. assert (NR : forall q s s', mp_iter P pi q s <> Running s').
  { intros q s s'. unfold mp_iter. repeat (match goal with |- context [match ?x with _ => _ end] => destruct x end; try discriminate). }
  induction before as [|b t IH]; intros e s; cbn [app mp_loop].
  - destruct ((length (mp_samples s) <? n)%nat && Qltb e limit); [|split; [reflexivity|discriminate]].
    destruct (mp_dead s) eqn:D; [split; [reflexivity|intros s' X; injection X as <-; exact D]|].
    destruct (mp_iter P pi r s) as [s1|s1|x s1] eqn:E; [|destruct (NR _ _ _ E)|split; [reflexivity|discriminate]].
    destruct after; cbn [mp_loop]; rewrite (late _ _ H), andb_false_r; split; try reflexivity; discriminate.
  - destruct ((length (mp_samples s) <? n)%nat && Qltb e limit); [|split; [reflexivity|discriminate]].
    destruct (mp_dead s) eqn:D; [split; [reflexivity|intros s' X; injection X as <-; exact D]|].
    destruct (mp_iter P pi b s) as [s1|s1|x s1] eqn:E; [apply IH|destruct (NR _ _ _ E)|split; [reflexivity|discriminate]].
Qed.
Theorem C98_mpmc :
  forall P pi n s, let call limit tape := mp_call P pi n limit tape s in
  (forall limit before r after, limit <= mr_clock r -> call limit (before ++ r :: after) = call limit (before ++ [r]) /\
     forall s', call limit (before ++ [r]) = Running s' -> mp_dead s' = true) /\
  no_early_stop mr_clock (fun s => length (mp_samples s)) n 0 call.
Proof.
  intros P pi n s call. split.
  - intros limit before r after H. apply mp_late. exact H.
  - intros limit tape. unfold call, mp_call.
    assert (G : forall e s s', mp_loop P pi n limit tape e s = Done s' -> (length (mp_samples s') < n)%nat -> limit <= e \/ exists r, In r tape /\ limit <= mr_clock r); [|apply G].
    clear. induction tape as [|r t IH]; intros e s s' H L; cbn [mp_loop] in H.
    + destruct ((length (mp_samples s) <? n)%nat && Qltb e limit) eqn:E; [destruct (mp_dead s); discriminate|]. injection H as <-.
      rewrite (proj2 (Nat.ltb_lt _ _) L) in E. apply Qltb_false in E. auto.
    + destruct ((length (mp_samples s) <? n)%nat && Qltb e limit) eqn:E.
      * destruct (mp_dead s); [discriminate|]. destruct (mp_iter P pi r s) as [s1|s1|x s1] eqn:I; try discriminate.
        destruct (IH _ _ _ H L) as [X|(q & Q1 & Q2)]; right; [exists r|exists q]; simpl; auto.
      * injection H as <-. rewrite (proj2 (Nat.ltb_lt _ _) L) in E. apply Qltb_false in E. auto.
Qed.
Print Assumptions C98_mpmc.
Example C98_mpmc_example :
  let r t := mkMpR (fun _ _ => 0) (fun k _ => nth k [[0]; [1]] []) t in
  exists s, mp_call (vmp 2) vpi 8 5 [r 7; r 9] (v0 2) = Done s /\ length (mp_samples s) = 2%nat /\ mp_dead s = false /\ 5 <= mr_clock (r 7).
Proof. cbv zeta. eexists. split; [apply done_run; vm_compute; reflexivity|]. split; [vm_compute; reflexivity|]. split; vm_compute; [reflexivity|discriminate]. Qed.


(** C98 for Metropolis-Hastings, what holds: no further sample is begun after a reading at or past the limit. Full statement: the
    steps within a sample, burn-in included, heed the limit too. *)
Theorem C98_mh_partial :
  forall P lp n pick s, let call limit tape := mh_importance_sample P lp n limit tape pick s in
  (forall limit before e after, limit <= ie_clock e -> call limit (before ++ e :: after) = call limit (before ++ [e])) /\
  no_early_stop ie_clock (fun s => length (samples (mh_core s))) n 0 call.
Proof.
  intros P lp n pick s call. split.
  - intros limit before r after H. unfold call, mh_importance_sample.
    assert (G : forall el s, mh_is_loop P lp limit n (before ++ r :: after) el s = mh_is_loop P lp limit n (before ++ [r]) el s); [|now rewrite G].
    clear s call. induction before as [|b t IH]; intros el s; cbn [app mh_is_loop].
    + destruct ((length (samples (mh_core s)) <? n)%nat && Qltb el limit); [|reflexivity].
      destruct (mh_sample P lp limit 1 (ie_steps r) s) as [[[s1|s1|x s1] rows] t]; auto.
      destruct after; cbn [mh_is_loop]; rewrite (late _ _ H), andb_false_r; reflexivity.
    + destruct ((length (samples (mh_core s)) <? n)%nat && Qltb el limit); [|reflexivity].
      destruct (mh_sample P lp limit 1 (ie_steps b) s) as [[[s1|s1|x s1] rows] q]; auto.
  - intros limit tape s' H L. unfold call, mh_importance_sample in H. destruct (mh_is_loop P lp limit n tape 0 s) as [s1|s1|x s1] eqn:E; try discriminate.
    assert (L1 : (length (samples (mh_core s1)) < n)%nat) by (destruct (update_model _ _ _); [|discriminate]; injection H as <-; exact L).
    clear H L. revert E L1. generalize 0. clear call. revert s s1. induction tape as [|r t IH]; intros s s1 el E L; cbn [mh_is_loop] in E.
    + destruct ((length (samples (mh_core s)) <? n)%nat && Qltb el limit) eqn:D; [discriminate|]. injection E as <-.
      rewrite (proj2 (Nat.ltb_lt _ _) L) in D. apply Qltb_false in D. auto.
    + destruct ((length (samples (mh_core s)) <? n)%nat && Qltb el limit) eqn:D.
      * destruct (mh_sample P lp limit 1 (ie_steps r) s) as [[[s2|s2|x s2] rows] q]; try discriminate.
        destruct (IH _ _ _ E L) as [X|(z & Q1 & Q2)]; right; [exists r|exists z]; simpl; auto.
      * injection E as <-. rewrite (proj2 (Nat.ltb_lt _ _) L) in D. apply Qltb_false in D. auto.
Qed.
Print Assumptions C98_mh_partial.
Example C98_mh_partial_example :
  let P := mkMH [-(10)] [10] 1 0 1 (fun _ => Fin 0) in let e t := mkIs [mkStep 0 [mkAttempt [1] (Fin (-(1))) 0]] t in
  exists s, mh_importance_sample P (fun _ => Fin 0) 3 5 [e 7; e 9] (fun _ => 0%nat) (mh_new [0]) = Done s /\ length (samples (mh_core s)) = 1%nat /\ 5 <= ie_clock (e 7).
Proof. cbv zeta. eexists. split; [vm_compute; reflexivity|split; vm_compute; [reflexivity|discriminate]]. Qed.


(** C98 is false of Metropolis-Hastings: the burn-in does not heed the limit. With limit 1, each of m burn-in steps takes 59. *)
Definition slow_att : attempt := mkAttempt [0] (Fin (-(1))) 59.
Definition slow_par (m : nat) : mh_params := mkMH [-(10)] [10] 1 m 1 (fun _ => Fin 0).
Lemma set_last_app {A} (l : list A) v w : set_last (l ++ [v]) w = Ok (l ++ [w]).
Proof. unfold set_last. destruct (l ++ [v]) eqn:E; [destruct l; discriminate|]. rewrite <- E, removelast_last. reflexivity. Qed.
Lemma slow_advance k lim lab s : mh_current s = [0] -> Qltb 0 lim = true ->
  exists s1, mh_advance (slow_par k) (fun _ => Fin 0) lim lab [slow_att] s = Done s1 /\ mh_current s1 = [0] /\ samples (mh_core s1) = samples (mh_core s) /\ mh_types s1 <> [].
Proof.
  intros C L. unfold mh_advance, mcmc_step. rewrite C. cbn [mh_step_loop]. rewrite L. cbn [negb andb].
  replace (mh_accept _ _ _ _ _) with true by (vm_compute; reflexivity). cbn [negb andb mh_record mh_types].
  rewrite set_last_app. cbn [mh_types]. rewrite set_last_app. eexists. split; [reflexivity|]. cbn [mh_current mh_types mh_core samples]. split; [reflexivity|]. split; [reflexivity|].
  destruct (mh_types s); discriminate.
Qed.
Lemma slow_burn k m t : forall s, mh_current s = [0] -> exists s', mh_burn (slow_par k) (fun _ => Fin 0) m (repeat (mkStep 0 [slow_att]) m ++ t) s = (Done s', t) /\
  mh_current s' = [0] /\ samples (mh_core s') = samples (mh_core s).
Proof.
  induction m as [|m IH]; intros s C; cbn [repeat app mh_burn]; [eauto|].
  destruct (slow_advance k 60 BURN_IN s C eq_refl) as (s1 & A1 & A2 & A3 & _). cbn [se_attempts]. rewrite A1. destruct (IH s1 A2) as (s' & B1 & B2 & B3). exists s'. rewrite B1. repeat split; auto. congruence.
Qed.
Theorem C98_mh_refuted :
  forall m, exists P lp e pick s s', mh_burnin P = m /\
  (forall st, In st (firstn m (ie_steps e)) -> exists a, se_attempts st = [a] /\ 59 <= at_clock a) /\ length (firstn m (ie_steps e)) = m /\
  mh_importance_sample P lp 1 1 [e] pick s = Done s' /\ length (samples (mh_core s')) = 1%nat.
Proof.
  intros m. set (st := mkStep 0 [slow_att]).
  destruct (slow_burn m m [st] (mh_new [0]) eq_refl) as (s1 & B1 & B2 & B3).
  destruct (slow_advance m (1 - 0) DECORRELATION (mkState (mh_core s1) (mh_current s1) true (mh_traj s1) (mh_types s1)) B2 eq_refl) as (s2 & A1 & A2 & A3 & A4).
  eexists (slow_par m), (fun _ => Fin 0), (mkIs (repeat st m ++ [st]) (59 * Qnat (m + 1))), (fun _ => 0%nat), (mh_new [0]), _.
  assert (F : firstn m (repeat st m ++ [st]) = repeat st m).
  { rewrite firstn_app, repeat_length, Nat.sub_diag. cbn [firstn]. rewrite app_nil_r. apply firstn_all2. rewrite repeat_length. lia. }
  split; [reflexivity|]. cbn [ie_steps]. rewrite F.
  split; [intros x I; apply repeat_spec in I; subst x; exists slow_att; split; [reflexivity|vm_compute; discriminate]|].
  split; [apply repeat_length|].
  assert (E : set_last (mh_types s2) SAMPLE = Ok (removelast (mh_types s2) ++ [SAMPLE])) by (unfold set_last; destruct (mh_types s2); congruence).
  assert (S2 : samples (mh_core s2) = []) by (rewrite A3; cbn [mh_core]; rewrite B3; reflexivity).
  unfold mh_importance_sample. cbn [mh_is_loop ie_steps ie_clock]. change (length (samples (mh_core (mh_new [0%Q]))) <? 1)%nat with true. change (Qltb 0 1) with true. cbn [andb].
  unfold mh_sample. change (mh_is_init (mh_new [0])) with false. change (mh_burnin (slow_par m)) with m. unfold st in *. rewrite B1.
  cbn [mh_sample_loop mcmc slow_par mh_steps mh_steps_n se_elapsed se_attempts]. fold (slow_par m). rewrite A1. rewrite E. cbn [mh_core mh_current samples app mh_is_init mh_traj mh_types].
  rewrite S2. cbn [app length Nat.ltb Nat.leb andb mh_core samples]. split; [reflexivity|reflexivity].
Qed.
Print Assumptions C98_mh_refuted.

(** C98 is false of nested sampling: the limit holds for each replacement of a live point, not for the call. With limit 1, every
    one of m replacements takes until 1, and the call goes on to the last. *)
Definition fall (x : vec) : Q := match x with [a] => 1 / (1 + a) | _ => 0 end.
Definition slow_repl : repl := mkRepl 0 [1] [([1], 1)].
Definition ns_par (m : nat) : ns_params := mkNsP [0] [Qnat m] 1 1 0.
Lemma fall_down a : 0 <= a -> Qltb (fall [1 + a]) (fall [a]) = true.
Proof.
  intros H. apply Qltb_true. unfold fall. apply Qlt_shift_div_l; [lra|]. setoid_replace (1 / (1 + (1 + a)) * (1 + a)) with (1 - 1 / (1 + (1 + a))) by (field; lra).
  assert (0 < 1 / (1 + (1 + a))) by (apply Qlt_shift_div_l; lra). lra.
Qed.
Lemma slow_iter hi a s : 0 <= a -> 1 + a <= hi -> ns_live s = [[a]] -> let P := mkNsP [0] [hi] 1 1 0 in
  exists s', ns_iter P fall 1 [0%nat] nested_cand true slow_repl s [fall [a]] = (Done s', [fall [1 + a]]) /\
  ns_live s' = [[1 + a]] /\ ns_pi_evals s' = (ns_pi_evals s + 2)%nat /\ ns_samples s' <> [].
Proof.
  intros A B L P. unfold ns_iter. change (map (fun i => nth i [fall [a]] 0) [0%nat]) with [fall [a]]. change (argminQ [fall [a]]) with 0%nat. cbv zeta. cbn [nth].
  assert (C : forall d, nested_cand s slow_repl [d] = [d + a]) by (intros d; unfold nested_cand; rewrite L; reflexivity).
  cbn [slow_repl rp_first rp_redraws]. fold slow_repl. rewrite C.
  assert (V : vclip [1 + a] (ns_lo P) (ns_hi P) = [1 + a]).
  { cbn. unfold clip1, qmax. destruct (Qle_bool (1 + a) 0) eqn:E; [apply Qle_bool_iff in E; lra|]. unfold qmin.
    destruct (Qle_bool (1 + a) hi) eqn:F; [reflexivity|apply Qle_bool_false in F; lra]. }
  rewrite V. cbn [ns_search]. rewrite (fall_down a A). change (Qltb 0 1) with true. cbn [andb]. rewrite C. rewrite (fall_down a A). change (Qltb 1 1) with false. cbn [andb].
  eexists. split; [reflexivity|]. unfold ns_append, ns_samples. destruct (ns_view s) eqn:W; [|destruct (ns_rows s) eqn:R]; cbn [ns_count ns_live ns_view ns_rows ns_pi_evals length]; rewrite L; cbn;
    repeat split; try lia; try discriminate; destruct l; discriminate.
Qed.
Lemma slow_for hi t : forall m a s, 0 <= a -> a + Qnat m <= hi -> ns_live s = [[a]] -> ns_samples s <> [] \/ (0 < m)%nat -> let P := mkNsP [0] [hi] 1 1 0 in
  exists s' v, ns_for P fall 1 [0%nat] nested_cand true m (repeat slow_repl m ++ t) s [fall [a]] = (Done s', v, t) /\
  ns_pi_evals s' = (ns_pi_evals s + 2 * m)%nat /\ ns_samples s' <> [].
Proof.
  induction m as [|m IH]; intros a s A B L N P; cbn [repeat app ns_for].
  - exists s. eexists. split; [reflexivity|]. split; [lia|]. destruct N; [auto|lia].
  - assert (Tn : Qnat (S m) == Qnat m + 1) by (unfold Qnat; rewrite Nat2Z.inj_succ; unfold Z.succ; rewrite inject_Z_plus; reflexivity).
    assert (0 <= Qnat m) by (unfold Qnat, Qle; simpl; lia).
    destruct (slow_iter hi a s A ltac:(lra) L) as (s1 & E & L1 & C1 & N1). fold P in E. rewrite E.
    destruct (IH (1 + a) s1 ltac:(lra) ltac:(lra) L1 (or_introl N1)) as (s' & v & F & G & K). exists s', v. split; [exact F|]. split; [rewrite G, C1; lia|exact K].
Qed.
Theorem C98_nested_refuted :
  forall m, (0 < m)%nat -> exists P pi tape pick s s', length tape = m /\ (forall ev, In ev tape -> exists d t, rp_redraws ev = [(d, t)] /\ 1 <= t) /\
  ns_samples s = [] /\ length (ns_live s) = 1%nat /\ nested_call P pi m 1 tape pick s = Done s' /\ ns_pi_evals s' = (ns_pi_evals s + 1 + 2 * m)%nat.
Proof.
  intros m Hm. set (P := mkNsP [0] [Qnat m] 1 1 0). set (s := mkNst [[0]] None [] [] 0 0 None []).
  destruct (slow_for (Qnat m) [] m 0 (ns_begin s) ltac:(lra) ltac:(lra) eq_refl (or_intror Hm)) as (s1 & v & F & G & K). fold P in F. rewrite app_nil_r in F.
  destruct (ns_samples s1) as [|x l] eqn:E; [congruence|].
  eexists P, fall, (repeat slow_repl m), (fun _ => 0%nat), s, _. split; [apply repeat_length|].
  split; [intros ev I; apply repeat_spec in I; subst ev; exists [1], 1; split; [reflexivity|lra]|]. split; [reflexivity|]. split; [reflexivity|].
  unfold nested_call. change (ns_samples s) with (@nil vec). cbn [length]. rewrite Nat.sub_0_r. change (seq 0 (length (ns_live s))) with [0%nat]. change (map fall (ns_live s)) with [fall [0]].
  rewrite F. unfold ns_finish. rewrite E. cbn [update_model P ns_kde]. split; [reflexivity|]. cbn [ns_pi_evals]. rewrite G. reflexivity.
Qed.
Print Assumptions C98_nested_refuted.
