(** C118: what the samplers do on a target that is constant on the space. *)
From Coq Require Import List Bool Arith Lia QArith Lqa.
Import ListNotations.
From Verif Require Import Prelude.Py Prelude.QBase Prelude.QFacts Model.Base Model.MetropolisHastings Model.Rejection Model.Population Model.Nested Spec.Box Spec.FlatSpec
  Proofs.MHProofs Proofs.PopulationHistory Proofs.FlatMH Proofs.FlatPop Proofs.FlatNested.
From Verif Require Import Proofs.NestedProofs.
From Verif Require Import Proofs.NestedHistory.
Open Scope Q_scope.

(** C118, Metropolis-Hastings: with a symmetric proposal, after any history on constant targets and during any further operation, no point of the
    trajectory is labelled as rejected. *)
Theorem C118_chain_never_rejects :
  forall P x0 ops s o, is_box (mh_lo P) (mh_hi P) ->
  (forall x y, exists a b, mh_lq P (vsub x y) = Fin a /\ mh_lq P (vsub y x) = Fin b /\ a == b) ->
  length x0 = length (mh_lo P) -> Forall (op_ok P) (o :: ops) -> Forall (flat_op P) (o :: ops) -> mh_reachable P x0 ops s ->
  ~ In REJECT (mh_types (out_state (mh_run P o s))).
Proof.
  intros P x0 ops s o B Sy L O F R. inversion O; subst. inversion F; subst. apply (run_clean P B Sy o s); auto.
  eapply reachable_fine; eauto.
Qed.
Print Assumptions C118_chain_never_rejects.

(** C118, layered AIS: after any history, a call on a constant positive target that returns moves every proposal along all the displacements of
    the turns made, each one accepted. *)
Theorem C118_layers_walk :
  forall P us ops s pi c n timeout tape s', is_box (pp_lo P) (pp_hi P) -> us_ok P us -> Forall (fun e => pop_op_ok P (fst e)) ops ->
  pop_reachable LAIS P us ops s -> flat (pp_lo P) (pp_hi P) c pi -> 0 < c -> Forall (round_ok P) tape ->
  pop_call LAIS P pi n timeout tape s = Done s' ->
  exists k, length (pop_samples s') = (length (pop_samples s) + k * (length (pop_means s) * pp_K P))%nat /\
  forall j m, nth_error (pop_means s) j = Some m -> exists m', nth_error (pop_means s') j = Some m' /\
    walked (pp_lo P) (pp_hi P) m (flat_map (fun r => map (fun l => fst (pr_mh r j l)) (seq 0 (pp_L P))) (firstn k tape)) m'.
Proof.
  intros P us ops s pi c n timeout tape s' B U O R F C T E.
  assert (M : means_in P s) by (apply (means_in_reachable P us ops s (PopSample 0)); simpl; auto).
  destruct (loop_walks P B pi c F C n timeout tape 0 s s' T M E) as (_ & k & K1 & _ & W). exists k. split; auto.
Qed.
Print Assumptions C118_layers_walk.

(** C118, rejection: when the scaled proposal density equals the target at the points drawn, a call in time returns after one turn with all of them. *)
Theorem C118_rejection_takes_all :
  forall P pi n timeout e0 r tape pick c, e0 < timeout -> (length (samples c) < n)%nat ->
  let k := (n - length (samples c))%nat in
  (forall i, (i < k)%nat -> 0 < pi (rr_draw r i) /\ pi (rr_draw r i) == rj_q P (rr_draw r i) * rj_scaling P /\ rr_u r i < 1) ->
  let c' := out_state (rej_importance_sample P pi n timeout e0 (r :: tape) pick c) in
  (forall x, rej_importance_sample P pi n timeout e0 (r :: tape) pick c <> Running x) /\
  samples c' = samples c ++ map (rr_draw r) (seq 0 k) /\ length (samples c') = n.
Proof.
  intros P pi n timeout e0 r tape pick c T L k H. cbv zeta. unfold rej_importance_sample. cbn [rej_loop].
  assert (G1 : Qltb e0 timeout && (length (samples c) <? n)%nat = true) by (apply andb_true_iff; split; [apply Qltb_true; auto|apply Nat.ltb_lt; auto]).
  rewrite G1. set (c1 := rej_iter P pi n c r).
  assert (S1 : samples c1 = samples c ++ map (rr_draw r) (seq 0 k)).
  { unfold c1, rej_iter. cbn [samples]. fold k. rewrite (exact_round P pi r k H). reflexivity. }
  assert (L1 : length (samples c1) = n) by (rewrite S1, app_length, map_length, seq_length; unfold k; lia).
  assert (G2 : rej_loop P pi n timeout tape (rr_clock r) c1 = Done c1).
  { destruct tape; cbn [rej_loop]; (replace (length (samples c1) <? n)%nat with false by (symmetry; apply Nat.ltb_ge; lia)); rewrite andb_false_r; reflexivity. }
  rewrite G2. unfold rej_finish. cbn [samples]. destruct (update_model _ _ _); cbn [out_state samples]; (split; [discriminate|]); auto.
Qed.
Print Assumptions C118_rejection_takes_all.

(** C118, nested sampling: after any history on constant targets without reset, a call on a constant target takes the first candidate for every
    new sample (one draw and one evaluation each, beside the evaluation of the live points), ends once the draws are there, and keeps the
    live points in the space. *)
Theorem C118_nested_first_try :
  forall P us ops s pi c n timeout tape pick, is_box (ns_lo P) (ns_hi P) -> start_ok P us -> Forall (ns_op_ok P) ops -> Forall (flat_ns P) ops ->
  nested_reachable P us ops s -> flat (ns_lo P) (ns_hi P) c pi -> Forall (repl_ok (length (ns_lo P))) tape ->
  let missing := (n - length (ns_samples s))%nat in
  let o := nested_call P pi n timeout tape pick s in
  Forall (in_box (ns_lo P) (ns_hi P)) (ns_live (out_state o)) /\
  (forall s', (o = Done s' \/ exists e, o = Failed e s') ->
     ns_q_samples s' = (ns_q_samples s + missing)%nat /\ ns_pi_evals s' = (ns_pi_evals s + ns_N P + missing)%nat) /\
  ((missing <= length tape)%nat -> forall s', o <> Running s').
Proof.
  intros P us ops s pi c n timeout tape pick B S0 O F R FL T missing o. pose proof S0 as (_ & S1 & _).
  destruct (ns_N P) as [|N] eqn:EN; [lia|]. destruct (flat_reach P us N B S0 EN ops s O F R) as (I & _).
  destruct (flat_call P B N pi c n timeout tape pick s FL T I) as (A1 & _ & A2 & A3). split; [apply A1|]. split; [|exact A3].
  intros s' H. destruct (A2 s' H) as (X & Y). rewrite (proj2 I) in Y. auto.
Qed.
Print Assumptions C118_nested_first_try.

(** C118 (full statement for nested sampling: on a constant target the live points are renewed) is false: np.argmin takes the first of
    equal values, so live point 0 is replaced again and again, and the others are never touched, however many samples are asked for. *)
Theorem C118_live_points_refuted :
  exists P us, is_box (ns_lo P) (ns_hi P) /\ start_ok P us /\ ns_N P = 3%nat /\
  (forall ops s, Forall (ns_op_ok P) ops -> Forall (flat_ns P) ops -> nested_reachable P us ops s ->
     nth 1 (ns_live s) [] = nth 1 (ns_live (ns_new P us)) [] /\ nth 2 (ns_live s) [] = nth 2 (ns_live (ns_new P us)) []) /\
  forall n, (0 < n)%nat -> exists ops s, Forall (ns_op_ok P) ops /\ Forall (flat_ns P) ops /\ nested_reachable P us ops s /\ length (ns_samples s) = n.
Proof.
  set (P := mkNsP [0] [1] 1 3 0). set (us := [[1 # 4]; [1 # 2]; [3 # 4]]). exists P, us.
  assert (B : is_box (ns_lo P) (ns_hi P)) by (simpl; repeat split; lra).
  assert (S0 : start_ok P us). { repeat split; simpl; auto. repeat constructor; simpl; lra. }
  split; auto. split; auto. split; [reflexivity|]. split.
  - intros ops s O F R. destruct (flat_reach P us 2 B S0 eq_refl ops s O F R) as ((_ & L) & E).
    simpl in E. destruct (ns_live s) as [|a r]; simpl in *; [discriminate|]. subst r. split; reflexivity.
  - intros n Hn. set (o := NsCall (fun _ => 1) n 1 (repeat (mkRepl 0 [1 # 8] []) n) (fun _ => 0%nat)).
    assert (OK : ns_op_ok P o). { apply Forall_forall. intros r Hr. apply repeat_spec in Hr. subst r. split; [reflexivity|constructor]. }
    assert (FO : flat_ns P o). { exists 1. intros x _. reflexivity. }
    destruct (flat_reach P us 2 B S0 eq_refl [] (ns_new P us) (Forall_nil _) (Forall_nil _) (nested_init P us)) as (I & _).
    destruct FO as (c & FO). pose proof (flat_call P B 2 (fun _ => 1) c n 1 _ (fun _ => 0%nat) (ns_new P us) FO OK I) as (_ & _ & _ & A3).
    rewrite repeat_length in A3. specialize (A3 ltac:(simpl; lia)).
    assert (RN : nested_run P o (ns_new P us) = nested_call P (fun _ => 1) n 1 (repeat (mkRepl 0 [1 # 8] []) n) (fun _ => 0%nat) (ns_new P us)) by reflexivity.
    destruct (nested_call P (fun _ => 1) n 1 (repeat (mkRepl 0 [1 # 8] []) n) (fun _ => 0%nat) (ns_new P us)) as [s'|s'|e s'] eqn:E; [|exfalso; apply (A3 s'); auto|].
    + exists [o], s'. split; [constructor; auto|]. split; [constructor; [exists c; exact FO|constructor]|]. split; [eapply nested_next; [constructor|left; exact RN]|].
      destruct (nested_request P us S0 [] (ns_new P us) (Forall_nil _) (nested_init P us) _ _ _ _ _ _ E) as (X & _). simpl in X. lia.
    + exfalso. destruct (nested_fails P us S0 ltac:(simpl; lia) [] (ns_new P us) (Forall_nil _) (nested_init P us) _ _ _ _ _ _ _ E) as (_ & X & _). lia.
Qed.
Print Assumptions C118_live_points_refuted.

(** Examples. *)
Definition flat_mh : mh_params := mkMH [0] [1] 1 1 1 (fun _ => Fin 0).
Definition flat_is : mh_op :=
  OpIS (fun x => if Qle_bool 0 (nth 0 x 0) && Qle_bool (nth 0 x 0) 1 then Fin (- (1 # 2)) else NInf) 10 2
    [mkIs [mkStep 0 [mkAttempt [1 # 2] (Fin (- (3 # 4))) 1]; mkStep 0 [mkAttempt [3 # 4] (Fin (- (1 # 8))) 1]] 1; mkIs [mkStep 0 [mkAttempt [- (1 # 4)] NInf 1]] 2] (fun _ => 0%nat).
Example C118_chain_never_rejects_example :
  is_box (mh_lo flat_mh) (mh_hi flat_mh) /\ (forall x y, exists a b, mh_lq flat_mh (vsub x y) = Fin a /\ mh_lq flat_mh (vsub y x) = Fin b /\ a == b) /\
  Forall (op_ok flat_mh) [flat_is] /\ Forall (flat_op flat_mh) [flat_is] /\ mh_reachable flat_mh [- (2)] [] (mh_new [- (2)]) /\
  exists s, mh_run flat_mh flat_is (mh_new [- (2)]) = Done s /\ mh_types s = [BURN_IN; SAMPLE; SAMPLE].
Proof.
  split; [simpl; repeat split; lra|]. split; [intros; exists 0, 0; repeat split|]. split; [repeat constructor|]. split.
  - constructor; [|constructor]. split.
    + exists (- (1 # 2)). split; intros x X.
      * exists (- (1 # 2)). split; [|lra]. destruct x as [|a [|b x]]; simpl in X; try tauto. destruct X as (A1 & A2 & _). simpl.
        apply Qle_bool_iff in A1, A2. rewrite A1, A2. reflexivity.
      * destruct (Qle_bool 0 (nth 0 x 0) && Qle_bool (nth 0 x 0) 1); [right; exists (- (1 # 2)); split; [reflexivity|lra]|left; reflexivity].
    + unfold iss_u, steps_u, atts_u. repeat (cbn; first [apply Forall_nil|apply Forall_cons|left; reflexivity|right; eexists; split; reflexivity]).
  - split; [constructor|]. eexists. split; vm_compute; reflexivity.
Qed.
Definition flat_pop : pop_params := mkPop [0] [4] 2 1 2 (fun _ _ => 1).
Definition flat_round : pop_round := mkPopR (fun _ _ => [2]) (fun _ _ => 0) (fun j l => ([Qnat j - Qnat l], 3 # 4)) 1.
Example C118_layers_walk_example :
  is_box (pp_lo flat_pop) (pp_hi flat_pop) /\ us_ok flat_pop [[1 # 4]; [1 # 2]] /\ pop_reachable LAIS flat_pop [[1 # 4]; [1 # 2]] [] (pop_new flat_pop [[1 # 4]; [1 # 2]]) /\
  flat (pp_lo flat_pop) (pp_hi flat_pop) 5 (fun _ => 5) /\ Forall (round_ok flat_pop) [flat_round] /\
  exists s' a b, pop_call LAIS flat_pop (fun _ => 5) 2 10 [flat_round] (pop_new flat_pop [[1 # 4]; [1 # 2]]) = Done s' /\ pop_means s' = [[a]; [b]] /\ a == 0 /\ b == 3.
Proof.
  split; [simpl; repeat split; lra|]. split; [repeat split; repeat constructor; simpl; lra|]. split; [constructor|]. split; [intros x _; reflexivity|]. split.
  - constructor; [|constructor]. split; [intros; simpl; lra|]. intros j l. split; [reflexivity|simpl; lra].
  - eexists _, _, _. split; [vm_compute; reflexivity|]. split; [reflexivity|]. split; reflexivity.
Qed.
Example C118_rejection_takes_all_example :
  let P := mkRej (fun _ => 1 # 2) 4 1 in let r := mkRound (fun i => [Qnat i]) (fun _ => 7 # 8) 1 in
  0 < 1 /\ (length (samples core_init) < 3)%nat /\
  (forall i, (i < 3)%nat -> 0 < 2 /\ 2 == rj_q P (rr_draw r i) * rj_scaling P /\ rr_u r i < 1) /\
  samples (out_state (rej_importance_sample P (fun _ => 2) 3 1 0 [r] (fun _ => 0%nat) core_init)) = [[0]; [1]; [2]].
Proof. split; [lra|]. split; [simpl; lia|]. split; [intros; simpl; repeat split; lra|reflexivity]. Qed.
Definition flat_nP : ns_params := mkNsP [0] [1] 1 3 0.
Definition flat_call_op : ns_op := NsCall (fun _ => 2) 2 1 [mkRepl 1 [1] []; mkRepl 0 [- (1 # 3)] []] (fun _ => 0%nat).
Example C118_nested_first_try_example :
  is_box (ns_lo flat_nP) (ns_hi flat_nP) /\ start_ok flat_nP [[1 # 4]; [1 # 2]; [3 # 4]] /\ ns_op_ok flat_nP flat_call_op /\ flat_ns flat_nP flat_call_op /\
  exists s, nested_reachable flat_nP [[1 # 4]; [1 # 2]; [3 # 4]] [flat_call_op] s /\ ns_q_samples s = 2%nat /\ ns_pi_evals s = 5%nat /\ length (ns_samples s) = 2%nat.
Proof.
  split; [simpl; repeat split; lra|]. split; [repeat split; simpl; auto; repeat constructor; simpl; lra|]. split; [repeat constructor|]. split; [exists 2; intros x _; reflexivity|].
  eexists. split; [eapply nested_next; [constructor|left; vm_compute; reflexivity]|]. split; [reflexivity|]. split; reflexivity.
Qed.
