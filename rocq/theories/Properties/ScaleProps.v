(** Property C106: unnormalised targets. Multiplying the target density by a positive constant changes nothing a user
    can see in the results of most samplers; it does for rejection sampling with a fixed bound, for the tree sampler when
    leaves hold several samples, and for HiDaisee. *)
From Coq Require Import List Bool Arith Lia QArith Lqa.
Import ListNotations.
From Verif Require Import Prelude.Py Prelude.QBase Model.Base Model.MetropolisHastings Model.Rejection Model.Population Model.MPMC Model.Tree Model.TreeSampler Model.HiDaisee
  Spec.ScaleSpec Spec.TreeSpec Proofs.TreeProofs Proofs.TreeMask Proofs.TreeSamplerInv Proofs.TreeSamplerLeaves Proofs.ScaleBase Proofs.ScaleSimple Proofs.ScalePop Proofs.ScaleTree Proofs.ScaleHd
  Properties.TreeSamplerProps.
Open Scope Q_scope.

(** * Metropolis-Hastings *)
(** The same operation with another target. *)
Definition mh_retarget (o o' : mh_op) : Prop :=
  match o, o' with
  | OpReset, OpReset => True
  | OpQuery p, OpQuery p' => p' = p
  | OpSample lp t n tape, OpSample lp' t' n' tape' => (exists k, shifted k lp lp') /\ t' = t /\ n' = n /\ tape' = tape
  | OpIS lp t n tape p, OpIS lp' t' n' tape' p' => (exists k, shifted k lp lp') /\ t' = t /\ n' = n /\ tape' = tape /\ p' = p
  | _, _ => False
  end.
Lemma mh_run_retarget P o o' s : mh_retarget o o' -> mh_run P o' s = mh_run P o s.
Proof.
  destruct o, o'; simpl; try tauto.
  - intros ->. reflexivity.
  - intros ((k & S) & -> & -> & ->). now rewrite (mh_sample_shift P k _ _ S).
  - intros ((k & S) & -> & -> & -> & ->). now apply (mh_call_shift P k).
Qed.
Theorem C106_metropolis P x0 ops ops' s : mh_reachable P x0 ops s -> Forall2 mh_retarget ops ops' ->
  mh_reachable P x0 ops' s /\ forall o o', mh_retarget o o' -> mh_run P o' s = mh_run P o s.
Proof.
  intros R F. split; [|intros; now apply mh_run_retarget]. revert ops' F. induction R as [|ops s o s' R IH H]; intros ops' F; inversion F as [|? o' ? l' Ho Hl]; subst; [constructor|].
  econstructor; [now apply IH|]. rewrite (mh_run_retarget P o o' s Ho). exact H.
Qed.
Print Assumptions C106_metropolis.
Definition flat_mh : mh_params := mkMH [-(10)] [10] 1 0 1 (fun _ => Fin 0).
Definition hill (k : Q) (x : vec) : fl Q := Fin (k - nth 0 x 0 * nth 0 x 0).
Definition mh_two : list is_ev := [mkIs [mkStep 0 [mkAttempt [1] (Fin (-(2))) 0]] 1; mkIs [mkStep 0 [mkAttempt [2] (Fin (-(1))) 0; mkAttempt [0] (Fin (-(1))) 0]] 2].
Example C106_metropolis_example : exists s, mh_reachable flat_mh [0] [OpIS (hill 0) 60 2 mh_two (fun i => i)] s /\ samples (mh_core s) <> [] /\
  Forall2 mh_retarget [OpIS (hill 0) 60 2 mh_two (fun i => i)] [OpIS (hill 5) 60 2 mh_two (fun i => i)].
Proof.
  destruct (mh_importance_sample flat_mh (hill 0) 2 60 mh_two (fun i => i) (mh_new [0])) as [s|s|e s] eqn:E; try (exfalso; vm_compute in E; discriminate).
  exists s. split; [apply (mh_reach_op _ _ [] (mh_new [0])); [constructor|left; exact E]|]. split; [|constructor; [|constructor]].
  - vm_compute in E. injection E as <-. discriminate.
  - simpl. split; [|auto]. exists 5. intros x. simpl. ring.
Qed.

(** * Rejection sampling: the bound [scaling] times the proposal has to dominate the target and is scaled with it *)
Theorem C106_rejection P P' c pi pi' : 0 < c -> scaled c pi pi' -> rj_q P' = rj_q P -> rj_kde P' = rj_kde P -> rj_scaling P' == c * rj_scaling P ->
  forall n timeout e0 tape pick s, rej_importance_sample P' pi' n timeout e0 tape pick s = rej_importance_sample P pi n timeout e0 tape pick s.
Proof. intros C S E1 E2 E3 n timeout e0 tape pick s. now apply (rej_call_scale P P' c pi pi'). Qed.
Print Assumptions C106_rejection.
Definition rej_one : rej_round := mkRound (fun i => [Qnat i]) (fun _ => 1 # 2) 1.
Example C106_rejection_example : exists s, rej_importance_sample (mkRej (fun _ => 1) 6 1) (fun _ => 2 * 3) 2 60 0 [rej_one] (fun i => i) core_init = Done s /\ length (samples s) = 2%nat /\
  scaled 3 (fun _ => 2) (fun _ => 2 * 3) /\ 6 == 3 * 2.
Proof. eexists. split; [vm_compute; reflexivity|]. split; [reflexivity|]. split; [intros x; reflexivity|reflexivity]. Qed.
(** With the bound as it is, the accepted points depend on the constant. *)
Theorem C106_rejection_refuted : exists P c pi pi' n timeout e0 tape pick s s', 0 < c /\ scaled c pi pi' /\
  rej_importance_sample P pi n timeout e0 tape pick core_init = Done s /\ rej_importance_sample P pi' n timeout e0 tape pick core_init = Done s' /\ samples s <> samples s'.
Proof.
  exists (mkRej (fun _ => 1) 4 1), (1 # 2), (fun x => if Qeq_bool (nth 0 x 0) 0 then 4 else 2), (fun x => (1 # 2) * (if Qeq_bool (nth 0 x 0) 0 then 4 else 2)), 2%nat, 1, 0, [mkRound (fun i => [Qnat i]) (fun _ => 1 # 3) 1], (fun i => i).
  do 2 eexists. split; [reflexivity|]. split; [intros x; reflexivity|]. split; [vm_compute; reflexivity|]. split; [vm_compute; reflexivity|]. discriminate.
Qed.
Print Assumptions C106_rejection_refuted.

(** * Deterministic mixture and layered adaptive importance sampling *)
Definition pop_retarget (c : Q) (o o' : pop_op * bool) : Prop :=
  snd o' = snd o /\
  match fst o, fst o' with
  | PopCall pi n t tape, PopCall pi' n' t' tape' => scaled c pi pi' /\ n' = n /\ t' = t /\ tape' = tape
  | PopSample m, PopSample m' => m' = m
  | PopReset us, PopReset us' => us' = us
  | _, _ => False
  end.
Lemma pop_run_retarget k P c o o' s s' : 0 < c -> pop_retarget c o o' -> pop_like c s s' -> outs (pop_like c) (pop_run k P (fst o) s) (pop_run k P (fst o') s').
Proof.
  intros C (_ & H) L. destruct o as [[pi n t tape|m|us] b], o' as [[pi' n' t' tape'|m'|us'] b']; cbn [fst] in H; try contradiction.
  - destruct H as (S & -> & -> & ->). now apply pop_loop_scale.
  - subst m'. destruct L as (L1 & L2 & L3 & L4 & L5 & L6 & L7). unfold pop_like; simpl. rewrite L4. repeat split; auto.
  - subst us'. unfold pop_like; simpl. repeat split; auto.
Qed.
(** The samples, the returned weights, the proposals and the counters are the same. *)
Theorem C106_population k P us c ops ops' s : 0 < c -> pop_reachable k P us ops s -> Forall2 (pop_retarget c) ops ops' ->
  exists s', pop_reachable k P us ops' s' /\ pop_samples s' = pop_samples s /\ same_weights (pop_returned s) (pop_returned s') /\ pop_means s' = pop_means s /\
    pop_q_samples s' = pop_q_samples s /\ pop_q_evals s' = pop_q_evals s /\ pop_pi_evals s' = pop_pi_evals s.
Proof.
  intros C R F. assert (G : exists s', pop_reachable k P us ops' s' /\ pop_like c s s').
  { revert ops' F. induction R as [|o ops s s1 R IH E|o ops s e s1 R IH E]; intros ops' F; inversion F as [|? (o', b) ? l' Ho Hl]; subst.
    - exists (pop_new P us). split; [constructor|]. unfold pop_like; simpl. repeat split; auto.
    - destruct (IH l' Hl) as (s' & R' & L). pose proof (pop_run_retarget k P c _ _ s s' C Ho L) as H. cbn [fst] in H. rewrite E in H. pose proof (proj1 Ho) as Eb. simpl in Eb. subst b.
      destruct (pop_run k P o' s') as [s2|s2|e2 s2] eqn:E2; simpl in H; try contradiction. exists s2. split; auto. eapply pop_done; eauto.
    - destruct (IH l' Hl) as (s' & R' & L). pose proof (pop_run_retarget k P c _ _ s s' C Ho L) as H. cbn [fst] in H. rewrite E in H. pose proof (proj1 Ho) as Eb. simpl in Eb. subst b.
      destruct (pop_run k P o' s') as [s2|s2|e2 s2] eqn:E2; simpl in H; try contradiction. destruct H as (<- & H). exists s2. split; auto. eapply pop_fail; eauto. }
  destruct G as (s' & R' & L1 & L2 & L3 & L4 & L5 & L6 & L7). exists s'. repeat split; auto. unfold pop_returned. now apply (normalise_same c).
Qed.
Print Assumptions C106_population.
Definition pair_pop : pop_params := mkPop [0] [1] 2 1 1 (fun m x => 1 + Qabs.Qabs (nth 0 m 0 - nth 0 x 0)).
Definition pair_round : pop_round := mkPopR (fun j _ => [Qnat j / 4]) (fun _ _ => 1 # 2) (fun _ _ => ([1 # 8], 1 # 3)) 0.
Definition tilt (c : Q) (x : vec) : Q := c * (1 + nth 0 x 0).
Example C106_population_example k : exists s, pop_reachable k pair_pop [[1 # 4]; [3 # 4]] [(PopCall (tilt 1) 4 1 [pair_round; pair_round], true)] s /\ length (pop_samples s) = 4%nat /\
  Forall2 (pop_retarget 3) [(PopCall (tilt 1) 4 1 [pair_round; pair_round], true)] [(PopCall (tilt 3) 4 1 [pair_round; pair_round], true)].
Proof.
  destruct (pop_call k pair_pop (tilt 1) 4 1 [pair_round; pair_round] (pop_new pair_pop [[1 # 4]; [3 # 4]])) as [s|s|e s] eqn:E; try (exfalso; destruct k; vm_compute in E; discriminate).
  exists s. split; [apply (pop_done _ _ _ _ [] (pop_new pair_pop [[1 # 4]; [3 # 4]])); [constructor|exact E]|]. split; [|constructor; [|constructor]].
  - destruct k; vm_compute in E; injection E as <-; reflexivity.
  - split; [reflexivity|]. simpl. split; [|auto]. intros x. unfold tilt. ring.
Qed.

(** * Mixture population Monte Carlo: the constant may be another one for every call *)
Definition mp_retarget (o o' : mp_op * bool) : Prop :=
  snd o' = snd o /\
  match fst o, fst o' with
  | MpCall pi n t tape, MpCall pi' n' t' tape' => (exists c, 0 < c /\ scaled c pi pi') /\ n' = n /\ t' = t /\ tape' = tape
  | MpSample m, MpSample m' => m' = m
  | MpReset us, MpReset us' => us' = us
  | _, _ => False
  end.
Lemma mp_run_retarget P o o' s s' : comp_ext P -> mp_retarget o o' -> mp_like s s' -> outs mp_like (mp_run P (fst o) s) (mp_run P (fst o') s').
Proof.
  intros X (_ & H) L. destruct o as [[pi n t tape|m|us] b], o' as [[pi' n' t' tape'|m'|us'] b']; cbn [fst] in H; try contradiction.
  - destruct H as ((c & C & S) & -> & -> & ->). now apply (mp_loop_scale P c).
  - subst m'. destruct L as (L1 & L2 & L3 & L4 & L5 & L6 & L7 & L8 & L9). unfold mp_like; simpl. rewrite L6. repeat split; auto.
  - subst us'. destruct L as (L1 & L2 & L3 & L4 & L5 & L6 & L7 & L8 & L9). pose proof (mp_like_refl (mp_reset P us s)) as Z. unfold mp_like in *; simpl in *. rewrite ?L9. exact Z.
Qed.
Theorem C106_mpmc P us ops ops' s : comp_ext P -> mp_reachable P us ops s -> Forall2 mp_retarget ops ops' ->
  exists s', mp_reachable P us ops' s' /\ mp_samples s' = mp_samples s /\ same_weights (mp_weights s) (mp_weights s') /\
    Forall2 Qeq (mp_mixw s) (mp_mixw s') /\ Forall2 (Forall2 Qeq) (map fst (mp_props s)) (map fst (mp_props s')) /\ Forall2 (Forall2 (Forall2 Qeq)) (map snd (mp_props s)) (map snd (mp_props s')) /\
    mp_q_samples s' = mp_q_samples s /\ mp_q_evals s' = mp_q_evals s /\ mp_pi_evals s' = mp_pi_evals s.
Proof.
  intros X R F. assert (G : exists s', mp_reachable P us ops' s' /\ mp_like s s').
  { revert ops' F. induction R as [|o ops s s1 R IH E|o ops s e s1 R IH E]; intros ops' F; inversion F as [|? (o', b) ? l' Ho Hl]; subst.
    - exists (mp_new P us). split; [constructor|]. apply mp_like_refl.
    - destruct (IH l' Hl) as (s' & R' & L). pose proof (mp_run_retarget P _ _ s s' X Ho L) as H. cbn [fst] in H. rewrite E in H. pose proof (proj1 Ho) as Eb. simpl in Eb. subst b.
      destruct (mp_run P o' s') as [s2|s2|e2 s2] eqn:E2; simpl in H; try contradiction. exists s2. split; auto. eapply mp_done; eauto.
    - destruct (IH l' Hl) as (s' & R' & L). pose proof (mp_run_retarget P _ _ s s' X Ho L) as H. cbn [fst] in H. rewrite E in H. pose proof (proj1 Ho) as Eb. simpl in Eb. subst b.
      destruct (mp_run P o' s') as [s2|s2|e2 s2] eqn:E2; simpl in H; try contradiction. destruct H as (<- & H). exists s2. split; auto. eapply mp_fail; eauto. }
  destruct G as (s' & R' & L1 & L2 & L3 & L4 & L5 & L6 & L7 & L8 & L9). exists s'. repeat split; auto; (eapply map_rel; [|exact L1]); intros a b (H1 & H2); auto.
Qed.
Print Assumptions C106_mpmc.
Definition mp_pair : mp_params := mkMpP [0] [1] 2 2 (1 # 2) (fun m v x => 1 + nth 0 (nth 0 v []) 0 * (nth 0 m 0 + nth 0 x 0)).
Lemma mp_pair_ext : comp_ext mp_pair.
Proof.
  intros m m' v v' x M V. simpl. rewrite (nth_rel Qeq m m' 0 0 0 M (Qeq_refl 0)). rewrite (nth_rel Qeq _ _ 0 0 0 (nth_rel (Forall2 Qeq) v v' 0 [] [] V (Forall2_nil _)) (Qeq_refl 0)). reflexivity.
Qed.
Definition mp_turn : mp_round := mkMpR (fun k _ => Qnat k / 2) (fun k _ => nth k [[1 # 4]; [1 # 2]] []) 0.
Example C106_mpmc_example : exists s, mp_reachable mp_pair [[1 # 4]; [3 # 4]] [(MpCall (tilt 1) 2 1 [mp_turn], true)] s /\ length (mp_samples s) = 2%nat /\ comp_ext mp_pair /\
  Forall2 mp_retarget [(MpCall (tilt 1) 2 1 [mp_turn], true)] [(MpCall (tilt 3) 2 1 [mp_turn], true)].
Proof.
  destruct (mp_call mp_pair (tilt 1) 2 1 [mp_turn] (mp_new mp_pair [[1 # 4]; [3 # 4]])) as [s|s|e s] eqn:E; try (exfalso; vm_compute in E; discriminate).
  exists s. split; [apply (mp_done _ _ _ [] (mp_new mp_pair [[1 # 4]; [3 # 4]])); [constructor|exact E]|]. split; [|split; [apply mp_pair_ext|constructor; [|constructor]]].
  - vm_compute in E. injection E as <-. reflexivity.
  - split; [reflexivity|]. simpl. split; [|auto]. exists 3. split; [reflexivity|]. intros x. unfold tilt. ring.
Qed.

(** * The tree sampler *)
Definition tp_retarget (o o' : tp_op * bool) : Prop :=
  snd o' = snd o /\
  match fst o, fst o' with
  | TpCall pi n t u tape, TpCall pi' n' t' u' tape' => (exists c, 0 < c /\ scaled c pi pi') /\ n' = n /\ t' = t /\ u' = u /\ tape' = tape
  | TpSample m sel draw, TpSample m' sel' draw' => m' = m /\ sel' = sel /\ draw' = draw
  | TpReset, TpReset => True
  | _, _ => False
  end.
Lemma tp_retarget_like P ops s : proper (p_lo P) (p_hi P) -> positive_kernel P -> p_flow P = Simple -> p_leaf_resampling P = true -> (exists e, p_ess P = Some e /\ 1 < e) -> (p_nmin P <= 1)%nat ->
  tp_reachable P ops s -> ops_ok (unit_open P) (unit_half P) nonneg ops -> forall ops', Forall2 tp_retarget ops ops' ->
  exists s', tp_reachable P ops' s' /\ call_like P s s' /\ match ops with (TpCall _ _ _ _ _, true) :: _ => caches_same s s' | _ => True end.
Proof.
  intros B K Fl Lr Es Nm R. assert (O : one_mode P) by (destruct Es as (e & E & L); exists e; repeat split; auto; lra).
  induction R as [|o ops s s1 R IH E|o ops s e s1 R IH E]; intros OK ops' F; inversion F as [|? (o', b) ? l' Ho Hl]; subst.
  - exists (tp_new P). split; [constructor|]. split; auto. split; [|left; split; reflexivity]. split; [|split; [exact I|reflexivity]].
    unfold tlike. repeat split; auto. repeat constructor.
  - pose proof (reach2 P ops s B K Fl R (Forall_inv_tail OK)) as S2. destruct (IH (Forall_inv_tail OK) l' Hl) as (s' & R' & L & _). destruct Ho as (Eb & Ho). cbn [fst snd] in *. subst b.
    destruct o as [pi n t u tape|m sel draw|], o' as [pi' n' t' u' tape'|m' sel' draw'|]; try contradiction.
    + destruct Ho as ((c & C & Sc) & -> & -> & -> & ->). pose proof (Forall_inv OK) as (Np & Uu & Ut).
      destruct (call_scale P c pi pi' B Fl Lr O C Sc Es K Np n t u tape s s' Uu Ut L S2) as (H1 & H2). simpl in E. rewrite E in H1, H2.
      destruct (tp_call P pi' n t u tape s') as [s2|s2|e2 s2] eqn:E2; simpl in H1; try contradiction. exists s2. split; [eapply tp_done; eauto|]. split; [|exact H2]. split; [apply H1|right; exact H1].
    + destruct Ho as (-> & -> & ->). pose proof L as ((T & M & C) & D). simpl in E. pose proof (sample_scale P m sel draw s s' M) as Hm.
      destruct (model_sample P (s_model s) m sel draw) eqn:Es1; [|discriminate]. injection E as <-. eexists. split; [eapply tp_done; [exact R'|simpl; rewrite Hm; reflexivity]|]. split; auto.
      apply counts_eq in C. destruct C as (C1 & C2 & C3 & C4 & C5 & C6).
      assert (Sh : shape_like (mkS (s_tree s) (s_model s) (s_q_samples s + m) (s_q_evals s) (s_pi_evals s) (g_draws s + m) (g_qs s) (g_pis s)) (mkS (s_tree s') (s_model s') (s_q_samples s' + m) (s_q_evals s') (s_pi_evals s') (g_draws s' + m) (g_qs s') (g_pis s'))).
      { split; [exact T|]. split; [exact M|]. unfold counts; simpl. rewrite C1, C2, C3, C4, C5, C6. reflexivity. }
      split; [exact Sh|]. destruct D as [D|(_ & D2 & D3 & D4 & D5)]; [left; exact D|right]. split; [exact Sh|]. split; [exact D2|]. split; [exact D3|]. split; [exact D4|exact D5].
    + simpl in E. injection E as <-. exists (tp_reset P s'). split; [eapply tp_done; [exact R'|reflexivity]|]. split; auto. split; [|left; split; reflexivity]. split; [|split; [exact I|reflexivity]].
      unfold tlike. repeat split; auto. repeat constructor.
  - pose proof (reach2 P ops s B K Fl R (Forall_inv_tail OK)) as S2. destruct (IH (Forall_inv_tail OK) l' Hl) as (s' & R' & L & _). destruct Ho as (Eb & Ho). cbn [fst snd] in *. subst b.
    destruct o as [pi n t u tape|m sel draw|], o' as [pi' n' t' u' tape'|m' sel' draw'|]; try contradiction; [| |discriminate].
    + destruct Ho as ((c & C & Sc) & -> & -> & -> & ->). pose proof (Forall_inv OK) as (Np & Uu & Ut).
      destruct (call_scale P c pi pi' B Fl Lr O C Sc Es K Np n t u tape s s' Uu Ut L S2) as (H1 & H2). simpl in E. rewrite E in H1, H2.
      destruct (tp_call P pi' n t u tape s') as [s2|s2|e2 s2] eqn:E2; simpl in H1; try contradiction. destruct H1 as (<- & H1). exists s2. split; [eapply tp_fail; eauto|]. split; auto. split; [apply H1|right; exact H1].
    + destruct Ho as (-> & -> & ->). pose proof L as ((T & M & C) & D). simpl in E. pose proof (sample_scale P m sel draw s s' M) as Hm.
      destruct (model_sample P (s_model s) m sel draw) eqn:Es1; [discriminate|]. injection E as <- <-. eexists. split; [eapply tp_fail; [exact R'|simpl; rewrite Hm; reflexivity]|]. split; auto.
      apply counts_eq in C. destruct C as (C1 & C2 & C3 & C4 & C5 & C6).
      assert (Sh : shape_like (mkS (s_tree s) (s_model s) (s_q_samples s + m) (s_q_evals s) (s_pi_evals s) (g_draws s + 0) (g_qs s) (g_pis s)) (mkS (s_tree s') (s_model s') (s_q_samples s' + m) (s_q_evals s') (s_pi_evals s') (g_draws s' + 0) (g_qs s') (g_pis s'))).
      { split; [exact T|]. split; [exact M|]. unfold counts; simpl. rewrite C1, C2, C3, C4, C5, C6. reflexivity. }
      split; [exact Sh|]. destruct D as [D|(_ & D2 & D3 & D4 & D5)]; [left; exact D|right]. split; [exact Sh|]. split; [exact D2|]. split; [exact D3|]. split; [exact D4|exact D5].
Qed.
(** Simple flow with leaf resampling and an effective sample size target above one: the cells, the samples, the returned weights and the counters are the same, whatever constant each call uses. *)
Theorem C106_tree_partial P ops ops' pi n timeout u tape s : proper (p_lo P) (p_hi P) -> positive_kernel P -> p_flow P = Simple -> p_leaf_resampling P = true ->
  (exists e, p_ess P = Some e /\ 1 < e) -> (p_nmin P <= 1)%nat ->
  tp_reachable P ((TpCall pi n timeout u tape, true) :: ops) s -> ops_ok (unit_open P) (unit_half P) nonneg ((TpCall pi n timeout u tape, true) :: ops) ->
  Forall2 tp_retarget ((TpCall pi n timeout u tape, true) :: ops) ops' ->
  exists s' l l', tp_reachable P ops' s' /\ get_samples P (s_tree s) = Ok l /\ get_samples P (s_tree s') = Ok l' /\ map fst l' = map fst l /\ same_weights (map snd l) (map snd l') /\
    map (leaf_cell (s_tree s')) (t_leaves (s_tree s')) = map (leaf_cell (s_tree s)) (t_leaves (s_tree s)) /\ s_q_samples s' = s_q_samples s /\ s_q_evals s' = s_q_evals s /\ s_pi_evals s' = s_pi_evals s.
Proof.
  intros B K Fl Lr Es Nm R OK F. destruct (tp_retarget_like P _ s B K Fl Lr Es Nm R OK ops' F) as (s' & R' & (Sh & _) & W). destruct Sh as (T & M & C). apply counts_eq in C. destruct C as (C1 & C2 & C3 & _).
  destruct Es as (e & Ee & Le). unfold get_samples. rewrite Ee. destruct (Qltb 1 e) eqn:X; [|apply not_true_iff_false in X; exfalso; apply X; unfold Qltb; apply negb_true_iff, not_true_iff_false; rewrite Qle_bool_iff; lra].
  do 3 eexists. split; [exact R'|]. split; [reflexivity|]. split; [reflexivity|]. destruct T as (T1 & T2 & T3 & T4 & T5 & T6 & T7). rewrite T5, T6.
  assert (G : forall (m : list bool) (xs : list vec) (ws ws' : list (fl Q)), length ws' = length ws -> same_weights (masked m ws) (masked m ws') ->
     map fst (combine (masked m xs) (masked m ws')) = map fst (combine (masked m xs) (masked m ws)) /\ same_weights (map snd (combine (masked m xs) (masked m ws))) (map snd (combine (masked m xs) (masked m ws')))).
  { intros m xs ws ws' Ln Sw. revert Sw. generalize (masked m xs). unfold same_weights. intros ys H. revert ys. induction H as [|a b l l' Hab H IH]; intros [|y ys]; simpl; auto. destruct (IH ys) as (I1 & I2). rewrite I1. split; auto. }
  unfold caches_same in W. rewrite T6 in W. destruct (G (t_mask (s_tree s)) (t_samples (s_tree s)) (t_weights (s_tree s)) (t_weights (s_tree s')) T7 W) as (G1 & G2). split; [exact G1|]. split; [exact G2|]. split; [|auto].
  rewrite T2. apply map_ext. intros i. unfold leaf_cell, node_cell. pose proof (F2_nth _ _ _ i T1) as H. destruct (nth_error (t_nodes (s_tree s)) i) as [a|], (nth_error (t_nodes (s_tree s')) i) as [a'|]; try contradiction; auto.
  destruct H as (H1 & H2 & _). rewrite H1, H2. reflexivity.
Qed.
Print Assumptions C106_tree_partial.
Definition scale_P : tp_params := line Haar Simple true (Some 2) 1 1.
Definition bowl (c : Q) (x : vec) : Q := c * (1 + nth 0 x 0 * nth 0 x 0).
Definition scale_ops (c : Q) : list (tp_op * bool) := [(TpCall (bowl c) 2 1 [1 # 2] [unit_round (1 # 2)], true)].
Example C106_tree_example : exists s, tp_reachable scale_P (scale_ops 1) s /\ length (t_leaves (s_tree s)) = 2%nat /\ Forall2 tp_retarget (scale_ops 1) (scale_ops 3) /\
  ops_ok (unit_open scale_P) (unit_half scale_P) nonneg (scale_ops 1).
Proof.
  destruct (tp_call scale_P (bowl 1) 2 1 [1 # 2] [unit_round (1 # 2)] (tp_new scale_P)) as [s|s|e s] eqn:E; try (exfalso; vm_compute in E; discriminate).
  exists s. split; [apply (tp_done _ _ [] (tp_new scale_P)); [constructor|exact E]|]. split; [vm_compute in E; injection E as <-; reflexivity|]. split.
  - constructor; [|constructor]. split; [reflexivity|]. simpl. split; [|auto]. exists 3. split; [reflexivity|]. intros x. unfold bowl. ring.
  - constructor; [|constructor]. simpl. split; [|split].
    + intros x. unfold bowl. nra.
    + split; [reflexivity|]. intros _. repeat constructor.
    + constructor; [|constructor]. apply unit_ok; reflexivity.
Qed.
(** With the effective sample size target 9/10 of def_methods.yaml a leaf can hold several samples, of which only the last weight is normalised: the returned weights of
    the two runs are not even proportional. *)
Theorem C106_tree_refuted : exists P c pi pi' n timeout u tape s s' l l', 0 < c /\ scaled c pi pi' /\ proper (p_lo P) (p_hi P) /\ p_flow P = Simple /\ p_leaf_resampling P = true /\ p_ess P = Some (9 # 10) /\
  tp_call P pi n timeout u tape (tp_new P) = Done s /\ tp_call P pi' n timeout u tape (tp_new P) = Done s' /\ get_samples P (s_tree s) = Ok l /\ get_samples P (s_tree s') = Ok l' /\
  map fst l' = map fst l /\ ~ proportional (map snd l) (map snd l').
Proof.
  exists (line Haar Simple true (Some (9 # 10)) 2 1), 2, (fun _ => 1), (fun _ => 2), 2%nat, 1, [1 # 2], [unit_round (1 # 2)]. do 4 eexists.
  split; [reflexivity|]. split; [intros x; reflexivity|]. split; [apply line_proper|]. split; [reflexivity|]. split; [reflexivity|]. split; [reflexivity|].
  split; [vm_compute; reflexivity|]. split; [vm_compute; reflexivity|]. split; [vm_compute; reflexivity|]. split; [vm_compute; reflexivity|]. split; [reflexivity|].
  intros (k & K & H). inversion H as [|? ? ? ? H1 H2]; subst. inversion H2 as [|? ? ? ? H3 H4]; subst. simpl in H1, H3. assert (X1 : k == 2) by lra. assert (X2 : k == 1) by lra. lra.
Qed.
Print Assumptions C106_tree_refuted.

(** * HiDaisee *)
Definition hd_retarget (c : Q) (o o' : hd_op * bool) : Prop :=
  snd o' = snd o /\
  match fst o, fst o' with
  | HdCall pi n rds, HdCall pi' n' rds' => scaled c pi pi' /\ n' = n /\ rds' = rds
  | HdSample n, HdSample n' => n' = n
  | HdReset, HdReset => True
  | _, _ => False
  end.
(** The optimism boost is added to mean weights; when it is scaled with the target (in particular when it is zero), the samples are the same and the weights, which are returned as they
    are, are multiplied by the constant. *)
Theorem C106_hidaisee_partial P b' c ops ops' s : 0 < c -> (forall t n, b' t n == c * hp_boost P t n) -> hd_reachable P ops s -> Forall2 (hd_retarget c) ops ops' ->
  exists s', hd_reachable (mkHP (hp_lo P) (hp_hi P) b' (hp_nmin P) (hp_ess P)) ops' s' /\ map fst (hs_samples s') = map fst (hs_samples s) /\
    Forall2 (fun w w' => w' == c * w) (map snd (hs_samples s)) (map snd (hs_samples s')) /\ fst (hs_model s') = fst (hs_model s) /\ same_weights (snd (hs_model s)) (snd (hs_model s')) /\
    hs_pi s' = hs_pi s /\ hs_q s' = hs_q s /\ hs_draws s' = hs_draws s.
Proof.
  intros C Bs R F. set (P' := mkHP (hp_lo P) (hp_hi P) b' (hp_nmin P) (hp_ess P)). assert (G : exists s', hd_reachable P' ops' s' /\ hd_like c s s').
  { revert ops' F. induction R as [|ops s pi n rds s1 R IH E|ops s pi n rds e s1 R IH E|ops s n R IH|ops s R IH]; intros ops' F; inversion F as [|? (o', b) ? l' (Eb & Ho) Hl]; subst.
    1: exists (hd_new P'); split; [constructor|apply hd_new_like].
    all: destruct (IH l' Hl) as (s' & R' & L); cbn [fst snd] in *; subst b; destruct o' as [pi' n' rds'|n'|]; try contradiction.
    - destruct Ho as (Sc & -> & ->). pose proof (hd_call_scale P c b' pi pi' C Bs Sc n rds s s' L) as H. rewrite E in H. fold P' in H.
      destruct (hd_call P' pi' n rds s') as [s2|s2|e2 s2] eqn:E2; simpl in H; try contradiction. exists s2. split; auto. eapply hd_done; eauto.
    - destruct Ho as (Sc & -> & ->). pose proof (hd_call_scale P c b' pi pi' C Bs Sc n rds s s' L) as H. rewrite E in H. fold P' in H.
      destruct (hd_call P' pi' n rds s') as [s2|s2|e2 s2] eqn:E2; simpl in H; try contradiction. destruct H as (<- & H). exists s2. split; auto. eapply hd_failed; eauto.
    - subst n'. exists (hd_drawn n s'). split; [now apply hd_sampled|]. destruct L as (T & S & E1 & E2 & E3 & E4 & E5). unfold hd_like, hd_drawn; simpl. rewrite E3. split; [exact T|]. split; [exact S|]. repeat split; auto.
    - exists (hd_restart P' s'). split; [now apply hd_reset|]. unfold hd_like; simpl. repeat split; auto; repeat constructor; simpl; ring. }
  destruct G as (s' & R' & _ & L2 & L3 & L4 & L5 & L6 & L7). exists s'. split; auto. split; [|split; [|auto 10]].
  - eapply (map_F2 (row_like c)); [|exact L2]. intros a b H. apply H.
  - eapply map_rel; [|exact L2]. intros a b H. apply H.
Qed.
Print Assumptions C106_hidaisee_partial.
Definition scale_rounds (t : nat) : hround := mkHR (fun _ => nth t [1 # 2; 1 # 2; 1 # 2] (49 # 100)) (fun _ => nth t [2 # 3; 1 # 3; 1 # 7; 1 # 5] 0) 0.
Definition boosted (b : Q) : hd_params := mkHP [0] [1] (fun _ _ => b) 1 2.
Definition ramp (c : Q) (x : vec) : Q := c * nth 0 x 0.
Example C106_hidaisee_example : exists s, hd_reachable (boosted 1) [(HdCall (ramp 1) 3 scale_rounds, true)] s /\ length (hs_samples s) = 3%nat /\
  Forall2 (hd_retarget 100) [(HdCall (ramp 1) 3 scale_rounds, true)] [(HdCall (ramp 100) 3 scale_rounds, true)] /\ 100 == 100 * hp_boost (boosted 1) 1 1.
Proof.
  destruct (hd_call (boosted 1) (ramp 1) 3 scale_rounds (hd_new (boosted 1))) as [s|s|e s] eqn:E; try (exfalso; vm_compute in E; discriminate).
  exists s. split; [apply (hd_done _ [] (hd_new (boosted 1))); [constructor|exact E]|]. split; [vm_compute in E; injection E as <-; reflexivity|]. split; [|reflexivity].
  constructor; [|constructor]. split; [reflexivity|]. simpl. split; [|auto]. intros x. unfold ramp. ring.
Qed.
(** With the boost as it is, the samples depend on the constant. *)
Theorem C106_hidaisee_refuted : exists P c pi pi' n rds s s', 0 < c /\ scaled c pi pi' /\ (forall t k, 0 < hp_boost P t k) /\
  hd_call P pi n rds (hd_new P) = Done s /\ hd_call P pi' n rds (hd_new P) = Done s' /\
  exists x, In x (map (fun r => Qred (nth 0 (fst r) 0)) (hs_samples s)) /\ ~ In x (map (fun r => Qred (nth 0 (fst r) 0)) (hs_samples s')).
Proof.
  exists (boosted 1), 100, (ramp 1), (ramp 100), 4%nat, scale_rounds.
  exists (out_state (hd_call (boosted 1) (ramp 1) 4 scale_rounds (hd_new (boosted 1)))), (out_state (hd_call (boosted 1) (ramp 100) 4 scale_rounds (hd_new (boosted 1)))).
  split; [reflexivity|]. split; [intros x; unfold ramp; ring|]. split; [reflexivity|]. split; [vm_compute; reflexivity|]. split; [vm_compute; reflexivity|].
  exists (11 # 20). vm_compute. split; [auto|]. intros [H|[H|[H|[H|[]]]]]; discriminate.
Qed.
Print Assumptions C106_hidaisee_refuted.
