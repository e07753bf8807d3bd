(** Property C109: the origin and the unit of length of the coordinates. A user who measures in other units, or from
    another origin, gets the same samples in the new coordinates with the same weights, from every sampler whose settings
    are converted as well. M-PMC replaces large covariances by a fixed one and is unaffected by the origin only. *)
From Coq Require Import List Bool Arith Lia QArith Lqa.
Import ListNotations.
From Verif Require Import Prelude.Py Prelude.QBase Model.Base Model.MetropolisHastings Model.Rejection Model.Population Model.MPMC Spec.ScaleSpec Spec.UnitsSpec Spec.UnitsOps
  Proofs.ScaleBase Proofs.ScaleSimple Proofs.ScalePop Proofs.UnitsBase Proofs.UnitsSimple Proofs.UnitsPop Proofs.UnitsMpmc.
Open Scope Q_scope.

(** * Metropolis-Hastings *)
Theorem C109_metropolis a b P P' x0 x0' ops ops' s : 0 < a -> mh_space a b P P' -> recoord a b x0 x0' -> mh_reachable P x0 ops s -> Forall2 (mh_units a b) ops ops' ->
  exists s', mh_reachable P' x0' ops' s' /\ recoords a b (samples (mh_core s)) (samples (mh_core s')) /\ weights (mh_core s') = weights (mh_core s) /\
    recoord a b (mh_current s) (mh_current s') /\ recoords a b (mh_traj s) (mh_traj s') /\ mh_types s' = mh_types s /\ recoords_opt a b (model (mh_core s)) (model (mh_core s')) /\
    num_q_samples (mh_core s') = num_q_samples (mh_core s) /\ num_q_evals (mh_core s') = num_q_evals (mh_core s) /\ num_pi_evals (mh_core s') = num_pi_evals (mh_core s).
Proof.
  intros A Sp X R F. assert (G : exists s', mh_reachable P' x0' ops' s' /\ mh_rel a b s s').
  { revert ops' F. induction R as [|ops s o s1 R IH E]; intros ops' F; inversion F as [|? o' ? l' Ho Hl]; subst.
    - exists (mh_new x0'). split; [constructor|]. unfold mh_rel, core_units; simpl. repeat split; auto; constructor.
    - destruct (IH l' Hl) as (s' & R' & L). pose proof (mh_run_units a b A P P' Sp o o' s s' Ho L) as H. destruct E as [E|(e & E)]; rewrite E in H; destruct (mh_run P' o' s') as [s2|s2|e2 s2] eqn:E2; simpl in H; try contradiction.
      + exists s2. split; [|exact H]. eapply mh_reach_op; eauto.
      + destruct H as (<- & H). exists s2. split; [|exact H]. eapply mh_reach_op; eauto. }
  destruct G as (s' & R' & (C1 & C2 & C3 & C4 & C5 & C6 & C7) & M2 & M3 & M4 & M5). exists s'. split; [exact R'|]. repeat (split; auto).
Qed.
Print Assumptions C109_metropolis.
Definition u_flat (lo hi : Q) : mh_params := mkMH [lo] [hi] 1 0 1 (fun _ => Fin 0).
Definition u_hill (x : vec) : fl Q := Fin (- (nth 0 x 0 * nth 0 x 0)).
Definition u_hill' (y : vec) : fl Q := Fin (1 - (nth 0 y 0 - 3) * (nth 0 y 0 - 3) / 4).
Definition u_steps (a : Q) : list is_ev := [mkIs [mkStep 0 [mkAttempt [a * 1] (Fin (-(2))) 0]] 1; mkIs [mkStep 0 [mkAttempt [a * 2] (Fin (-(1))) 0; mkAttempt [a * 0] (Fin (-(1))) 0]] 2].
Lemma one_coord a b0 x y : recoord a [b0] x y -> nth 0 y 0 == a * nth 0 x 0 + b0.
Proof. destruct x as [|x0 [|? ?]], y as [|y0 [|? ?]]; simpl; tauto. Qed.
Lemma one_pt a b0 x y : y == a * x + b0 -> recoord a [b0] [x] [y].
Proof. simpl. auto. Qed.
Lemma one_disp a d e : e == a * d -> stretch a 1 [d] [e].
Proof. split; auto. Qed.
Example C109_metropolis_example : exists s, mh_reachable (u_flat (-(10)) 10) [0] [OpIS u_hill 60 2 (u_steps 1) (fun i => i)] s /\ length (samples (mh_core s)) = 2%nat /\
  mh_space 2 [3] (u_flat (-(10)) 10) (u_flat (-(17)) 23) /\ recoord 2 [3] [0] [3] /\
  Forall2 (mh_units 2 [3]) [OpIS u_hill 60 2 (u_steps 1) (fun i => i)] [OpIS u_hill' 60 2 (u_steps 2) (fun i => i)].
Proof.
  destruct (mh_importance_sample (u_flat (-(10)) 10) u_hill 2 60 (u_steps 1) (fun i => i) (mh_new [0])) as [s|s|e s] eqn:E; try (exfalso; vm_compute in E; discriminate).
  exists s. split; [apply (mh_reach_op _ _ [] (mh_new [0])); [constructor|left; exact E]|]. split; [vm_compute in E; injection E as <-; reflexivity|].
  split; [|split; [apply one_pt; reflexivity|constructor; [|constructor]]].
  - unfold mh_space; simpl. repeat split; auto; try reflexivity. exists 0. intros d e _. simpl. ring.
  - simpl. split; [exists 1; intros x y H; pose proof (one_coord _ _ _ _ H) as N; unfold u_hill, u_hill'; simpl; rewrite N; field|]. repeat split; auto. unfold u_steps.
    repeat constructor; simpl; auto; reflexivity.
Qed.

(** * Rejection sampling *)
Theorem C109_rejection a b P P' pi pi' : 0 < a -> rej_space a b P P' -> redensity a b pi pi' ->
  core_units a b core_init core_init /\
  forall s s', core_units a b s s' -> core_units a b (core_reset s) (core_reset s') /\
    forall n timeout e0 tape tape' pick, Forall2 (round_units a b) tape tape' ->
      outs (core_units a b) (rej_importance_sample P pi n timeout e0 tape pick s) (rej_importance_sample P' pi' n timeout e0 tape' pick s').
Proof.
  intros A Sp D. split; [repeat split; constructor|]. intros s s' L. split; [apply core_reset_units|]. intros n timeout e0 tape tape' pick F. now apply rej_call_units.
Qed.
Print Assumptions C109_rejection.
Definition u_rej (a b : Q) : rej_round := mkRound (fun i => [a * Qnat i + b]) (fun _ => 1 # 2) 1.
Example C109_rejection_example : exists s, rej_importance_sample (mkRej (fun _ => 1) 2 1) (fun x => if Qeq_bool (nth 0 x 0) 0 then 2 else 0) 1 60 0 [u_rej 1 0] (fun i => i) core_init = Done s /\ length (samples s) = 1%nat /\
  rej_space 2 [3] (mkRej (fun _ => 1) 2 1) (mkRej (fun _ => 1 # 2) 2 1) /\ redensity 2 [3] (fun x => if Qeq_bool (nth 0 x 0) 0 then 2 else 0) (fun y => if Qeq_bool (nth 0 y 0) 3 then 1 else 0) /\
  Forall2 (round_units 2 [3]) [u_rej 1 0] [u_rej 2 3].
Proof.
  eexists. split; [vm_compute; reflexivity|]. split; [reflexivity|]. split; [|split].
  - unfold rej_space; simpl. repeat split; auto; try reflexivity.
  - intros x y H. pose proof (one_coord _ _ _ _ H) as N. destruct (Qeq_bool (nth 0 x 0) 0) eqn:E, (Qeq_bool (nth 0 y 0) 3) eqn:E'; try reflexivity; exfalso.
    + apply Qeq_bool_eq in E. apply Qeq_bool_neq in E'. apply E'. rewrite N, E. reflexivity.
    + apply Qeq_bool_neq in E. apply Qeq_bool_eq in E'. apply E. rewrite E' in N. lra.
  - constructor; [|constructor]. split; [|split; reflexivity]. intros i. cbn [rr_draw u_rej]. apply one_pt. ring.
Qed.

(** * Deterministic mixture and layered adaptive importance sampling *)
Lemma pop_run_units a b k c P P' o o' s s' : 0 < a -> 0 < c -> (forall pi pi', redensity a b pi pi' -> forall x y, recoord a b x y -> pi' y == c * pi x) -> pop_space a b P P' -> (0 < pp_K P)%nat ->
  pop_units a b o o' -> pop_rel a b s s' -> outs (pop_rel a b) (pop_run k P (fst o) s) (pop_run k P' (fst o') s').
Proof.
  intros A C Hc (S1 & S2 & S3 & S4 & S5 & S6) K (_ & H) L. destruct o as [[pi n t tape|m|us] f], o' as [[pi' n' t' tape'|m'|us'] f']; cbn [fst] in H; try contradiction.
  - destruct H as (D & -> & -> & F). apply (pop_loop_units a b A c C P P' pi pi'); auto.
  - subst m'. destruct L as (H1 & H2 & H3 & H4 & H5 & H6 & H7). unfold pop_rel; simpl. rewrite H4. repeat (split; auto).
  - destruct H as (-> & U). unfold pop_rel; simpl. split; [now apply recoords_units|]. repeat split; constructor.
Qed.
Theorem C109_population a b k P P' us ops ops' s : 0 < a -> pop_space a b P P' -> (0 < pp_K P)%nat -> unit_draws b us -> pop_reachable k P us ops s -> Forall2 (pop_units a b) ops ops' ->
  exists s', pop_reachable k P' us ops' s' /\ recoords a b (pop_samples s) (pop_samples s') /\ same_weights (pop_returned s) (pop_returned s') /\ recoords a b (pop_means s) (pop_means s') /\
    pop_q_samples s' = pop_q_samples s /\ pop_q_evals s' = pop_q_evals s /\ pop_pi_evals s' = pop_pi_evals s.
Proof.
  intros A Sp K U R F. destruct (redensity_inv a b A) as (c & C & Hc). assert (G : exists s', pop_reachable k P' us ops' s' /\ pop_rel a b s s').
  { revert ops' F. induction R as [|o ops s s1 R IH E|o ops s e s1 R IH E]; intros ops' F; inversion F as [|? (o', f) ? l' Ho Hl]; subst.
    - exists (pop_new P' us). split; [constructor|]. unfold pop_rel; simpl. split; [apply recoords_units; auto; apply Sp|]. repeat split; constructor.
    - destruct (IH l' Hl) as (s' & R' & L). pose proof (pop_run_units a b k c P P' _ _ s s' A C Hc Sp K Ho L) as H. cbn [fst] in H. rewrite E in H. pose proof (proj1 Ho) as Eb. simpl in Eb. subst f.
      destruct (pop_run k P' o' s') as [s2|s2|e2 s2] eqn:E2; simpl in H; try contradiction. exists s2. split; auto. eapply pop_done; eauto.
    - destruct (IH l' Hl) as (s' & R' & L). pose proof (pop_run_units a b k c P P' _ _ s s' A C Hc Sp K Ho L) as H. cbn [fst] in H. rewrite E in H. pose proof (proj1 Ho) as Eb. simpl in Eb. subst f.
      destruct (pop_run k P' o' s') as [s2|s2|e2 s2] eqn:E2; simpl in H; try contradiction. destruct H as (<- & H). exists s2. split; auto. eapply pop_fail; eauto. }
  destruct G as (s' & R' & L1 & L2 & L3 & L4 & L5 & L6 & L7). exists s'. repeat (split; auto). unfold pop_returned. apply (normalise_same 1); [reflexivity|exact L3].
Qed.
Print Assumptions C109_population.
Definition u_pop : pop_params := mkPop [0] [1] 2 1 1 (fun m x => 1 + (nth 0 m 0 - nth 0 x 0) * (nth 0 m 0 - nth 0 x 0)).
Definition u_pop' : pop_params := mkPop [3] [5] 2 1 1 (fun m x => (1 + (nth 0 m 0 - nth 0 x 0) * (nth 0 m 0 - nth 0 x 0) / 4) / 2).
Definition u_round (a b : Q) : pop_round := mkPopR (fun j _ => [a * (Qnat j / 4) + b]) (fun _ _ => 1 # 2) (fun _ _ => ([a * (1 # 8)], 1 # 3)) 0.
Definition u_tilt (x : vec) : Q := 1 + nth 0 x 0.
Definition u_tilt' (y : vec) : Q := (1 + (nth 0 y 0 - 3) / 2) / 2.
Lemma u_tilt_re : redensity 2 [3] u_tilt u_tilt'.
Proof. intros x y H. pose proof (one_coord _ _ _ _ H) as N. unfold u_tilt, u_tilt'. rewrite N. change (2 ^ Z.of_nat (length [3])) with 2. field. Qed.
Example C109_population_example k : exists s, pop_reachable k u_pop [[1 # 4]; [3 # 4]] [(PopCall u_tilt 4 1 [u_round 1 0; u_round 1 0], true)] s /\ length (pop_samples s) = 4%nat /\
  pop_space 2 [3] u_pop u_pop' /\ (0 < pp_K u_pop)%nat /\ unit_draws [3] [[1 # 4]; [3 # 4]] /\
  Forall2 (pop_units 2 [3]) [(PopCall u_tilt 4 1 [u_round 1 0; u_round 1 0], true)] [(PopCall u_tilt' 4 1 [u_round 2 3; u_round 2 3], true)].
Proof.
  destruct (pop_call k u_pop u_tilt 4 1 [u_round 1 0; u_round 1 0] (pop_new u_pop [[1 # 4]; [3 # 4]])) as [s|s|e s] eqn:E; try (exfalso; destruct k; vm_compute in E; discriminate).
  exists s. split; [apply (pop_done _ _ _ _ [] (pop_new u_pop [[1 # 4]; [3 # 4]])); [constructor|exact E]|]. split; [destruct k; vm_compute in E; injection E as <-; reflexivity|].
  split; [|split; [repeat constructor|split; [repeat constructor|constructor; [|constructor]]]].
  - unfold pop_space; simpl. repeat split; auto; try reflexivity. intros m m' M x y X. pose proof (one_coord _ _ _ _ X) as N. pose proof (one_coord _ _ _ _ M) as N'. rewrite N, N'. change (2 ^ Z.of_nat (length [3])) with 2. field.
  - split; [reflexivity|]. simpl. split; [apply u_tilt_re|]. repeat split; auto. constructor; [|constructor; [|constructor]]; (split; [intros; apply one_pt; ring|split; [reflexivity|split; [|reflexivity]]]); intros; (split; [apply one_disp; ring|reflexivity]).
Qed.

(** * Mixture population Monte Carlo: the origin *)
Lemma mp_new_move b P P' us : mp_space 1 b P P' -> unit_draws b us -> Forall2 (pmoved b) (mp_props (mp_new P us)) (mp_props (mp_new P' us)).
Proof.
  intros (S1 & S2 & S3 & S4 & S5 & _) U. simpl. assert (E : mp_dims P' = mp_dims P) by (unfold mp_dims; pose proof (recoord_length 1 b _ _ S2); lia). rewrite E.
  induction U as [|u us Lu U IH]; constructor; auto. split; [now apply recoord_uniform|apply diag_eq; symmetry; exact S5].
Qed.
Lemma mp_run_units b c P P' o o' s s' : 0 < c -> (forall pi pi', redensity 1 b pi pi' -> forall x y, recoord 1 b x y -> pi' y == c * pi x) -> mp_space 1 b P P' ->
  mp_units 1 b (mp_N P) o o' -> mp_rel b (mp_N P) s s' -> outs (mp_rel b (mp_N P)) (mp_run P (fst o) s) (mp_run P' (fst o') s').
Proof.
  intros C Hc Sp (_ & H) L. pose proof Sp as (S1 & S2 & S3 & S4 & S5 & S6). destruct o as [[pi n t tape|m|us] f], o' as [[pi' n' t' tape'|m'|us'] f']; cbn [fst] in H; try contradiction.
  - destruct H as (D & -> & -> & F). apply (mp_loop_move b c C P P' pi pi'); auto.
  - subst m'. destruct L as (H1 & H2 & H3 & H4 & H5 & H6 & H7 & H8 & H9 & H10). unfold mp_rel; simpl. rewrite H6. repeat (split; auto).
  - destruct H as (-> & U & Ln). unfold mp_rel. split; [exact (mp_new_move b P P' us Sp U)|]. simpl. rewrite S3. assert (Z : forall l : list Q, Forall2 Qeq l l) by (induction l; constructor; auto; reflexivity).
    repeat (split; auto); try constructor. now rewrite map_length.
Qed.
Theorem C109_mpmc_partial b P P' us ops ops' s : mp_space 1 b P P' -> unit_draws b us -> length us = mp_N P -> mp_reachable P us ops s -> Forall2 (mp_units 1 b (mp_N P)) ops ops' ->
  exists s', mp_reachable P' us ops' s' /\ recoords 1 b (mp_samples s) (mp_samples s') /\ same_weights (mp_weights s) (mp_weights s') /\ Forall2 Qeq (mp_mixw s) (mp_mixw s') /\
    recoords 1 b (map fst (mp_props s)) (map fst (mp_props s')) /\ Forall2 (Forall2 (Forall2 Qeq)) (map snd (mp_props s)) (map snd (mp_props s')) /\
    mp_q_samples s' = mp_q_samples s /\ mp_q_evals s' = mp_q_evals s /\ mp_pi_evals s' = mp_pi_evals s.
Proof.
  intros Sp U Ln R F. destruct (redensity_inv 1 b eq_refl) as (c & C & Hc). assert (Z : forall l : list Q, Forall2 Qeq l l) by (induction l; constructor; auto; reflexivity).
  assert (G : exists s', mp_reachable P' us ops' s' /\ mp_rel b (mp_N P) s s').
  { revert ops' F. induction R as [|o ops s s1 R IH E|o ops s e s1 R IH E]; intros ops' F; inversion F as [|? (o', f) ? l' Ho Hl]; subst.
    - exists (mp_new P' us). split; [constructor|]. unfold mp_rel. split; [exact (mp_new_move b P P' us Sp U)|]. simpl. rewrite (proj1 (proj2 (proj2 Sp))). repeat (split; auto); try constructor. now rewrite map_length.
    - destruct (IH l' Hl) as (s' & R' & L). pose proof (mp_run_units b c P P' _ _ s s' C Hc Sp Ho L) as H. cbn [fst] in H. rewrite E in H. pose proof (proj1 Ho) as Eb. simpl in Eb. subst f.
      destruct (mp_run P' o' s') as [s2|s2|e2 s2] eqn:E2; simpl in H; try contradiction. exists s2. split; auto. eapply mp_done; eauto.
    - destruct (IH l' Hl) as (s' & R' & L). pose proof (mp_run_units b c P P' _ _ s s' C Hc Sp Ho L) as H. cbn [fst] in H. rewrite E in H. pose proof (proj1 Ho) as Eb. simpl in Eb. subst f.
      destruct (mp_run P' o' s') as [s2|s2|e2 s2] eqn:E2; simpl in H; try contradiction. destruct H as (<- & H). exists s2. split; auto. eapply mp_fail; eauto. }
  destruct G as (s' & R' & L1 & L2 & L3 & L4 & L5 & L6 & L7 & L8 & L9 & L10). exists s'. repeat (split; auto); (eapply map_rel; [|exact L1]); intros p q (H1 & H2); auto.
Qed.
Print Assumptions C109_mpmc_partial.
Definition u_mp (lo hi : Q) : mp_params := mkMpP [lo] [hi] 2 2 (1 # 2) (fun m v x => 1 + nth 0 (nth 0 v []) 0 * ((nth 0 m 0 - nth 0 x 0) * (nth 0 m 0 - nth 0 x 0))).
Definition u_turn (b : Q) : mp_round := mkMpR (fun k _ => Qnat k / 2) (fun k _ => [Qnat (S k) / 4 + b]) 0.
Definition u_lin (y : vec) : Q := 1 + (nth 0 y 0 - 3).
Example C109_mpmc_example : exists s, mp_reachable (u_mp 0 1) [[1 # 4]; [3 # 4]] [(MpCall u_tilt 2 1 [u_turn 0], true)] s /\ length (mp_samples s) = 2%nat /\
  mp_space 1 [3] (u_mp 0 1) (u_mp 3 4) /\ unit_draws [3] [[1 # 4]; [3 # 4]] /\ length [[1 # 4]; [3 # 4]] = mp_N (u_mp 0 1) /\
  Forall2 (mp_units 1 [3] 2) [(MpCall u_tilt 2 1 [u_turn 0], true)] [(MpCall u_lin 2 1 [u_turn 3], true)].
Proof.
  destruct (mp_call (u_mp 0 1) u_tilt 2 1 [u_turn 0] (mp_new (u_mp 0 1) [[1 # 4]; [3 # 4]])) as [s|s|e s] eqn:E; try (exfalso; vm_compute in E; discriminate).
  exists s. split; [apply (mp_done _ _ _ [] (mp_new (u_mp 0 1) [[1 # 4]; [3 # 4]])); [constructor|exact E]|]. split; [vm_compute in E; injection E as <-; reflexivity|].
  split; [|split; [repeat constructor|split; [reflexivity|constructor; [|constructor]]]].
  - unfold mp_space; simpl. repeat split; auto; try reflexivity. intros m m' v v' M V x y X. pose proof (one_coord _ _ _ _ X) as N. pose proof (one_coord _ _ _ _ M) as N'. rewrite N, N'.
    rewrite (nth_rel Qeq _ _ 0 0 0 (nth_rel (Forall2 Qeq) v v' 0 [] [] V (Forall2_nil _)) (Qeq_refl 0)). change (1 ^ Z.of_nat (length [3])) with 1. ring.
  - split; [reflexivity|]. simpl. split; [intros x y X; pose proof (one_coord _ _ _ _ X) as N; unfold u_tilt, u_lin; rewrite N; change (1 ^ Z.of_nat (length [3])) with 1; ring|].
    repeat split; auto. constructor; [|constructor]. split; [reflexivity|split; [|reflexivity]]. intros k j. apply one_pt. ring.
Qed.
(** Units: an entry above 10 makes the covariance 10 times the identity, whatever the unit. Here every length is twice as
    long, so that covariances should be four times as large. *)
Theorem C109_mpmc_refuted : exists P P' us pi pi' tape tape' s s',
  recoord 2 [0] (mp_lo P) (mp_lo P') /\ recoord 2 [0] (mp_hi P) (mp_hi P') /\ mp_N P' = mp_N P /\ mp_K P' = mp_K P /\ mp_sigma P' == 4 * mp_sigma P /\
  (forall m m' v v', recoord 2 [0] m m' -> Forall2 (Forall2 (fun u w => w == 4 * u)) v v' -> redensity 2 [0] (mp_comp P m v) (mp_comp P' m' v')) /\
  unit_draws [0] us /\ length us = mp_N P /\ redensity 2 [0] pi pi' /\ Forall2 (mp_round_units 2 [0]) tape tape' /\
  mp_call P pi 2 1 tape (mp_new P us) = Done s /\ mp_call P' pi' 2 1 tape' (mp_new P' us) = Done s' /\
  recoords 2 [0] (mp_samples s) (mp_samples s') /\ ~ Forall2 (Forall2 (Forall2 (fun u w => w == 4 * u))) (map snd (mp_props s)) (map snd (mp_props s')).
Proof.
  exists (mkMpP [0] [4] 1 2 1 (fun _ _ _ => 1)), (mkMpP [0] [8] 1 2 4 (fun _ _ _ => 1 # 2)), [[1 # 2]], (fun _ => 1), (fun _ => 1 # 2),
    [mkMpR (fun _ _ => 0) (fun k _ => [Qnat k * 4]) 0], [mkMpR (fun _ _ => 0) (fun k _ => [2 * (Qnat k * 4)]) 0].
  do 2 eexists. split; [apply one_pt; reflexivity|]. split; [apply one_pt; reflexivity|]. split; [reflexivity|]. split; [reflexivity|]. split; [reflexivity|].
  split; [intros m m' v v' _ _ x y _; reflexivity|]. split; [repeat constructor|]. split; [reflexivity|]. split; [intros x y _; reflexivity|].
  split; [constructor; [|constructor]; split; [reflexivity|split; [|reflexivity]]; intros k j; apply one_pt; ring|].
  split; [vm_compute; reflexivity|]. split; [vm_compute; reflexivity|]. split; [repeat constructor|].
  simpl. intros F. inversion F as [|? ? ? ? F1 _]; subst. inversion F1 as [|? ? ? ? F2 _]; subst. inversion F2 as [|? ? ? ? F3 _]; subst. vm_compute in F3. discriminate.
Qed.
Print Assumptions C109_mpmc_refuted.
