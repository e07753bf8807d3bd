(** Property C113: the order of the coordinate axes. A user who lists the axes in another order, in the target, the box and
    the proposals, gets the same samples with their coordinates in that order, with the same weights and counts, when the
    random draws are the same. The samplers treat every coordinate alike, so that an axis that nothing depends on may also
    be dropped. *)
From Coq Require Import List Bool Arith Lia QArith Lqa.
Import ListNotations.
From Verif Require Import Prelude.Py Prelude.QBase Model.Base Model.MetropolisHastings Model.Rejection Model.Population Spec.ScaleSpec Spec.AxesSpec Spec.AxesOps
  Proofs.ScaleBase Proofs.ScaleSimple Proofs.ScalePop Proofs.AxesBase Proofs.AxesSimple Proofs.AxesPop.
Open Scope Q_scope.

(** * Metropolis-Hastings *)
Theorem C113_metropolis dm sg P P' x0 x0' ops ops' s : mh_space dm sg P P' -> relabel dm sg x0 x0' -> mh_reachable P x0 ops s -> Forall2 (mh_axes dm sg) ops ops' ->
  exists s', mh_reachable P' x0' ops' s' /\ relabels dm sg (samples (mh_core s)) (samples (mh_core s')) /\ weights (mh_core s') = weights (mh_core s) /\
    relabel dm sg (mh_current s) (mh_current s') /\ relabels dm sg (mh_traj s) (mh_traj s') /\ mh_types s' = mh_types s /\ relabels_opt dm sg (model (mh_core s)) (model (mh_core s')) /\
    num_q_samples (mh_core s') = num_q_samples (mh_core s) /\ num_q_evals (mh_core s') = num_q_evals (mh_core s) /\ num_pi_evals (mh_core s') = num_pi_evals (mh_core s).
Proof.
  intros Sp X R F. assert (G : exists s', mh_reachable P' x0' ops' s' /\ mh_rel dm sg s s').
  { revert ops' F. induction R as [|ops s o s1 R IH E]; intros ops' F; inversion F as [|? o' ? l' Ho Hl]; subst.
    - exists (mh_new x0'). split; [constructor|]. unfold mh_rel, core_axes; simpl. repeat (split; auto); constructor.
    - destruct (IH l' Hl) as (s' & R' & L). pose proof (mh_run_axes dm sg P P' Sp o o' s s' Ho L) as H. destruct E as [E|(e & E)]; rewrite E in H; destruct (mh_run P' o' s') as [s2|s2|e2 s2] eqn:E2; simpl in H; try contradiction.
      + exists s2. split; [|exact H]. eapply mh_reach_op; eauto.
      + destruct H as (<- & H). exists s2. split; [|exact H]. eapply mh_reach_op; eauto. }
  destruct G as (s' & R' & (C1 & C2 & C3 & C4 & C5 & C6 & C7) & M2 & M3 & M4 & M5). exists s'. split; [exact R'|]. repeat (split; auto).
Qed.
Print Assumptions C113_metropolis.
(** A concrete case: two axes, swapped. *)
Notation swap := [1%nat; 0%nat].
Lemma swap_pt u v x y : x == u -> y == v -> relabel 2 swap [u; v] [y; x].
Proof. intros E E'. split; [reflexivity|]. repeat constructor; simpl; auto. Qed.
Lemma swap_inv x y : relabel 2 swap x y -> nth 0 y 0 == nth 1 x 0 /\ nth 1 y 0 == nth 0 x 0.
Proof. intros (_ & F). inversion F as [|? ? ? ? E G]; subst. inversion G as [|? ? ? ? E' _]; subst. simpl. auto. Qed.
Definition ax_mh : mh_params := mkMH [-(1); -(10)] [1; 10] 1 0 1 (fun d => Fin (nth 0 d 0)).
Definition ax_mh' : mh_params := mkMH [-(10); -(1)] [10; 1] 1 0 1 (fun d => Fin (nth 1 d 0)).
Definition ax_hill (x : vec) : fl Q := Fin (- (nth 0 x 0 * nth 0 x 0) - nth 1 x 0).
Definition ax_hill' (y : vec) : fl Q := Fin (- (nth 1 y 0 * nth 1 y 0) - nth 0 y 0).
Definition ax_steps (f : Q -> Q -> vec) : list is_ev :=
  [mkIs [mkStep 0 [mkAttempt (f 3 2) (Fin (-(2))) 0; mkAttempt (f (1 # 2) (1 # 3)) (Fin (-(3))) 0]] 1; mkIs [mkStep 0 [mkAttempt (f 0 2) (Fin (-(1))) 0; mkAttempt (f 0 (-(2))) (Fin (-(1))) 0]] 2].
Example C113_metropolis_example : exists s, mh_reachable ax_mh [0; 1] [OpIS ax_hill 60 2 (ax_steps (fun u v => [u; v])) (fun i => i)] s /\ length (samples (mh_core s)) = 2%nat /\
  mh_space 2 swap ax_mh ax_mh' /\ relabel 2 swap [0; 1] [1; 0] /\
  Forall2 (mh_axes 2 swap) [OpIS ax_hill 60 2 (ax_steps (fun u v => [u; v])) (fun i => i)] [OpIS ax_hill' 60 2 (ax_steps (fun u v => [v; u])) (fun i => i)].
Proof.
  destruct (mh_importance_sample ax_mh ax_hill 2 60 (ax_steps (fun u v => [u; v])) (fun i => i) (mh_new [0; 1])) as [s|s|e s] eqn:E; try (exfalso; vm_compute in E; discriminate).
  exists s. split; [apply (mh_reach_op _ _ [] (mh_new [0; 1])); [constructor|left; exact E]|]. split; [vm_compute in E; injection E as <-; reflexivity|].
  split; [|split; [apply swap_pt; reflexivity|constructor; [|constructor]]].
  - split; [apply swap_pt; reflexivity|]. split; [apply swap_pt; reflexivity|]. repeat (split; [reflexivity|]). intros d e H. destruct (swap_inv _ _ H) as (_ & N). simpl. exact N.
  - simpl. split; [intros x y H; destruct (swap_inv _ _ H) as (N & N'); unfold ax_hill, ax_hill'; simpl; rewrite N, N'; reflexivity|]. split; [reflexivity|]. split; [reflexivity|]. split; [|reflexivity].
    unfold ax_steps. repeat constructor; simpl; auto; reflexivity.
Qed.

(** * Rejection sampling *)
Theorem C113_rejection dm sg P P' pi pi' : rej_space dm sg P P' -> same_density dm sg pi pi' ->
  core_axes dm sg core_init core_init /\
  forall s s', core_axes dm sg s s' -> core_axes dm sg (core_reset s) (core_reset s') /\
    forall n timeout e0 tape tape' pick, Forall2 (round_axes dm sg) tape tape' ->
      outs (core_axes dm sg) (rej_importance_sample P pi n timeout e0 tape pick s) (rej_importance_sample P' pi' n timeout e0 tape' pick s').
Proof.
  intros Sp D. split; [repeat split; constructor|]. intros s s' L. split; [apply core_reset_axes|]. intros n timeout e0 tape tape' pick F. now apply rej_call_axes.
Qed.
Print Assumptions C113_rejection.
Definition ax_rej (f : Q -> Q -> vec) : rej_round := mkRound (fun i => f (Qnat i) (1 # 2)) (fun _ => 1 # 2) 1.
Definition ax_bump (x : vec) : Q := if Qeq_bool (nth 0 x 0) 0 then 2 else 0.
Definition ax_bump' (y : vec) : Q := if Qeq_bool (nth 1 y 0) 0 then 2 else 0.
Lemma ax_bump_same : same_density 2 swap ax_bump ax_bump'.
Proof. intros x y H. destruct (swap_inv _ _ H) as (_ & N). unfold ax_bump, ax_bump'. rewrite (Qeqb_comp _ _ N 0 0 (Qeq_refl 0)). reflexivity. Qed.
Example C113_rejection_example : exists s, rej_importance_sample (mkRej (fun _ => 1) 2 1) ax_bump 1 60 0 [ax_rej (fun u v => [u; v])] (fun i => i) core_init = Done s /\ length (samples s) = 1%nat /\
  rej_space 2 swap (mkRej (fun _ => 1) 2 1) (mkRej (fun _ => 1) 2 1) /\ same_density 2 swap ax_bump ax_bump' /\ Forall2 (round_axes 2 swap) [ax_rej (fun u v => [u; v])] [ax_rej (fun u v => [v; u])].
Proof.
  eexists. split; [vm_compute; reflexivity|]. split; [reflexivity|]. split; [|split; [apply ax_bump_same|]].
  - split; [intros x y _; reflexivity|]. split; reflexivity.
  - constructor; [|constructor]. split; [|split; reflexivity]. intros i. cbn [rr_draw ax_rej]. apply swap_pt; reflexivity.
Qed.

(** * Deterministic mixture and layered adaptive importance sampling *)
Lemma pop_run_axes dm sg k P P' o o' s s' : pop_space dm sg P P' -> (0 < pp_K P)%nat ->
  pop_axes dm sg o o' -> pop_rel dm sg s s' -> outs (pop_rel dm sg) (pop_run k P (fst o) s) (pop_run k P' (fst o') s').
Proof.
  intros (S1 & S2 & S3 & S4 & S5 & S6) K (_ & H) L. destruct o as [[pi n t tape|m|us] f], o' as [[pi' n' t' tape'|m'|us'] f']; cbn [fst] in H; try contradiction.
  - destruct H as (D & -> & -> & F). apply (pop_loop_axes dm sg P P' pi pi'); auto.
  - subst m'. destruct L as (H1 & H2 & H3 & H4 & H5 & H6 & H7). unfold pop_rel; simpl. rewrite H4. repeat (split; auto).
  - unfold pop_rel; simpl. split; [now apply relabels_units|]. repeat split; constructor.
Qed.
Theorem C113_population dm sg k P P' us us' ops ops' s : pop_space dm sg P P' -> (0 < pp_K P)%nat -> relabels dm sg us us' -> pop_reachable k P us ops s -> Forall2 (pop_axes dm sg) ops ops' ->
  exists s', pop_reachable k P' us' ops' s' /\ relabels dm sg (pop_samples s) (pop_samples s') /\ same_weights (pop_returned s) (pop_returned s') /\ relabels dm sg (pop_means s) (pop_means s') /\
    pop_q_samples s' = pop_q_samples s /\ pop_q_evals s' = pop_q_evals s /\ pop_pi_evals s' = pop_pi_evals s.
Proof.
  intros Sp K U R F. assert (G : exists s', pop_reachable k P' us' ops' s' /\ pop_rel dm sg s s').
  { revert ops' F. induction R as [|o ops s s1 R IH E|o ops s e s1 R IH E]; intros ops' F; inversion F as [|? (o', f) ? l' Ho Hl]; subst.
    - exists (pop_new P' us'). split; [constructor|]. unfold pop_rel; simpl. split; [apply relabels_units; auto; apply Sp|]. repeat split; constructor.
    - destruct (IH l' Hl) as (s' & R' & L). pose proof (pop_run_axes dm sg k P P' _ _ s s' Sp K Ho L) as H. cbn [fst] in H. rewrite E in H. pose proof (proj1 Ho) as Eb. simpl in Eb. subst f.
      destruct (pop_run k P' o' s') as [s2|s2|e2 s2] eqn:E2; simpl in H; try contradiction. exists s2. split; auto. eapply pop_done; eauto.
    - destruct (IH l' Hl) as (s' & R' & L). pose proof (pop_run_axes dm sg k P P' _ _ s s' Sp K Ho L) as H. cbn [fst] in H. rewrite E in H. pose proof (proj1 Ho) as Eb. simpl in Eb. subst f.
      destruct (pop_run k P' o' s') as [s2|s2|e2 s2] eqn:E2; simpl in H; try contradiction. destruct H as (<- & H). exists s2. split; auto. eapply pop_fail; eauto. }
  destruct G as (s' & R' & L1 & L2 & L3 & L4 & L5 & L6 & L7). exists s'. repeat (split; auto). unfold pop_returned. apply (normalise_same 1); [reflexivity|exact L3].
Qed.
Print Assumptions C113_population.
Definition ax_comp (i j : nat) (m x : vec) : Q := 1 + (nth i m 0 - nth i x 0) * (nth i m 0 - nth i x 0) + nth j x 0.
Definition ax_pop : pop_params := mkPop [0; 2] [1; 4] 2 1 1 (ax_comp 0 1).
Definition ax_pop' : pop_params := mkPop [2; 0] [4; 1] 2 1 1 (ax_comp 1 0).
Definition ax_round (f : Q -> Q -> vec) : pop_round := mkPopR (fun j _ => f (Qnat j / 4) 3) (fun _ _ => 1 # 2) (fun _ _ => (f (1 # 8) 1, 1 # 3)) 0.
Definition ax_tilt (x : vec) : Q := 1 + nth 0 x 0.
Definition ax_tilt' (y : vec) : Q := 1 + nth 1 y 0.
Definition ax_us (f : Q -> Q -> vec) : list vec := [f (1 # 4) 0; f (3 # 4) 1].
Notation keep := (fun u v : Q => [u; v]).
Notation flip := (fun u v : Q => [v; u]).
Example C113_population_example k : exists s, pop_reachable k ax_pop (ax_us keep) [(PopCall ax_tilt 4 1 [ax_round keep; ax_round keep], true)] s /\ length (pop_samples s) = 4%nat /\
  pop_space 2 swap ax_pop ax_pop' /\ (0 < pp_K ax_pop)%nat /\ relabels 2 swap (ax_us keep) (ax_us flip) /\
  Forall2 (pop_axes 2 swap) [(PopCall ax_tilt 4 1 [ax_round keep; ax_round keep], true)] [(PopCall ax_tilt' 4 1 [ax_round flip; ax_round flip], true)].
Proof.
  destruct (pop_call k ax_pop ax_tilt 4 1 [ax_round keep; ax_round keep] (pop_new ax_pop (ax_us keep))) as [s|s|e s] eqn:E; try (exfalso; destruct k; vm_compute in E; discriminate).
  exists s. split; [apply (pop_done _ _ _ _ [] (pop_new ax_pop (ax_us keep))); [constructor|exact E]|]. split; [destruct k; vm_compute in E; injection E as <-; reflexivity|].
  split; [|split; [repeat constructor|split; [|constructor; [|constructor]]]].
  - split; [apply swap_pt; reflexivity|]. split; [apply swap_pt; reflexivity|]. repeat (split; [reflexivity|]). intros m m' M x y X. destruct (swap_inv _ _ X) as (N & N'). destruct (swap_inv _ _ M) as (_ & N2).
    simpl. unfold ax_comp. rewrite N, N', N2. reflexivity.
  - repeat (constructor; [apply swap_pt; reflexivity|]). constructor.
  - split; [reflexivity|]. simpl. split; [intros x y X; destruct (swap_inv _ _ X) as (_ & N); unfold ax_tilt, ax_tilt'; now rewrite N|]. repeat (split; [reflexivity|]).
    constructor; [|constructor; [|constructor]]; (split; [intros; apply swap_pt; reflexivity|split; [reflexivity|split; [|reflexivity]]]); intros; (split; [apply swap_pt; reflexivity|reflexivity]).
Qed.
