(** Property C109 for the tree samplers: origin and unit of length. With the uniform kernel both can be changed. The normal kernel
    takes the radius of a cell (a length) as a covariance (a squared length), so that only the origin can be changed. *)
From Coq Require Import List Bool Arith Lia ZArith QArith Qabs Lqa.
Import ListNotations.
From Verif Require Import Prelude.Py Prelude.QBase Prelude.QFacts Model.Mixture Model.Tree Model.TreeSampler Spec.ScaleSpec Spec.UnitsSpec Spec.UnitsTree
  Proofs.MHLawProofs Proofs.ScaleBase Proofs.ScaleTree Proofs.UnitsBase Proofs.UnitsTreeBase Proofs.UnitsTreeTurn Proofs.UnitsTreeRun Properties.UnitsProps.
Open Scope Q_scope.

(** The converted history ends in a state with the same answers: samples and weights, further draws, densities and counters. *)
Theorem C109_tree a b P P' ops ops' s : 0 < a -> tp_space a b P P' -> tp_reachable P ops s -> Forall2 (tp_units a b (p_kernel P)) ops ops' ->
  exists s', tp_reachable P' ops' s' /\ result_units (Forall2 (row_units a b)) (get_samples P (s_tree s)) (get_samples P' (s_tree s')) /\
    (forall n sel draw draw', (forall i j, draw_units a b (p_kernel P) (draw i j) (draw' i j)) ->
       result_units (recoords a b) (model_sample P (s_model s) n sel draw) (model_sample P' (s_model s') n sel draw')) /\
    (forall x x', recoord a b x x' -> result_units (times (/ Qpow a (length b))) (tp_prob P (s_tree s) (s_model s) x) (tp_prob P' (s_tree s') (s_model s') x')) /\
    s_q_samples s' = s_q_samples s /\ s_q_evals s' = s_q_evals s /\ s_pi_evals s' = s_pi_evals s.
Proof.
  intros A Sp Rc F. destruct (reach_units a b A P P' Sp ops ops' s F Rc) as (s' & R' & S). exists s'. split; [exact R'|]. pose proof S as (T & M & C).
  split; [now apply get_samples_units|]. split; [|split; [|apply counts_eq in C; tauto]].
  - intros n sel draw draw' H. now apply model_sample_units.
  - intros x x' X. now apply (prob_units a b A P P' Sp).
Qed.
Print Assumptions C109_tree.
Definition u_tree (k : kernel) (f : flow) (lo hi : Q) (nden : Q -> vec -> vec -> Q) : tp_params := mkTP [lo] [hi] k f false (Some 2) 1 1 nden 10.
Definition u_turn (x y : vec) : tp_round := mkR (fun _ => 0) (fun i => if (i =? 1)%nat then x else y) (fun _ => [1 # 2]) 1 (fun _ _ => 1 # 2) (fun _ _ => x) (fun i _ => 1 # 2) (fun i _ => x).
Definition tent (x : vec) : Q := 1 + nth 0 x 0.
Definition tent' (y : vec) : Q := (1 + (nth 0 y 0 - 3) / 2) / 2.
Example C109_tree_example : exists s, tp_reachable (u_tree Haar Simple 0 1 (fun _ _ _ => 1)) [(TpCall tent 2 60 [1 # 2] [u_turn [1 # 2] [1 # 4]], true)] s /\
  (exists l, get_samples (u_tree Haar Simple 0 1 (fun _ _ _ => 1)) (s_tree s) = Ok l /\ length l = 2%nat) /\
  tp_space 2 [3] (u_tree Haar Simple 0 1 (fun _ _ _ => 1)) (u_tree Haar Simple 3 5 (fun _ _ _ => 1)) /\
  Forall2 (tp_units 2 [3] Haar) [(TpCall tent 2 60 [1 # 2] [u_turn [1 # 2] [1 # 4]], true)] [(TpCall tent' 2 60 [1 # 2] [u_turn [1 # 2] [1 # 4]], true)].
Proof.
  destruct (tp_run (u_tree Haar Simple 0 1 (fun _ _ _ => 1)) (TpCall tent 2 60 [1 # 2] [u_turn [1 # 2] [1 # 4]]) (tp_new (u_tree Haar Simple 0 1 (fun _ _ _ => 1)))) as [s|s|e s] eqn:E; try (exfalso; vm_compute in E; discriminate).
  exists s. split; [eapply tp_done; [constructor|exact E]|]. split; [vm_compute in E; injection E as <-; eexists; split; [vm_compute; reflexivity|reflexivity]|].
  split; [unfold tp_space, kernel_units; simpl; repeat split; reflexivity|]. constructor; [|constructor]. split; [reflexivity|]. cbn [fst].
  split; [intros x y H; pose proof (one_coord _ _ _ _ H) as N; unfold tent, tent'; rewrite N; change (2 ^ Z.of_nat (length [3])) with 2; field|].
  split; [reflexivity|]. split; [reflexivity|]. split; [split; reflexivity|]. constructor; [|constructor].
  split; [reflexivity|]. split; [intros i; simpl; destruct (i =? 1)%nat; split; reflexivity|]. split; [intros; split; reflexivity|]. split; [reflexivity|]. split; [reflexivity|].
  split; [intros; split; reflexivity|]. split; [reflexivity|]. intros; split; reflexivity.
Qed.
(** The mixture flow and the normal kernel, from another origin. *)
Definition hat (v : Q) (m x : vec) : Q := 1 / (1 + v + (nth 0 x 0 - nth 0 m 0) * (nth 0 x 0 - nth 0 m 0)).
Example C109_tree_origin_example : exists s, tp_reachable (u_tree Normal MixtureFlow 0 1 hat) [(TpCall tent 2 60 [1 # 2] [u_turn [1 # 2] [1 # 4]], true)] s /\
  (exists l, get_samples (u_tree Normal MixtureFlow 0 1 hat) (s_tree s) = Ok l /\ length l = 2%nat) /\
  tp_space 1 [3] (u_tree Normal MixtureFlow 0 1 hat) (u_tree Normal MixtureFlow 3 4 hat) /\
  Forall2 (tp_units 1 [3] Normal) [(TpCall tent 2 60 [1 # 2] [u_turn [1 # 2] [1 # 4]], true)] [(TpCall (fun y => nth 0 y 0 - 2) 2 60 [7 # 2] [mkR (fun _ => 0) (fun i => if (i =? 1)%nat then [7 # 2] else [13 # 4]) (fun _ => [1 # 2]) 1 (fun _ _ => 1 # 2) (fun _ _ => [7 # 2]) (fun i _ => 1 # 2) (fun i _ => [7 # 2])], true)].
Proof.
  destruct (tp_run (u_tree Normal MixtureFlow 0 1 hat) (TpCall tent 2 60 [1 # 2] [u_turn [1 # 2] [1 # 4]]) (tp_new (u_tree Normal MixtureFlow 0 1 hat))) as [s|s|e s] eqn:E; try (exfalso; vm_compute in E; discriminate).
  exists s. split; [eapply tp_done; [constructor|exact E]|]. split; [vm_compute in E; injection E as <-; eexists; split; [vm_compute; reflexivity|reflexivity]|].
  split.
  - unfold tp_space, kernel_units; cbn [u_tree p_lo p_hi p_kernel p_flow p_leaf_resampling p_ess p_nmin p_parallel p_frames p_nden]. split; [apply one_pt; reflexivity|]. split; [apply one_pt; reflexivity|].
    do 7 (split; [reflexivity|]). split; [reflexivity|]. intros v v' m m' x x' V _ _ _ _ H. unfold hat. rewrite V, (H 0%nat). reflexivity.
  - constructor; [|constructor]. split; [reflexivity|]. cbn [fst]. split; [intros x y H; pose proof (one_coord _ _ _ _ H) as N; unfold tent; rewrite N; change (1 ^ Z.of_nat (length [3])) with 1; field|].
    split; [reflexivity|]. split; [reflexivity|]. split; [apply one_pt; reflexivity|]. constructor; [|constructor].
    split; [reflexivity|]. split; [intros i; simpl; destruct (i =? 1)%nat; apply one_pt; reflexivity|]. split; [intros; split; reflexivity|]. split; [reflexivity|]. split; [reflexivity|].
    split; [intros; apply one_pt; reflexivity|]. split; [reflexivity|]. intros; apply one_pt; reflexivity.
Qed.

(** A change of unit with the normal kernel. The family [width] changes with the unit as the normal densities do; the weights come
    out differently, because the variance of a cell is taken to be a quarter of its radius in every unit. *)
Definition width (v : Q) (m x : vec) : Q := Qabs (nth 0 x 0 - nth 0 m 0) / (v + (nth 0 x 0 - nth 0 m 0) * (nth 0 x 0 - nth 0 m 0)).
Theorem C109_tree_refuted : exists nden ops ops' s s' l l',
  (forall a b v m m' x x', 0 < a -> 0 < v -> recoord a [b] m m' -> recoord a [b] x x' -> a * nden (a * a * v) m' x' == nden v m x) /\
  tp_reachable (u_tree Normal Simple 0 1 nden) ops s /\ tp_reachable (u_tree Normal Simple 0 2 nden) ops' s' /\
  Forall2 (tp_units 2 [0] Normal) ops ops' /\
  get_samples (u_tree Normal Simple 0 1 nden) (s_tree s) = Ok l /\ get_samples (u_tree Normal Simple 0 2 nden) (s_tree s') = Ok l' /\
  recoords 2 [0] (map fst l) (map fst l') /\ ~ same_weights (map snd l) (map snd l').
Proof.
  exists width, [(TpCall (fun _ => 1) 2 60 [3 # 4] [u_turn [3 # 8] [1]], true)], [(TpCall (fun _ => 1 # 2) 2 60 [3 # 2] [mkR (fun _ => 0) (fun i => if (i =? 1)%nat then [3 # 4] else [2]) (fun _ => [1 # 2]) 1 (fun _ _ => 1 # 2) (fun _ _ => [3 # 4]) (fun i _ => 1 # 2) (fun i _ => [3 # 4])], true)].
  destruct (tp_run (u_tree Normal Simple 0 1 width) (TpCall (fun _ => 1) 2 60 [3 # 4] [u_turn [3 # 8] [1]]) (tp_new (u_tree Normal Simple 0 1 width))) as [s|s|e s] eqn:E; try (exfalso; vm_compute in E; discriminate).
  destruct (tp_run (u_tree Normal Simple 0 2 width) (TpCall (fun _ => 1 # 2) 2 60 [3 # 2] [mkR (fun _ => 0) (fun i => if (i =? 1)%nat then [3 # 4] else [2]) (fun _ => [1 # 2]) 1 (fun _ _ => 1 # 2) (fun _ _ => [3 # 4]) (fun i _ => 1 # 2) (fun i _ => [3 # 4])]) (tp_new (u_tree Normal Simple 0 2 width))) as [s'|s'|e s'] eqn:E'; try (exfalso; vm_compute in E'; discriminate).
  destruct (get_samples (u_tree Normal Simple 0 1 width) (s_tree s)) as [l|] eqn:G; [|exfalso; vm_compute in E; injection E as <-; vm_compute in G; discriminate].
  destruct (get_samples (u_tree Normal Simple 0 2 width) (s_tree s')) as [l'|] eqn:G'; [|exfalso; vm_compute in E'; injection E' as <-; vm_compute in G'; discriminate].
  exists s, s', l, l'. split; [|split; [|split; [|split; [|split; [exact G|split; [exact G'|]]]]]].
  - intros a b v m m' x x' A V M X. unfold width. rewrite (one_coord _ _ _ _ M), (one_coord _ _ _ _ X).
    assert (D : a * nth 0 x 0 + b - (a * nth 0 m 0 + b) == a * (nth 0 x 0 - nth 0 m 0)) by ring. rewrite D. generalize (nth 0 x 0 - nth 0 m 0). intros d. rewrite Qabs_Qmult, (Qabs_pos a) by lra.
    assert (0 <= d * d) by (destruct (Qlt_le_dec d 0); nra). assert (N1 : ~ v + d * d == 0) by lra. assert (N2 : ~ a == 0) by lra.
    setoid_replace (a * a * v + a * d * (a * d)) with (a * a * (v + d * d)) by ring. field. auto.
  - eapply tp_done; [constructor|exact E].
  - eapply tp_done; [constructor|exact E'].
  - constructor; [|constructor]. split; [reflexivity|]. cbn [fst]. split; [intros x y _; reflexivity|].
    split; [reflexivity|]. split; [reflexivity|]. split; [apply one_pt; reflexivity|]. constructor; [|constructor].
    split; [reflexivity|]. split; [intros i; simpl; destruct (i =? 1)%nat; apply one_pt; reflexivity|]. split; [intros; split; reflexivity|]. split; [reflexivity|]. split; [reflexivity|].
    split; [intros; apply one_pt; reflexivity|]. split; [reflexivity|]. intros; apply one_pt; reflexivity.
  - vm_compute in E. injection E as <-. vm_compute in E'. injection E' as <-. vm_compute in G. injection G as <-. vm_compute in G'. injection G' as <-. split.
    + constructor; [apply one_pt; reflexivity|]. constructor; [apply one_pt; reflexivity|constructor].
    + intros F. inversion F as [|? ? ? ? W _]; subst. vm_compute in W. discriminate.
Qed.
Print Assumptions C109_tree_refuted.
