(** Property C113: the order of the coordinate axes, for M-PMC, which adapts full covariance matrices. *)
From Coq Require Import List Bool Arith Lia QArith Lqa Permutation.
Import ListNotations.
From Verif Require Import Prelude.Py Prelude.QBase Model.Base Model.Population Model.MPMC Spec.ScaleSpec Spec.AxesSpec Spec.AxesMpmcOps
  Proofs.ScaleBase Proofs.ScalePop Proofs.AxesBase Proofs.AxesMpmc.
Open Scope Q_scope.

Lemma Qeq_list (l : list Q) : Forall2 Qeq l l.
Proof. induction l; constructor; auto; reflexivity. Qed.
Lemma mp_new_axes dm sg P P' us us' : Permutation (seq 0 dm) sg -> mp_space dm sg P P' -> relabels dm sg us us' -> Forall2 (pax dm sg) (mp_props (mp_new P us)) (mp_props (mp_new P' us')).
Proof.
  intros Pm (S1 & S2 & S3 & S4 & S5 & _) U. simpl. destruct (dims_axes dm sg Pm P P' S2) as (-> & ->).
  induction U as [|u u' us us' Hu U IH]; constructor; auto. split; [now apply relabel_uniform|now apply diag_axes].
Qed.
Lemma mp_run_axes dm sg P P' o o' s s' : Permutation (seq 0 dm) sg -> mp_space dm sg P P' ->
  mp_axes dm sg (mp_N P) o o' -> mp_rel dm sg (mp_N P) s s' -> outs (mp_rel dm sg (mp_N P)) (mp_run P (fst o) s) (mp_run P' (fst o') s').
Proof.
  intros Pm Sp (_ & H) L. pose proof Sp as (S1 & S2 & S3 & S4 & S5 & S6). destruct o as [[pi n t tape|m|us] f], o' as [[pi' n' t' tape'|m'|us'] f']; cbn [fst] in H; try contradiction.
  - destruct H as (D & -> & -> & F). apply (mp_loop_axes dm sg Pm P P' pi pi'); auto.
  - subst m'. destruct L as (H1 & H2 & H3 & H4 & H5 & H6 & H7 & H8 & H9 & H10). unfold mp_rel; simpl. rewrite H6. repeat (split; auto).
  - destruct H as (U & Ln). unfold mp_rel. split; [exact (mp_new_axes dm sg P P' us us' Pm Sp U)|]. simpl. rewrite S3. pose proof Qeq_list as Z.
    repeat (split; auto); try constructor. now rewrite map_length.
Qed.
Theorem C113_mpmc dm sg P P' us us' ops ops' s : Permutation (seq 0 dm) sg -> mp_space dm sg P P' -> relabels dm sg us us' -> length us = mp_N P -> mp_reachable P us ops s ->
  Forall2 (mp_axes dm sg (mp_N P)) ops ops' ->
  exists s', mp_reachable P' us' ops' s' /\ relabels dm sg (mp_samples s) (mp_samples s') /\ same_weights (mp_weights s) (mp_weights s') /\ Forall2 Qeq (mp_mixw s) (mp_mixw s') /\
    relabels dm sg (map fst (mp_props s)) (map fst (mp_props s')) /\ Forall2 (relabel_mat dm sg) (map snd (mp_props s)) (map snd (mp_props s')) /\
    mp_q_samples s' = mp_q_samples s /\ mp_q_evals s' = mp_q_evals s /\ mp_pi_evals s' = mp_pi_evals s.
Proof.
  intros Pm Sp U Ln R F. pose proof Qeq_list as Z.
  assert (G : exists s', mp_reachable P' us' ops' s' /\ mp_rel dm sg (mp_N P) s s').
  { revert ops' F. induction R as [|o ops s s1 R IH E|o ops s e s1 R IH E]; intros ops' F; inversion F as [|? (o', f) ? l' Ho Hl]; subst.
    - exists (mp_new P' us'). split; [constructor|]. unfold mp_rel. split; [exact (mp_new_axes dm sg P P' us us' Pm Sp U)|]. simpl. rewrite (proj1 (proj2 (proj2 Sp))). repeat (split; auto); try constructor. now rewrite map_length.
    - destruct (IH l' Hl) as (s' & R' & L). pose proof (mp_run_axes dm sg P P' _ _ s s' Pm Sp Ho L) as H. cbn [fst] in H. rewrite E in H. pose proof (proj1 Ho) as Eb. simpl in Eb. subst f.
      destruct (mp_run P' o' s') as [s2|s2|e2 s2] eqn:E2; simpl in H; try contradiction. exists s2. split; auto. eapply mp_done; eauto.
    - destruct (IH l' Hl) as (s' & R' & L). pose proof (mp_run_axes dm sg P P' _ _ s s' Pm Sp Ho L) as H. cbn [fst] in H. rewrite E in H. pose proof (proj1 Ho) as Eb. simpl in Eb. subst f.
      destruct (mp_run P' o' s') as [s2|s2|e2 s2] eqn:E2; simpl in H; try contradiction. destruct H as (<- & H). exists s2. split; auto. eapply mp_fail; eauto. }
  destruct G as (s' & R' & L1 & L2 & L3 & L4 & L5 & L6 & L7 & L8 & L9 & L10). exists s'. repeat (split; auto); (eapply map_rel; [|exact L1]); intros p q (H1 & H2); auto.
Qed.
Print Assumptions C113_mpmc.

(** A plane, its axes exchanged: a density that depends on the second axis, the mean and the covariance. *)
Notation flip2 := [1; 0]%nat.
Definition am_comp (i j : nat) (m : vec) (v : mat) (x : vec) : Q := 1 + nth i (nth i v []) 0 * ((nth j m 0 - nth j x 0) * (nth j m 0 - nth j x 0)).
Definition am_mp : mp_params := mkMpP [0; 2] [1; 4] 1 3 (1 # 2) (am_comp 0 1).
Definition am_mp' : mp_params := mkMpP [2; 0] [4; 1] 1 3 (1 # 2) (am_comp 1 0).
Definition am_pi (x : vec) : Q := 1 + nth 0 x 0.
Definition am_pi' (y : vec) : Q := 1 + nth 1 y 0.
Definition am_pts (k : nat) : Q * Q := match k with O => (0, 2) | S O => (1, 3) | _ => (1, 4) end.
Definition am_turn (f : Q * Q -> vec) : mp_round := mkMpR (fun _ _ => 0) (fun k _ => f (am_pts k)) 0.
Notation keep2 := (fun p : Q * Q => [fst p; snd p]).
Notation flop2 := (fun p : Q * Q => [snd p; fst p]).
Lemma flip_pt u v x y : x == u -> y == v -> relabel 2 flip2 [u; v] [y; x].
Proof. intros E E'. split; [reflexivity|]. constructor; [exact E'|constructor; [exact E|constructor]]. Qed.
Lemma flip_inv x y : relabel 2 flip2 x y -> nth 0 y 0 == nth 1 x 0 /\ nth 1 y 0 == nth 0 x 0.
Proof. intros (_ & F). inversion F as [|? ? ? ? E F1]; subst. inversion F1 as [|? ? ? ? E' F2]; subst. split; auto. Qed.
Lemma flip_mat v v' : relabel_mat 2 flip2 v v' -> nth 1 (nth 1 v' []) 0 == nth 0 (nth 0 v []) 0.
Proof. intros (_ & _ & F). exact (F2_nth _ _ _ 0 (F2_nth _ _ _ [] F 1%nat ltac:(simpl; lia)) 1%nat ltac:(simpl; lia)). Qed.
Example C113_mpmc_example : exists s, mp_reachable am_mp [[1 # 4; 0]] [(MpCall am_pi 3 1 [am_turn keep2], true)] s /\ length (mp_samples s) = 3%nat /\
  Permutation (seq 0 2) flip2 /\ mp_space 2 flip2 am_mp am_mp' /\ relabels 2 flip2 [[1 # 4; 0]] [[0; 1 # 4]] /\ length [[1 # 4; 0]] = mp_N am_mp /\
  Forall2 (mp_axes 2 flip2 1) [(MpCall am_pi 3 1 [am_turn keep2], true)] [(MpCall am_pi' 3 1 [am_turn flop2], true)].
Proof.
  destruct (mp_call am_mp am_pi 3 1 [am_turn keep2] (mp_new am_mp [[1 # 4; 0]])) as [s|s|e s] eqn:E; try (exfalso; vm_compute in E; discriminate).
  exists s. split; [apply (mp_done _ _ _ [] (mp_new am_mp [[1 # 4; 0]])); [constructor|exact E]|]. split; [vm_compute in E; injection E as <-; reflexivity|].
  split; [exact (perm_swap _ _ [])|]. split; [|split; [constructor; [apply flip_pt; reflexivity|constructor]|split; [reflexivity|constructor; [|constructor]]]].
  - split; [apply flip_pt; reflexivity|]. split; [apply flip_pt; reflexivity|]. repeat (split; [reflexivity|]). intros m m' v v' M V x y X. destruct (flip_inv _ _ X) as (N & _). destruct (flip_inv _ _ M) as (N' & _).
    simpl. unfold am_comp. now rewrite N, N', (flip_mat _ _ V).
  - split; [reflexivity|]. split; [intros x y X; destruct (flip_inv _ _ X) as (_ & N); unfold am_pi, am_pi'; now rewrite N|]. repeat (split; [reflexivity|]).
    constructor; [|constructor]. split; [reflexivity|split; [|reflexivity]]. intros k j. apply flip_pt; reflexivity.
Qed.
