(** C105: the leaf-resampled tree sampler refines its partition everywhere. *)
From Coq Require Import List Bool Arith Lia QArith Qabs Lqa Permutation.
Import ListNotations.
From Verif Require Import Prelude.Py Prelude.QBase Prelude.QFacts Model.Population Model.Tree Model.TreeSampler Spec.TreeSpec Spec.Box
  Proofs.TreeCells Proofs.TreeProofs Proofs.TreeMask Proofs.TreeSamplerTree Proofs.TreeSamplerInv Proofs.TreeSamplerLeaves Proofs.TreeRequest Proofs.TreeRefine Properties.TreeSamplerProps.
Open Scope Q_scope.

(** The settings: uniform kernel, simple flow, leaf resampling, one sample per leaf. [P] may split any number of leaves per turn. *)
Definition refining (P : tp_params) : Prop :=
  proper (p_lo P) (p_hi P) /\ p_kernel P = Haar /\ p_flow P = Simple /\ p_leaf_resampling P = true /\ (exists e, p_ess P = Some e /\ 1 < e) /\ (p_nmin P <= 1)%nat.

(** C105: after any history of calls on targets with values in [m, Mx] on the root's cube, for every draw in the unit cube, the volumes of
    any two leaves differ at most by the factor K with K^2 * m = Mx * 4^d; so the side of every one of N leaves is at most D as soon as
    K * volume <= D^d * N. *)
Theorem C105_refines :
  forall P m Mx K D N ops s i n, refining P -> 0 < m -> m <= Mx -> 0 <= K -> Mx * power 4 (p_dims P) <= K * K * m -> 0 <= D ->
  tp_reachable P ops s -> Forall (fun ob => fair P m Mx (fst ob)) ops -> (0 < N <= length (t_leaves (s_tree s)))%nat ->
  K * cell_volume (root_center (p_lo P) (p_hi P), root_radius (p_lo P) (p_hi P)) <= power D (p_dims P) * Qnat N ->
  In i (t_leaves (s_tree s)) -> nth_error (t_nodes (s_tree s)) i = Some n ->
  2 * n_radius n <= D /\
  forall j nj, In j (t_leaves (s_tree s)) -> nth_error (t_nodes (s_tree s)) j = Some nj -> cell_volume (n_center nj, n_radius nj) <= K * cell_volume (n_center n, n_radius n).
Proof.
  intros P m Mx K D N ops s i n (B & Ek & F & Lr & (e & Ee & E1) & Nm) Mp MM Kp Hk Dp R Fr HN HV Hi En.
  assert (T : (exists k, tree_inv (p_dims P) (whole_cell P) k (s_tree s)) /\ bal P m Mx (s_tree s)).
  { destruct (grown_inv _ _ _ (proper_box _ _ B) (tp_grown P ops s R)) as (k & I). split; [exists k; exact I|].
    destruct (reach_even P m Mx e B Mp MM Ek F Lr Ee E1 Nm ops s R Fr) as [E|(_ & _ & Bl & _)]; auto.
    apply one_leaf_bal; auto. rewrite E. reflexivity. }
  destruct T as (T & Bl). assert (Lf : leaf_of (s_tree s) i n) by (split; auto). split; [eapply (even_side P m Mx) with (K := K) (N := N); eauto|].
  intros j nj Hj Ej. pose proof (Bl i j Hi Hj) as H. unfold vol in H. rewrite (leaf_cell_of _ _ _ En), (leaf_cell_of _ _ _ Ej) in H.
  pose proof (vol_positive P (whole_cell P) (s_tree s) i (proper_radius _ _ B) T Hi) as Pi. unfold vol in Pi. rewrite (leaf_cell_of _ _ _ En) in Pi.
  change (cell_volume (n_center nj, n_radius nj)) with (cell_volume (node_cell nj)). change (cell_volume (n_center n, n_radius n)) with (cell_volume (node_cell n)).
  set (a := cell_volume (node_cell n)) in *. set (b := cell_volume (node_cell nj)) in *.
  destruct (Qlt_le_dec (K * a) b) as [X|X]; auto. exfalso. assert (Z : 0 <= K * a) by (apply Qmult_le_0_compat; lra).
  assert (Y : (K * a) * (K * a) < b * b) by (clear - X Z; revert X Z; generalize (K * a); intros; nra).
  assert (H0 : Mx * power 4 (p_dims P) * (a * a) <= K * K * m * (a * a)) by (apply Qmult_le_compat_r; [auto|nra]).
  assert (H1 : m * ((K * a) * (K * a)) < m * (b * b)) by (apply Qmult_lt_l; auto).
  setoid_replace (K * K * m * (a * a)) with (m * (K * a * (K * a))) in H0 by ring. apply Qle_not_lt in H0. apply H0. apply Qlt_le_trans with (1 := H1). exact H.
Qed.
Print Assumptions C105_refines.

(** Target 1 + x on [0, 1], six leaves: the sides are at most 1/2 (here K = 3). *)
Definition slope (x : list Q) : Q := 1 + Qabs (hd 0 x).
Definition slope_op : tp_op := TpCall slope 6 1 [1 # 2] (repeat (unit_round (1 # 2)) 5).
Definition slope_P : tp_params := line Haar Simple true (Some 2) 1 1.
Definition slope_end : tp := out_state (tp_run slope_P slope_op (tp_new slope_P)).
Lemma slope_fair : fair slope_P 1 2 slope_op.
Proof.
  split; [split|].
  - intros x. unfold slope. pose proof (Qabs_nonneg (hd 0 x)). lra.
  - intros x H. unfold in_closed in H. simpl in H. inversion H as [|? v ? ? (A1 & A2) A3]; subst. unfold slope. cbn [hd].
    match type of A1 with ?a - ?b <= v => assert (Z : a - b == 0) by (vm_compute; reflexivity); assert (Y : a + b == 1) by (vm_compute; reflexivity) end.
    rewrite Z in A1. rewrite Y in A2. rewrite Qabs_pos by auto. lra.
  - unfold slope_op. apply Forall_forall. intros r Hr. apply repeat_spec in Hr. subst r. intros q. split; [reflexivity|]. repeat constructor; lra.
Qed.
Example C105_refines_example :
  refining slope_P /\ tp_reachable slope_P [(slope_op, true)] slope_end /\ Forall (fun ob => fair slope_P 1 2 (fst ob)) [(slope_op, true)] /\
  2 * power 4 (p_dims slope_P) <= 3 * 3 * 1 /\ length (t_leaves (s_tree slope_end)) = 6%nat /\
  3 * cell_volume (root_center (p_lo slope_P) (p_hi slope_P), root_radius (p_lo slope_P) (p_hi slope_P)) <= power (1 # 2) (p_dims slope_P) * Qnat 6 /\
  exists i n, In i (t_leaves (s_tree slope_end)) /\ nth_error (t_nodes (s_tree slope_end)) i = Some n /\ 2 * n_radius n == 1 # 4.
Proof.
  split; [split; [apply line_proper|]; repeat split; [exists 2; split; [reflexivity|lra]|simpl; lia]|].
  split; [eapply tp_done; [apply tp_init|]; vm_compute; reflexivity|]. split; [constructor; [apply slope_fair|constructor]|].
  split; [vm_compute; discriminate|]. split; [vm_compute; reflexivity|]. split; [vm_compute; discriminate|].
  exists 5%nat. eexists. split; [vm_compute; tauto|]. split; [vm_compute; reflexivity|]. reflexivity.
Qed.
