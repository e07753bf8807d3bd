(** Properties C48 and C49: sampling inside the leaves and the density of the tree pyramid sampler; and C45, C46 for its histories. *)
From Coq Require Import List Bool Arith Lia QArith Lqa Permutation.
Import ListNotations.
From Verif Require Import Prelude.Py Prelude.QBase Prelude.QFacts Model.Uniform Model.Population Model.Tree Model.TreeSampler Spec.TreeSpec Spec.Box
  Proofs.TreeCells Proofs.TreeProofs Proofs.TreeMask Proofs.TreeSamplerTree Proofs.TreeSamplerInv Proofs.TreeSamplerLeaves Proofs.TreeResample
  Proofs.TreeDensity Proofs.PopulationProofs.
Open Scope Q_scope.

(** A one-dimensional sampler on [0, 1] with one sample per leaf. *)
Definition unit_round (a : Q) : tp_round :=
  mkR (fun _ => 0) (fun _ => [a]) (fun _ => [a]) 0 (fun _ _ => 0) (fun _ _ => [a]) (fun _ _ => 0) (fun _ _ => [a]).
Definition line (k : kernel) (f : flow) (re : bool) (ess : option Q) (nmin par : nat) : tp_params :=
  mkTP [0] [1] k f re ess nmin par (fun _ _ _ => 1) 10.
Lemma line_proper : proper [0] [1].
Proof. split; [discriminate|]. repeat constructor. Qed.
Lemma unit_ok k f re ess nmin par a : 0 < a -> a < 1 -> round_ok (unit_open (line k f re ess nmin par)) (unit_half (line k f re ess nmin par)) (unit_round a).
Proof. intros A B. split; intros i; split; auto; intros _; constructor; auto. simpl. split; [lra|auto]. Qed.
Definition tp_after (o : outcome tp) : tp := out_state o.

(** C46 for the sampler: after every history, in both flows, whether the calls returned or raised, the leaves partition the root cell. *)
Theorem C46_sampler_partition :
  forall P ops s, is_box (p_lo P) (p_hi P) -> tp_reachable P ops s ->
  exists cells, Forall2 (fun i c => exists n, nth_error (t_nodes (s_tree s)) i = Some n /\ c = (n_center n, n_radius n)) (t_leaves (s_tree s)) cells /\
    NoDup (t_leaves (s_tree s)) /\ tiles cells (root_center (p_lo P) (p_hi P), root_radius (p_lo P) (p_hi P)) /\
    (exists k, length (t_nodes (s_tree s)) = (1 + k * 2 ^ p_dims P)%nat /\ length (t_leaves (s_tree s)) = (1 + k * (2 ^ p_dims P - 1))%nat).
Proof.
  intros P ops s B R. destruct (tp_grown P ops s R) as (tops & T). pose proof (tree_reachable_inv _ _ _ _ B T) as I. exists (leaf_cells (s_tree s)).
  split; [|split; [eapply leaves_nodup; eauto|split; [apply (ti_tiles _ _ _ _ I)|]]].
  - unfold leaf_cells. assert (H : forall i, In i (t_leaves (s_tree s)) -> (i < length (t_nodes (s_tree s)))%nat).
    { intros i Hi. apply In_nth_error in Hi. destruct Hi as (j & J). exact (ti_leaf_lt _ _ _ _ I _ _ J). }
    clear - H. induction (t_leaves (s_tree s)) as [|i l IH]; simpl; constructor.
    + unfold leaf_cell. destruct (nth_error (t_nodes (s_tree s)) i) as [n|] eqn:E; [exists n; split; reflexivity|].
      apply nth_error_None in E. specialize (H i (or_introl eq_refl)). lia.
    + apply IH. intros; apply H; right; auto.
  - eexists. split; [apply (ti_nodes_count _ _ _ _ I)|apply (ti_leaves_count _ _ _ _ I)].
Qed.
Print Assumptions C46_sampler_partition.
Definition line_call : outcome tp :=
  tp_call (line Haar Simple true (Some 2) 1 1) (fun _ => 1) 3 1 [1 # 2] [unit_round (1 # 2); unit_round (1 # 2)] (tp_new (line Haar Simple true (Some 2) 1 1)).
Lemma line_reach : tp_reachable (line Haar Simple true (Some 2) 1 1) [(TpCall (fun _ => 1) 3 1 [1 # 2] [unit_round (1 # 2); unit_round (1 # 2)], true)] (tp_after line_call).
Proof. eapply tp_done; [apply tp_init|]. vm_compute. reflexivity. Qed.
Example C46_sampler_example : is_box [0] [1] /\ exists s,
  tp_reachable (line Haar Simple true (Some 2) 1 1) [(TpCall (fun _ => 1) 3 1 [1 # 2] [unit_round (1 # 2); unit_round (1 # 2)], true)] s /\
  t_leaves (s_tree s) = [3; 2; 4]%nat.
Proof.
  split; [simpl; repeat split; lra|]. exists (tp_after line_call). split; [apply line_reach|vm_compute; reflexivity].
Qed.

Lemma re_placed c rad u : length u = length c -> placed (c, rad) u (re_sample c rad (map (fun a => -(1 # 2) + a) u)).
Proof.
  unfold placed, re_sample. cbn [fst snd]. revert u. induction c as [|a c IH]; intros [|b u] L; try discriminate; [split; [reflexivity|intros j J; inversion J]|].
  injection L as L. destruct (IH u L) as [A B]. cbn [map map2 length]. split; [now rewrite A|].
  intros [|j] J; cbn [nth]; [ring|]. apply B. simpl in J. lia.
Qed.
Lemma draw_placed c rad u : length u = length c -> placed (c, rad) u (uniform_draw (cell_lo c rad) (cell_hi c rad) u).
Proof.
  unfold placed. cbn [fst snd]. revert u. induction c as [|a c IH]; intros [|b u] L; try discriminate; [split; [reflexivity|intros j J; inversion J]|].
  injection L as L. destruct (IH u L) as [A B].
  change (uniform_draw (cell_lo (a :: c) rad) (cell_hi (a :: c) rad) (b :: u))
    with ((a - rad + b * (a + rad - (a - rad))) :: uniform_draw (cell_lo c rad) (cell_hi c rad) u).
  cbn [length]. split; [now rewrite A|]. intros [|j] J; cbn [nth]; [ring|]. apply B. lia.
Qed.

(** C48 (full statement: with the uniform kernel a sample of a leaf lies in the leaf's cell and weighs the target density times the
    cell's volume; for every kernel the weight is target density over proposal density).
    Leaf resampling with the uniform kernel: for every tree, non-negative target and unit draws, each leaf gets one sample in its
    closed cell, at the shares of the sides given by a unit draw of its own (so it is uniform in the cell), and the weights are the products pi x * volume divided by their sum, in the cache and in the node. *)
Theorem C48_resample_partial :
  forall P pi r ops t, proper (p_lo P) (p_hi P) -> p_kernel P = Haar -> nonneg pi -> tree_reachable (p_lo P) (p_hi P) ops t ->
  (forall q, length (rd_re r q) = p_dims P /\ Forall (fun a => 0 <= a /\ a < 1) (rd_re r q)) ->
  let t' := resample_tree P pi r t in
  exists held : list (nat * (cell * list Q)),
    Permutation (map fst held) (t_leaves t) /\ t_leaves t' = t_leaves t /\
    (forall q i c x, nth_error held q = Some (i, (c, x)) -> placed c (rd_re r q) x) /\
    forall i c x, In (i, (c, x)) held -> in_closed c x /\
      exists n w, nth_error (t_nodes t') i = Some n /\ (n_center n, n_radius n) = c /\
        nth_error (t_samples t') i = Some x /\ nth_error (t_weights t') i = Some (Fin w) /\ n_weight n = Fin w /\
        (0 < estimate pi (map snd held) -> w * estimate pi (map snd held) == pi x * cell_volume c) /\
        (estimate pi (map snd held) <= 0 -> w == 0).
Proof.
  intros P pi r ops t B Ek N R H t'. pose proof (tree_reachable_inv _ _ _ _ (proper_box _ _ B) R) as I.
  set (k := count_true (map snd ops)) in *. set (whole := (root_center (p_lo P) (p_hi P), root_radius (p_lo P) (p_hi P))) in *.
  set (den := fun rad : Q => Qpow (2 * rad) (p_dims P)).
  set (sc := fun row : vec * Q * vec => let '(c, rad, z) := row in pi (re_sample c rad z) / (1 / den rad)).
  assert (Rows : forall c rad z, In (c, rad, z) (resample_rows P r (combine (masked (t_mask t) (t_centers t)) (masked (t_mask t) (t_radii t)))) ->
                 length c = p_dims P /\ 0 < rad /\ exists q, z = re_unit P (rd_re r q)).
  { intros c rad z Hz. apply In_nth_error in Hz. destruct Hz as (q & E). rewrite resample_rows_nth in E.
    rewrite <- masked_combine in E by (rewrite (ti_centers _ _ _ _ I), (ti_radii _ _ _ _ I), !map_length; auto).
    destruct (nth_error (masked (t_mask t) (combine (t_centers t) (t_radii t))) q) as [(c0, r0)|] eqn:Em; [|discriminate]. simpl in E. inversion E; subst c0 r0.
    pose proof (mask_length _ _ _ _ I) as ML.
    apply masked_in in Em; [|rewrite combine_length, (ti_centers _ _ _ _ I), (ti_radii _ _ _ _ I), !map_length, ML; apply Nat.min_id].
    destruct Em as (i & _ & _ & Ei). rewrite combine_nth, (ti_centers _ _ _ _ I), (ti_radii _ _ _ _ I), !nth_error_map in Ei.
    destruct (nth_error (t_nodes t) i) as [n|] eqn:En; [|discriminate]. simpl in Ei. inversion Ei; subst c rad.
    destruct (tinv_node P whole (proper_radius _ _ B) t i n (ex_intro _ k I) En) as (_ & D & Pr). eauto. }
  assert (Dp : forall rad, 0 < rad -> 0 < den rad) by (intros; apply Qpow_positive; lra).
  assert (Raw : forall c rad z, In (c, rad, z) (resample_rows P r (combine (masked (t_mask t) (t_centers t)) (masked (t_mask t) (t_radii t)))) ->
    fdivflQ (Fin (pi (re_sample c rad z))) (re_density P rad z) = Fin (sc (c, rad, z)) /\ 0 <= sc (c, rad, z)).
  { intros c rad z Hz. destruct (Rows _ _ _ Hz) as (_ & Pr & _). specialize (Dp _ Pr). unfold re_density. rewrite Ek. fold (den rad).
    unfold fdivQ. destruct (Qeq_bool_spec (den rad) 0); [lra|]. apply fin_divide; [apply N|]. apply Qlt_shift_div_l; lra. }
  destruct (resample_shares P pi r t (p_dims P) whole k sc I Raw) as (held & Pm & El & Hh & _ & Hz). fold t' in El, Hh.
  set (f := fun h : nat * (vec * Q * vec) => let '(i, (c, rad, z)) := h in (i, ((c, rad) : cell, re_sample c rad z))).
  assert (Inr : forall i c rad z, In (i, (c, rad, z)) held -> length c = p_dims P /\ 0 < rad /\ exists q, z = re_unit P (rd_re r q)).
  { intros i c rad z Hi. destruct (Hh _ _ _ _ Hi) as (n & w & q & E1 & E2 & E3 & E4 & _).
    assert (I' : exists k', tree_inv (p_dims P) whole k' t').
    { destruct (grown_resample (p_lo P) (p_hi P) P pi r t (ex_intro _ ops R)) as (ops' & R'). eexists. apply (tree_reachable_inv _ _ _ _ (proper_box _ _ B) R'). }
    destruct (tinv_node P whole (proper_radius _ _ B) t' i n I' E1) as (_ & D & Pr). subst c rad. eauto. }
  assert (Est : Qsum (map sc (map snd held)) == estimate pi (map snd (map f held))).
  { clear - Inr Dp. induction held as [|(i, ((c, rad), z)) held IH]; simpl; [reflexivity|].
    destruct (Inr i c rad z (or_introl eq_refl)) as (D & Pr & _). specialize (Dp _ Pr). rewrite IH by (intros; eapply Inr; right; eauto).
    unfold cell_volume. simpl. rewrite power_Qpow, D. fold (den rad). apply Qplus_inj_r. field; lra. }
  exists (map f held). split; [|split; [auto|split]].
  - rewrite map_map. erewrite map_ext; [exact Pm|]. intros (i, ((c, rad), z)). reflexivity.
  - intros q i c x E. rewrite nth_error_map in E. destruct (nth_error held q) as [(i', ((c', rad), z))|] eqn:E'; [|discriminate].
    simpl in E. inversion E; subst i' c x; clear E. pose proof (Hz _ _ _ _ _ E') as ->. apply nth_error_In in E'.
    destruct (Inr _ _ _ _ E') as (D & _). destruct (H q) as (Lq & _). unfold re_unit. rewrite Ek. apply re_placed. congruence.
  - intros i c x Hi. apply in_map_iff in Hi. destruct Hi as ((i', ((c', rad), z)) & E & Hi). simpl in E. inversion E; subst i' c x. clear E.
    destruct (Inr _ _ _ _ Hi) as (D & Pr & q & Ez). split.
    + subst z. unfold re_unit. rewrite Ek. destruct (H q). apply re_closed; auto. congruence.
    + destruct (Hh _ _ _ _ Hi) as (n & w & q' & E1 & E2 & E3 & _ & E4 & E5 & E6 & W1 & W2). exists n, w. csplit; auto.
      * congruence.
      * intros Pe. rewrite <- Est in Pe |- *. rewrite (W1 Pe). unfold cell_volume. simpl. rewrite power_Qpow, D. fold (den rad). specialize (Dp _ Pr). field; lra.
      * intros Pe. apply W2. rewrite Est. exact Pe.
Qed.
Print Assumptions C48_resample_partial.
Definition ln1 : tree := fst (expand None 5 0 (tree_new [0] [1])).
Definition ln2 : tree := fst (expand None 5 1 ln1).
Lemma ln2_reach : tree_reachable [0] [1] [(TExpand None 5 1, true); (TExpand None 5 0, true)] ln2.
Proof.
  exact (tr_expand _ _ _ ln1 None 5 1 _ _ (tr_expand _ _ _ (tree_new [0] [1]) None 5 0 _ _ (tr_init _ _) (surjective_pairing _)) (surjective_pairing _)).
Qed.
(** Leaves [0, 1/4], [1/4, 1/2] and [1/2, 1] with a constant target: the weights are the volumes. *)
Example C48_resample_example :
  let P := line Haar Simple true None 1 1 in
  proper (p_lo P) (p_hi P) /\ tree_reachable [0] [1] [(TExpand None 5 1, true); (TExpand None 5 0, true)] ln2 /\ t_leaves ln2 = [3; 2; 4]%nat /\
  exists a b c, map (fun i => nth_error (t_weights (resample_tree P (fun _ => 1) (unit_round 0) ln2)) i) [3; 2; 4]%nat = [Some (Fin a); Some (Fin b); Some (Fin c)] /\
    a == 1 # 4 /\ b == 1 # 2 /\ c == 1 # 4.
Proof.
  split; [apply line_proper|]. split; [apply ln2_reach|]. split; [vm_compute; reflexivity|].
  eexists _, _, _. split; [vm_compute; reflexivity|]. repeat split.
Qed.

(** A node that is sampled in a turn of the simple flow (any tree, any target, draws in the open unit cube): the sample is appended to
    its history and cached, and its weight is the target density over the density of the node's own kernel; for the uniform kernel the
    sample lies inside the cell and the weight is target density times volume. *)
Theorem C48_node_partial :
  forall P pi ops s i u, proper (p_lo P) (p_hi P) -> positive_kernel P -> tp_reachable P ops s -> In i (t_leaves (s_tree s)) -> unit_open P u ->
  let s' := node_turn P pi u i s in
  exists n n' x w, nth_error (t_nodes (s_tree s)) i = Some n /\ nth_error (t_nodes (s_tree s')) i = Some n' /\
    (n_center n', n_radius n') = (n_center n, n_radius n) /\ n_hist n' = HList (hist_list (n_hist n) ++ [(x, Fin w)]) /\
    nth_error (t_samples (s_tree s')) i = Some x /\ nth_error (t_weights (s_tree s')) i = Some (Fin w) /\ n_weight n' = Fin w /\
    match p_kernel P with
    | Haar => in_open (n_center n, n_radius n) x /\ placed (n_center n, n_radius n) u x /\ w == pi x * cell_volume (n_center n, n_radius n)
    | Normal => x = u /\ w * p_nden P (n_radius n / 4) (n_center n) x == pi x
    end.
Proof.
  intros P pi ops s i u B K R Hi Hu s'. destruct (grown_inv _ _ _ (proper_box _ _ B) (tp_grown P ops s R)) as (k & I).
  destruct (leaf_node _ _ _ _ _ I Hi) as (n & En & _). set (whole := (root_center (p_lo P) (p_hi P), root_radius (p_lo P) (p_hi P))) in *.
  destruct (tinv_node P whole (proper_radius _ _ B) _ i n (ex_intro _ k I) En) as (Ei & Nok). pose proof Nok as (D & Pr).
  destruct (node_density_pos P n u K Nok Hu) as (X & q & Eq & Pq & Vq).
  unfold s', node_turn. rewrite En. cbv zeta. set (x := kernel_draw (p_kernel P) (n_center n) (n_radius n) u) in *. simpl s_tree.
  unfold take_sample. rewrite En. cbv zeta. rewrite Eq. assert (Ew : fdivflQ (Fin (pi x)) (Fin q) = Fin (pi x / q)).
  { simpl. unfold fdivQ. destruct (Qeq_bool_spec q 0); [lra|reflexivity]. }
  rewrite Ew. assert (Li : (i < length (t_nodes (s_tree s)))%nat) by (apply nth_error_Some; congruence).
  eexists n, _, x, (pi x / q). split; [reflexivity|]. split; [simpl; apply upd_nth_error_eq; auto|]. simpl. rewrite Ei.
  split; [reflexivity|]. split; [reflexivity|]. split; [apply upd_nth_error_eq; rewrite (ti_samples _ _ _ _ I); auto|].
  split; [apply upd_nth_error_eq; rewrite (ti_weights _ _ _ _ I); auto|]. split; [reflexivity|].
  destruct (p_kernel P) eqn:Ek.
  - split.
    + destruct Hu as (Lu & Fu). unfold x, kernel_draw. apply draw_open; auto. congruence.
    + split; [unfold x, kernel_draw; apply draw_placed; destruct Hu; congruence|]. specialize (Vq eq_refl). unfold cell_volume. simpl. rewrite power_Qpow, D. 
      assert (Z : Qpow (2 * n_radius n) (p_dims P) == / q).
      { apply (Qmult_inj_l _ _ q); [lra|]. rewrite Vq. field. lra. }
      rewrite Z. reflexivity.
  - split; [reflexivity|]. unfold node_density in Eq. rewrite Ek in Eq. inversion Eq; subst q. field. lra.
Qed.
Print Assumptions C48_node_partial.
Example C48_node_example :
  let P := line Haar Simple true (Some 2) 1 1 in
  proper (p_lo P) (p_hi P) /\ positive_kernel P /\ unit_open P [1 # 3] /\ In 2%nat (t_leaves (s_tree (tp_after line_call))) /\
  tp_reachable P [(TpCall (fun _ => 1) 3 1 [1 # 2] [unit_round (1 # 2); unit_round (1 # 2)], true)] (tp_after line_call).
Proof.
  split; [apply line_proper|]. split; [discriminate|]. split; [split; [reflexivity|intros _; repeat constructor; reflexivity]|].
  split; [vm_compute; tauto|]. apply line_reach.
Qed.

(** Every history of the simple flow with non-negative targets, open unit draws for the nodes and half-open ones for the resampling:
    each leaf of a tree that has been sampled holds a non-empty history of samples in its own closed cell with finite non-negative
    weights, ending with the cached sample. *)
Theorem C48_leaves :
  forall P ops s, proper (p_lo P) (p_hi P) -> positive_kernel P -> p_flow P = Simple -> tp_reachable P ops s ->
  ops_ok (unit_open P) (unit_half P) nonneg ops ->
  s_tree s = tree_new (p_lo P) (p_hi P) \/
  forall i, In i (t_leaves (s_tree s)) -> exists n l x w, nth_error (t_nodes (s_tree s)) i = Some n /\ n_hist n = HList l /\ l <> [] /\
    nth_error (t_samples (s_tree s)) i = Some x /\ nth_error (t_weights (s_tree s)) i = Some (Fin w) /\ 0 <= w /\ fst (last l ([], NaN)) = x /\
    forall y v, In (y, v) l -> (exists q, v = Fin q /\ 0 <= q) /\ (p_kernel P = Haar -> in_closed (n_center n, n_radius n) y).
Proof.
  intros P ops s B K F R O. destruct (reach2 P ops s B K F R O) as [E|S]; [auto|]. right. intros i Hi.
  destruct (settled_histories P (whole_cell P) (Q2 P) (fun n x w H => Q1_hist P n x w (proj1 H)) s i S Hi) as (n & l & x & w & En & El & _ & Ex & Ew & (l0 & E0 & N0 & L0 & _) & (q & Eq & Pq) & _ & Xx & H).
  assert (l0 = l) by congruence. subst l0 w. exists n, l, x, q. csplit; auto. intros y v I. destruct (H l y v El I) as ((_ & X) & V). split; auto.
Qed.
Print Assumptions C48_leaves.
Example C48_leaves_example :
  let P := line Haar Simple true (Some 2) 1 1 in
  proper (p_lo P) (p_hi P) /\ positive_kernel P /\
  ops_ok (unit_open P) (unit_half P) nonneg [(TpCall (fun _ => 1) 3 1 [1 # 2] [unit_round (1 # 2); unit_round (1 # 2)], true)] /\
  s_tree (tp_after line_call) <> tree_new [0] [1].
Proof.
  split; [apply line_proper|]. split; [discriminate|]. split.
  - repeat constructor; try discriminate; intros _; repeat constructor; simpl; try reflexivity; discriminate.
  - vm_compute. discriminate.
Qed.

(** The draw 0 is possible for a uniform number and puts the sample on the lower face of the cell, where the kernel reports density
    zero: the weight is infinite, and NaN once normalised. *)
Theorem C48_boundary_refuted :
  exists P pi u s, p_kernel P = Haar /\ proper (p_lo P) (p_hi P) /\ Forall (fun a => 0 <= a /\ a < 1) u /\ nonneg pi /\
    tp_call P pi 1 1 u [] (tp_new P) = Done s /\ (exists x, get_samples P (s_tree s) = Ok [(x, NaN)]) /\
    t_weights (take_sample (s_tree (tp_new P)) 0 [0] (pi [0]) (node_density P [1 # 2] (1 # 2) [0])) = [PInf].
Proof.
  exists (line Haar Simple false (Some 2) 1 1), (fun _ => 1), [0]. eexists. split; [reflexivity|]. split; [apply line_proper|].
  split; [repeat constructor; simpl; lra|]. split; [intros x; lra|]. split; [vm_compute; reflexivity|]. split; [eexists; vm_compute; reflexivity|].
  vm_compute. reflexivity.
Qed.
Print Assumptions C48_boundary_refuted.

(** With the normal kernel, whatever the (positive) density and the draw, resampling ignores that the draw is scaled by the size of the
    cell: with a constant target and the same unit draw everywhere, all leaves get the same weight, although the densities of their
    proposals (unit density over volume) differ, so the weights are not proportional to target over proposal. *)
Theorem C48_normal_refuted :
  forall nden z, (forall v m x, 0 < nden v m x) -> length z = 1%nat ->
  exists P t ops r, p_kernel P = Normal /\ p_nden P = nden /\ tree_reachable (p_lo P) (p_hi P) ops t /\ proper (p_lo P) (p_hi P) /\ (forall q, rd_re r q = z) /\
    let t' := resample_tree P (fun _ => 1) r t in
    exists i j n m w v, In i (t_leaves t') /\ In j (t_leaves t') /\ nth_error (t_nodes t') i = Some n /\ nth_error (t_nodes t') j = Some m /\
      nth_error (t_weights t') i = Some (Fin w) /\ nth_error (t_weights t') j = Some (Fin v) /\
      let scaled (n : node) := nden (1 # 2) [0] z / cell_volume (n_center n, n_radius n) in
      w == v /\ 0 < w /\ ~ w * scaled n == v * scaled m.
Proof.
  intros nden z K Lz. set (P := mkTP [0] [1] Normal Simple true None 1 1 nden 10).
  set (r := mkR (fun _ => 0) (fun _ => z) (fun _ => z) 0 (fun _ _ => 0) (fun _ _ => z) (fun _ _ => 0) (fun _ _ => z)).
  exists P, ln2, [(TExpand None 5 1, true); (TExpand None 5 0, true)], r. csplit; auto; [apply ln2_reach|apply line_proper|]. cbv zeta.
  pose proof (tree_reachable_inv _ _ _ _ (proper_box _ _ line_proper) ln2_reach) as I.
  set (g := nden (1 # 2) [0] z). assert (Pg : 0 < g) by apply K.
  set (sc := fun row : vec * Q * vec => let '(c, rad, z) := row in 1 / nden (1 # 2) [0] z).
  assert (Raw : forall c rad z, In (c, rad, z) (resample_rows P r (combine (masked (t_mask ln2) (t_centers ln2)) (masked (t_mask ln2) (t_radii ln2)))) ->
    fdivflQ (Fin ((fun _ => 1) (re_sample c rad z))) (re_density P rad z) = Fin (sc (c, rad, z)) /\ 0 <= sc (c, rad, z)).
  { intros c rad z0 _. unfold re_density. simpl p_kernel. cbv iota. change (repeat 0 (p_dims P)) with [0]. apply fin_divide; [lra|apply K]. }
  destruct (resample_shares P (fun _ => 1) r ln2 _ _ _ sc I Raw) as (held & Pm & El & Hh & _).
  set (t' := resample_tree P (fun _ => 1) r ln2) in *.
  assert (Leaf : forall i, In i (t_leaves ln2) -> exists n w, nth_error (t_nodes t') i = Some n /\ nth_error (t_weights t') i = Some (Fin w) /\
            w * Qsum (map sc (map snd held)) == 1 / g /\ 0 < Qsum (map sc (map snd held))).
  { intros i Hi. apply (Permutation_in _ (Permutation_sym Pm)) in Hi. apply in_map_iff in Hi. destruct Hi as ((i', ((c, rad), z0)) & E & Hi). simpl in E. subst i'.
    assert (Ps : 0 < Qsum (map sc (map snd held))).
    { clear - Hi K. assert (N : forall l : list (nat * (vec * Q * vec)), 0 <= Qsum (map sc (map snd l))).
      { intros l. apply Qsum_nonneg. apply Forall_forall. intros q Hq. apply in_map_iff in Hq. destruct Hq as (((c1, r1), z1) & <- & _). unfold sc.
        apply Qlt_le_weak. apply Qlt_shift_div_l; [apply K|lra]. }
      induction held as [|h held IH]; [destruct Hi|]. simpl. destruct Hi as [->|Hi].
      - specialize (N held). simpl. assert (0 < 1 / nden (1 # 2) [0] z0) by (apply Qlt_shift_div_l; [apply K|lra]). lra.
      - specialize (IH Hi). destruct h as (i1, ((c1, r1), z1)). simpl. assert (0 < 1 / nden (1 # 2) [0] z1) by (apply Qlt_shift_div_l; [apply K|lra]). lra. }
    destruct (Hh _ _ _ _ Hi) as (n & w & q & E1 & E2 & E3 & E4 & _ & E5 & _ & W1 & _). exists n, w. csplit; auto. rewrite (W1 Ps). subst z0. reflexivity. }
  destruct (Leaf 3%nat ltac:(vm_compute; tauto)) as (n & w & En & Ew & W & Ps), (Leaf 2%nat ltac:(vm_compute; tauto)) as (m & v & Em & Ev & V & _).
  exists 3%nat, 2%nat, n, m, w, v. rewrite El. split; [vm_compute; tauto|]. split; [vm_compute; tauto|].
  assert (Cn : cell_volume (n_center n, n_radius n) == 1 # 4 /\ cell_volume (n_center m, n_radius m) == 1 # 2).
  { destruct (grown_resample [0] [1] P (fun _ => 1) r ln2 (ex_intro _ _ ln2_reach)) as (ops' & R').
    assert (Keep : forall i a b, nth_error (t_nodes ln2) i = Some a -> nth_error (t_nodes t') i = Some b -> (n_center b, n_radius b) = (n_center a, n_radius a)).
    { intros i a b Ea Eb. destruct (Nat.eq_dec i i); [|lia]. pose proof (tree_reachable_inv _ _ _ _ (proper_box _ _ line_proper) R') as I'. fold t' in I'.
      assert (C : t_centers t' = t_centers ln2 /\ t_radii t' = t_radii ln2).
      { unfold t', resample_tree. cbv zeta. match goal with |- t_centers (fold_left _ (t_leaves ?u) ?u) = _ /\ _ =>
          assert (X : t_centers u = t_centers ln2 /\ t_radii u = t_radii ln2 /\ t_leaves u = t_leaves ln2) by (unfold self_normalize; destruct (fgtQ _ 0); repeat split);
          destruct X as (X1 & X2 & X3); destruct (refresh_fold (t_leaves u) u ltac:(rewrite X3; eapply leaves_nodup; exact I)) as (_ & Y1 & Y2 & _) end.
        rewrite Y1, Y2. auto. }
      destruct C as (C1 & C2). rewrite (ti_centers _ _ _ _ I'), (ti_centers _ _ _ _ I) in C1. rewrite (ti_radii _ _ _ _ I'), (ti_radii _ _ _ _ I) in C2.
      assert (D1 := f_equal (fun l => nth_error l i) C1). assert (D2 := f_equal (fun l => nth_error l i) C2). cbv beta in D1, D2.
      rewrite !nth_error_map, Ea, Eb in D1, D2. simpl in D1, D2. congruence. }
    assert (Nn : exists a, nth_error (t_nodes ln2) 3 = Some a /\ cell_volume (n_center a, n_radius a) == 1 # 4) by (eexists; split; vm_compute; reflexivity).
    assert (Nm : exists a, nth_error (t_nodes ln2) 2 = Some a /\ cell_volume (n_center a, n_radius a) == 1 # 2) by (eexists; split; vm_compute; reflexivity).
    destruct Nn as (a & Ea & Va), Nm as (b & Eb & Vb). rewrite (Keep _ _ _ Ea En), (Keep _ _ _ Eb Em). auto. }
  destruct Cn as (Cn & Cm). set (S := Qsum (map sc (map snd held))) in *.
  assert (Wv : w == v) by (apply (Qmult_inj_r _ _ S); [lra|]; rewrite W, V; reflexivity).
  assert (Pw : 0 < w).
  { destruct (Qlt_le_dec 0 w) as [X|X]; auto. exfalso. assert (0 < 1 / g) by (apply Qlt_shift_div_l; lra). rewrite <- W in H. nra. }
  csplit; auto. fold g. rewrite Cn, Cm, Wv. intros E. rewrite Wv in Pw.
  assert (X : v * (g / (1 # 4)) - v * (g / (1 # 2)) == v * g * 2) by field. rewrite E in X. ring_simplify in X. nra.
Qed.
Print Assumptions C48_normal_refuted.
Example C48_normal_example : (forall v m x : Q, 0 < 1) /\ length [1 # 3] = 1%nat.
Proof. split; reflexivity. Qed.
