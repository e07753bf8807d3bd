(** Property C49: the density of the tree pyramid sampler with the uniform kernel. *)
From Coq Require Import List Bool Arith Lia QArith Lqa Permutation.
Import ListNotations.
From Verif Require Import Prelude.Py Prelude.QBase Prelude.QFacts Model.Uniform Model.Population Model.Tree Model.TreeSampler Spec.TreeSpec Spec.Box
  Proofs.TreeCells Proofs.TreeProofs Proofs.TreeMask Proofs.TreeSamplerTree Proofs.TreeSamplerInv Proofs.TreeSamplerLeaves Proofs.TreeResample
  Proofs.TreeDensity Proofs.PopulationProofs Properties.TreeSamplerProps.
Open Scope Q_scope.

(** C49 (full statement: the density is the leaf's normalised weight over its volume, non-negative, zero outside the root cell, and its
    mass is one). In every state of every history, both flows: prob never raises for a row of the right length; strictly inside a
    leaf it is the leaf's cached weight over its volume; strictly inside no leaf it is zero. *)
Theorem C49_density :
  forall P ops s x, proper (p_lo P) (p_hi P) -> p_kernel P = Haar -> tp_reachable P ops s -> length x = p_dims P ->
  exists v, tp_prob P (s_tree s) (s_model s) x = Ok v /\
    (forall i n, In i (t_leaves (s_tree s)) -> nth_error (t_nodes (s_tree s)) i = Some n -> in_open (n_center n, n_radius n) x ->
       exists w, nth_error (t_weights (s_tree s)) i = Some w /\
         match w with
         | Fin q => exists p, v = Fin p /\ p * cell_volume (n_center n, n_radius n) == q
         | _ => v = w
         end) /\
    ((forall i n, In i (t_leaves (s_tree s)) -> nth_error (t_nodes (s_tree s)) i = Some n -> ~ in_open (n_center n, n_radius n) x) -> v = Fin 0).
Proof.
  intros P ops s x B Ek R Lx. destruct (grown_inv _ _ _ (proper_box _ _ B) (tp_grown P ops s R)) as (k & I).
  set (whole := (root_center (p_lo P) (p_hi P), root_radius (p_lo P) (p_hi P))) in *.
  destruct (density_cases P (s_tree s) whole k (s_model s) x I Ek Lx) as [(E & N)|(i & n & w & Hi & En & O & Ew & E)].
  - exists (Fin 0). split; auto. split; auto. intros i n Hi En O. exfalso. apply (N i n); auto.
  - eexists. split; [exact E|]. split; [|intros N; exfalso; apply (N i n); auto].
    intros j m Hj Em Oj. assert (j = i) by (eapply (one_leaf P (s_tree s)); eauto). subst j. assert (m = n) by congruence. subst m. exists w. split; auto.
    destruct (tinv_node P whole (proper_radius _ _ B) _ i n (ex_intro _ k I) En) as (_ & D & Pr).
    pose proof (Qpow_positive (2 * n_radius n) (p_dims P) ltac:(lra)) as Pp. set (V := Qpow (2 * n_radius n) (p_dims P)) in *.
    assert (Pb : Qltb V 0 = false) by (apply Qltb_false; lra). assert (Nz : Qeq_bool V 0 = false).
    { destruct (Qeq_bool_spec V 0); auto. lra. }
    destruct w; simpl; unfold fdivQ; rewrite ?Nz, ?Pb; auto.
    eexists. split; [reflexivity|]. unfold cell_volume. simpl. rewrite power_Qpow, D. fold V. field. lra.
Qed.
Print Assumptions C49_density.
Example C49_density_example :
  let P := line Haar Simple true (Some 2) 1 1 in
  proper (p_lo P) (p_hi P) /\ tp_reachable P [(TpCall (fun _ => 1) 3 1 [1 # 2] [unit_round (1 # 2); unit_round (1 # 2)], true)] (tp_after line_call) /\
  (exists p, tp_prob P (s_tree (tp_after line_call)) (s_model (tp_after line_call)) [1 # 3] = Ok (Fin p) /\ p == 1) /\
  tp_prob P (s_tree (tp_after line_call)) (s_model (tp_after line_call)) [1 # 2] = Ok (Fin 0).
Proof.
  split; [apply line_proper|]. split; [apply line_reach|].
  split; [eexists; split; vm_compute; reflexivity|vm_compute; reflexivity].
Qed.

(** Outside the root cell the density is zero, in every state. *)
Theorem C49_outside :
  forall P ops s x, proper (p_lo P) (p_hi P) -> p_kernel P = Haar -> tp_reachable P ops s -> length x = p_dims P ->
  ~ in_closed (root_center (p_lo P) (p_hi P), root_radius (p_lo P) (p_hi P)) x ->
  tp_prob P (s_tree s) (s_model s) x = Ok (Fin 0).
Proof.
  intros P ops s x B Ek R Lx O. destruct (C49_density P ops s x B Ek R Lx) as (v & E & _ & Z). rewrite E, Z; auto.
  intros i n Hi En Oi. apply O. destruct (grown_inv _ _ _ (proper_box _ _ B) (tp_grown P ops s R)) as (k & I).
  destruct (ti_tiles _ _ _ _ I) as (_ & W & _). apply (W (n_center n, n_radius n)); [|apply open_closed; auto].
  unfold leaf_cells. apply in_map_iff. exists i. split; auto. unfold leaf_cell. rewrite En. reflexivity.
Qed.
Print Assumptions C49_outside.
Example C49_outside_example : ~ in_closed (root_center [0] [1], root_radius [0] [1]) [2].
Proof. intros H. inversion H as [|? ? ? ? (_ & A) _]; subst. vm_compute in A. apply A. reflexivity. Qed.

Lemma held_mass t refs : forall ws, Forall2 (fun i w => nth_error (t_weights t) i = Some w) refs (map Fin ws) -> Forall (fun q => 0 <= q) ws ->
  (forall i, In i refs -> exists n, nth_error (t_nodes t) i = Some n /\ 0 < n_radius n) ->
  exists held : list (nat * (cell * Q)), map fst held = refs /\ mass (map snd held) == Qsum ws /\
    forall i c p, In (i, (c, p)) held -> exists n q, nth_error (t_nodes t) i = Some n /\ c = (n_center n, n_radius n) /\
      nth_error (t_weights t) i = Some (Fin q) /\ 0 <= p /\ p * cell_volume c == q /\ In q ws.
Proof.
  induction refs as [|i refs IH]; intros [|q ws] F N H; inversion F; subst.
  - exists []. simpl. split; auto. split; [reflexivity|intros ? ? ? []].
  - inversion N; subst. destruct (IH ws) as (held & E & M & G); auto; [intros; apply H; right; auto|].
    destruct (H i (or_introl eq_refl)) as (n & En & Pr). assert (0 < cell_volume (n_center n, n_radius n)) as V by (apply power_pos; simpl; lra).
    exists ((i, ((n_center n, n_radius n), q / cell_volume (n_center n, n_radius n))) :: held). simpl. rewrite E. split; auto.
    split; [unfold mass in M |- *; simpl; rewrite M; apply Qplus_inj_r; field; lra|].
    intros j c p [J|J]; [inversion J; subst j c p|].
    + exists n, q. csplit; auto; [unfold Qdiv; apply Qmult_le_0_compat; auto; apply Qlt_le_weak, Qinv_lt_0_compat; auto|field; lra].
    + destruct (G _ _ _ J) as (n0 & q0 & A1 & A2 & A3 & A4 & A5 & A6). exists n0, q0. csplit; auto.
Qed.

(** After every returned call of the simple flow (non-negative targets, open unit draws), whatever happened before: the density is
    non-negative and constant inside each leaf, and its integral is one, or it is zero everywhere. *)
Theorem C49_mass_partial :
  forall P ops s pi n timeout u tape s', proper (p_lo P) (p_hi P) -> p_kernel P = Haar -> p_flow P = Simple -> tp_reachable P ops s ->
  ops_ok (unit_open P) (unit_half P) nonneg ((TpCall pi n timeout u tape, true) :: ops) -> tp_call P pi n timeout u tape s = Done s' ->
  exists held : list (nat * (cell * Q)), Permutation (map fst held) (t_leaves (s_tree s')) /\
    (forall i c p, In (i, (c, p)) held -> 0 <= p /\ (exists n, nth_error (t_nodes (s_tree s')) i = Some n /\ (n_center n, n_radius n) = c) /\
       forall x, in_open c x -> exists p', tp_prob P (s_tree s') (s_model s') x = Ok (Fin p') /\ p' == p) /\
    (mass (map snd held) == 1 \/ forall h, In h held -> snd (snd h) == 0) /\
    (ops_ok (unit_open P) (unit_half P) positive ((TpCall pi n timeout u tape, true) :: ops) -> mass (map snd held) == 1).
Proof.
  intros P ops s pi n timeout u tape s' B Ek F R O E. assert (K : positive_kernel P) by (intros X; congruence).
  inversion O as [|? ? O0 O']; subst. simpl in O0. destruct O0 as (Np & Hu & Ft).
  assert (R' : tp_reachable P ((TpCall pi n timeout u tape, true) :: ops) s') by (eapply tp_done; eauto).
  destruct (done2 P pi n timeout u tape s s' B K F Np Hu Ft (reach2 P ops s B K F R O') E) as (s1 & -> & S1).
  pose proof S1 as ((k & I1) & G1).
  assert (I' : exists k', tree_inv (p_dims P) (whole_cell P) k' (self_normalize (s_tree s1))) by (apply (grown_inv _ _ _ (proper_box _ _ B) (tp_grown _ _ _ R'))).
  destruct I' as (k' & I'). set (t' := self_normalize (s_tree s1)) in *.
  assert (FW : Forall finw (masked (t_mask (s_tree s1)) (t_weights (s_tree s1)))).
  { apply (masked_RW P (whole_cell P) (Q2 P) finw (fun n x w H => proj1 (proj2 H))); auto. exists k. auto. }
  destruct (normalised _ _ _ _ I1 FW) as (ws & Ews & Nws & Cases & Pos). fold t' in Ews.
  destruct (masked_weights t' _ _ _ I') as (fws & F2 & Ef). rewrite Ews in Ef. subst fws.
  destruct (held_mass t' (masked_refs t') ws F2 Nws) as (held & Eh & Mh & Hh).
  { intros i Hi. apply (Permutation_in _ (masked_refs_perm _ _ _ _ I')) in Hi. destruct (leaf_node _ _ _ _ _ I' Hi) as (m & Em & _). exists m. split; auto.
    apply (tinv_node P (whole_cell P) (proper_radius _ _ B) t' i m (ex_intro _ k' I') Em). }
  exists held. change (s_tree (update_model s1)) with t'. change (s_tree (update_model s1)) with t' in R'.
  assert (Pm : Permutation (map fst held) (t_leaves t')) by (rewrite Eh; eapply masked_refs_perm; eauto).
  assert (One : Exists (fun w => w <> Fin 0 /\ fgtQ w 0 = true) (masked (t_mask (s_tree s1)) (t_weights (s_tree s1))) -> mass (map snd held) == 1) by (intros X; rewrite Mh; auto).
  split; [exact Pm|]. split; [|split].
  - intros i c p Hi. destruct (Hh _ _ _ Hi) as (m & q & Em & -> & Eq & Pp & V & _). split; auto. split; [eauto|]. intros x O1.
    assert (Lm : In i (t_leaves t')) by (apply (Permutation_in _ Pm); apply (in_map fst) in Hi; exact Hi).
    assert (Lx : length x = p_dims P).
    { destruct (ti_node _ _ _ _ I' _ _ Em) as (_ & D & _). rewrite <- D. unfold in_open in O1. simpl in O1. symmetry. eapply ListFacts.forall2_length; eauto. }
    destruct (C49_density P _ _ x B Ek R' Lx) as (v & Ev & Hv & _). destruct (Hv i m Lm Em O1) as (w & Ew & Hw).
    change (s_tree (update_model s1)) with t' in Ew, Ev. rewrite Eq in Ew. inversion Ew; subst w. destruct Hw as (p' & -> & V'). exists p'. split; auto.
    apply (Qmult_inj_r _ _ (cell_volume (n_center m, n_radius m))); [|rewrite V, V'; reflexivity].
    destruct (tinv_node P (whole_cell P) (proper_radius _ _ B) t' i m (ex_intro _ k' I') Em) as (_ & _ & Pr).
    assert (0 < cell_volume (n_center m, n_radius m)) by (apply power_pos; simpl; lra). lra.
  - destruct Cases as [C|C]; [left; rewrite Mh; auto|right]. intros (i, (c, p)) Hi. simpl. destruct (Hh _ _ _ Hi) as (m & q & Em & -> & Eq & Pp & V & Iq).
    rewrite Forall_forall in C. specialize (C _ Iq). rewrite C in V.
    destruct (tinv_node P (whole_cell P) (proper_radius _ _ B) t' i m (ex_intro _ k' I') Em) as (_ & _ & Pr).
    assert (0 < cell_volume (n_center m, n_radius m)) as Vp by (apply power_pos; simpl; lra). apply Qmult_integral in V. destruct V as [V|V]; [exact V|exfalso; rewrite V in Vp; discriminate].
  - intros Op. inversion Op as [|? ? O0 Op']; subst. simpl in O0. destruct O0 as (Pp & _). destruct (done3 P pi n timeout u tape s _ B K F Pp Hu Ft (reach3 P ops s B K F R Op') E) as (s2 & Eu & S2).
    assert (S3 : settled3 P (update_model s1)).
    { rewrite Eu. apply (update_settled P (whole_cell P) (Q3 P) posw); auto; [intros ? ? ? (_ & H); auto|intros ? ? ? ? (H & _) W; split; auto|apply posw_norm]. }
    destruct Cases as [C|C]; [rewrite Mh; auto|]. exfalso. rewrite Forall_forall in C.
    destruct (t_leaves t') as [|i l] eqn:El; [pose proof (ti_leaves_count _ _ _ _ I') as L; rewrite El in L; discriminate|].
    assert (Hi : In i (t_leaves t')) by (rewrite El; left; auto).
    destruct (settled_histories P (whole_cell P) (Q3 P) (fun n x w H => Q1_hist P n x w (proj1 H)) _ i S3 Hi) as (m & l0 & x & w & Em & _ & _ & _ & Ew & _ & (q & -> & Pq)).
    change (s_tree (update_model s1)) with t' in Ew. rewrite <- El in Pm. apply (Permutation_in _ (Permutation_sym Pm)) in Hi. apply in_map_iff in Hi.
    destruct Hi as ((j, (c, p)) & Ej & Hi). simpl in Ej. subst j. destruct (Hh _ _ _ Hi) as (m' & q' & _ & _ & Eq' & _ & _ & Iq). specialize (C _ Iq). 
    rewrite Ew in Eq'. inversion Eq'; subst q'. lra.
Qed.
Print Assumptions C49_mass_partial.
Example C49_mass_example :
  let P := line Haar Simple true (Some 2) 1 1 in
  ops_ok (unit_open P) (unit_half P) positive [(TpCall (fun _ => 1) 3 1 [1 # 2] [unit_round (1 # 2); unit_round (1 # 2)], true)] /\
  line_call = Done (tp_after line_call) /\ length (t_leaves (s_tree (tp_after line_call))) = 3%nat.
Proof.
  split; [|vm_compute; auto].
  repeat constructor; try discriminate; intros _; repeat constructor; simpl; try reflexivity; discriminate.
Qed.

(** Before the first call, and after a reset, the object already answers prob: zero everywhere, not a density. *)
Theorem C49_fresh_refuted :
  forall P x, p_kernel P = Haar -> proper (p_lo P) (p_hi P) -> length x = p_dims P ->
  exists p, tp_prob P (s_tree (tp_new P)) (s_model (tp_new P)) x = Ok (Fin p) /\ p == 0.
Proof.
  intros P x Ek B Lx. destruct (C49_density P [] (tp_new P) x B Ek (tp_init P) Lx) as (v & E & H & Z).
  destruct (tp_prob P (s_tree (tp_new P)) (s_model (tp_new P)) x) as [v'|] eqn:Ev; [|discriminate]. inversion E; subst v'.
  unfold tp_prob in Ev. rewrite Ek in Ev. simpl in Ev. destruct (strictly_in _ _ x) eqn:Es; [|inversion Ev; exists 0; split; auto; reflexivity].
  simpl in Ev. unfold fdivQ in Ev. destruct (Qeq_bool_spec (Qpow (2 * root_radius (p_lo P) (p_hi P)) (p_dims P)) 0) as [Y|Y].
  - pose proof (Qpow_positive (2 * root_radius (p_lo P) (p_hi P)) (p_dims P)) as X. pose proof (proper_radius _ _ B). lra.
  - inversion Ev. eexists. split; [reflexivity|]. unfold Qdiv. ring.
Qed.
Print Assumptions C49_fresh_refuted.
Example C49_fresh_example : proper [0] [1] /\ p_kernel (line Haar Simple true (Some 2) 1 1) = Haar.
Proof. split; [apply line_proper|reflexivity]. Qed.

(** On the faces between the leaves, which lie inside the root cell, the density is zero although its neighbourhood has density one. *)
Theorem C49_faces_refuted :
  exists P ops s x, proper (p_lo P) (p_hi P) /\ tp_reachable P ops s /\ ops_ok (unit_open P) (unit_half P) positive ops /\
    in_open (root_center (p_lo P) (p_hi P), root_radius (p_lo P) (p_hi P)) x /\ tp_prob P (s_tree s) (s_model s) x = Ok (Fin 0) /\
    forall e, 0 < e -> e < 1 # 4 -> exists p, tp_prob P (s_tree s) (s_model s) (map (Qplus e) x) = Ok (Fin p) /\ p == 1.
Proof.
  exists (line Haar Simple true (Some 2) 1 1), [(TpCall (fun _ => 1) 3 1 [1 # 2] [unit_round (1 # 2); unit_round (1 # 2)], true)], (tp_after line_call), [1 # 2].
  split; [apply line_proper|]. split; [apply line_reach|]. split; [apply C49_mass_example|].
  split; [repeat constructor; vm_compute; reflexivity|]. split; [vm_compute; reflexivity|]. intros e P0 P1.
  destruct (C49_density (line Haar Simple true (Some 2) 1 1) _ (tp_after line_call) (map (Qplus e) [1 # 2]) line_proper eq_refl
    line_reach eq_refl) as (v & Ev & H & _). rewrite Ev.
  destruct (nth_error (t_nodes (s_tree (tp_after line_call))) 2) as [n|] eqn:En; [|vm_compute in En; discriminate].
  destruct (H 2%nat n ltac:(vm_compute; tauto) En) as (w & Ew & Hw).
  - vm_compute in En. inversion En; subst n. simpl. constructor; [simpl; split; lra|constructor].
  - vm_compute in Ew. inversion Ew; subst w. destruct Hw as (p & -> & Hp). exists p. split; auto.
    vm_compute in En. inversion En; subst n. unfold cell_volume in Hp. simpl in Hp. lra.
Qed.
Print Assumptions C49_faces_refuted.
