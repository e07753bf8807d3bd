(** Calls and histories of a tree sampler in other coordinates. *)
From Coq Require Import List Bool Arith Lia ZArith QArith Lqa.
Import ListNotations.
From Verif Require Import Prelude.Py Prelude.QBase Prelude.QFacts Model.Uniform Model.Mixture Model.Population Model.Tree Model.TreeSampler Spec.ScaleSpec Spec.UnitsSpec Spec.UnitsTree
  Proofs.MHLawProofs Proofs.MixtureProofs Proofs.MixtureSelect Proofs.TreeSamplerLeaves Proofs.ScaleBase Proofs.ScalePop Proofs.ScaleTree Proofs.ScaleHd Proofs.UnitsBase Proofs.UnitsTreeBase Proofs.UnitsTreeTurn.
Open Scope Q_scope.

(** Equal counters after equal steps. *)
Ltac bump C := apply counts_eq in C; destruct C as (?F1 & ?F2 & ?F3 & ?F4 & ?F5 & ?F6); unfold counts; cbn [s_q_samples s_q_evals s_pi_evals g_draws g_qs g_pis]; congruence.

Section Units.
Variables (a : Q) (b : list Q).
Hypothesis A : 0 < a.
Notation R := (recoord a b).
Notation row := (row_units a b).
Notation trel := (trel a b).
Notation nrel := (nrel a b).
Notation vol := (vol a b).
Notation srel := (srel a b).

(** * What is returned *)
Lemma write_at_rel {X Y} (T : X -> Y -> Prop) v v' : Forall2 T v v' -> forall l l' i, Forall2 T l l' -> Forall2 T (write_at l i v) (write_at l' i v').
Proof. induction 1; intros m m' i F; simpl; auto. apply IHForall2. now apply upd_rel. Qed.
Lemma write_leaves_rel {X Y} (T : X -> Y -> Prop) hs hs' : Forall2 (Forall2 T) hs hs' -> forall l l' i, Forall2 T l l' -> Forall2 T (write_leaves l i hs) (write_leaves l' i hs').
Proof. induction 1; intros m m' i F; simpl; auto. apply IHForall2. now apply write_at_rel. Qed.
Lemma concat_length_rel {X Y} (T : X -> Y -> Prop) hs hs' : Forall2 (Forall2 T) hs hs' -> length (concat hs') = length (concat hs).
Proof. induction 1 as [|x y l l' H F IH]; simpl; auto. rewrite !app_length, IH, (rel_length _ _ _ H). reflexivity. Qed.
Lemma histories_units t t' refs : trel t t' -> result_units (Forall2 (Forall2 row)) (leaf_histories t refs) (leaf_histories t' refs).
Proof.
  intros T. induction refs as [|i r IH]; simpl; [constructor|]. pose proof (trel_node a b _ _ i T) as H. destruct (nth_error (t_nodes t) i) as [n|], (nth_error (t_nodes t') i) as [n'|]; try contradiction; [|reflexivity].
  destruct H as (_ & _ & _ & _ & _ & _ & _ & _ & N9 & _). destruct (n_hist n), (n_hist n'); simpl in N9; try contradiction; simpl; auto.
  destruct (leaf_histories t r), (leaf_histories t' r); simpl in *; try contradiction; auto.
Qed.

Section Run.
Variables (P P' : tp_params).
Hypothesis Sp : tp_space a b P P'.
Lemma dims_eq : p_dims P = length b /\ p_dims P' = length b.
Proof. exact (recoord_length a b _ _ (proj1 Sp)). Qed.
Lemma kernel_eq : p_kernel P' = p_kernel P.
Proof. apply Sp. Qed.
Lemma get_samples_units t t' : trel t t' -> result_units (Forall2 row) (get_samples P t) (get_samples P' t').
Proof.
  intros T. unfold get_samples. replace (p_ess P') with (p_ess P) by (symmetry; apply Sp). destruct (p_ess P) as [e|]; [|reflexivity]. destruct (Qltb 1 e).
  - pose proof T as (_ & _ & _ & _ & T5 & T6 & _). rewrite T6. now apply crel_masked.
  - replace (t_leaves t') with (t_leaves t) by (symmetry; apply T). pose proof (histories_units t t' (t_leaves t) T) as H.
    destruct (leaf_histories t (t_leaves t)) as [hs|], (leaf_histories t' (t_leaves t)) as [hs'|]; simpl in H; try contradiction; [|exact H]. cbn [bind result_units].
    apply filter_rel; [intros x y (W & _); apply (times_gt0 1 eq_refl _ _ W)|]. destruct dims_eq as (-> & ->). rewrite (concat_length_rel _ _ _ H). apply write_leaves_rel; auto.
    generalize (length (concat hs)). induction n; simpl; constructor; auto. split; [simpl; ring|]. right. repeat split.
Qed.
Lemma value_units t t' i : trel t t' -> times vol (leaf_value t i) (leaf_value t' i).
Proof. intros T. unfold leaf_value. pose proof (trel_node a b _ _ i T) as H. destruct (nth_error (t_nodes t) i), (nth_error (t_nodes t') i); try contradiction; [apply H|exact I]. Qed.
Lemma lambda_units r r' t t' : (forall i, rd_key r' i = rd_key r i) -> trel t t' -> lambda_hat t' r' = lambda_hat t r.
Proof.
  intros K T. unfold lambda_hat. replace (t_leaves t') with (t_leaves t) by (symmetry; apply T).
  assert (existsb (fun i => is_nan (leaf_value t' i)) (t_leaves t) = existsb (fun i => is_nan (leaf_value t i)) (t_leaves t)) as ->.
  { induction (t_leaves t) as [|x l IH]; simpl; auto. rewrite IH. f_equal. pose proof (value_units t t' x T) as V. destruct (leaf_value t x), (leaf_value t' x); simpl in V; tauto. }
  destruct (existsb _ _); apply sort_like; intros i j _ _; [now rewrite !K|]. apply (times_lt vol (vol_pos a b A)); now apply value_units.
Qed.

(** * The model *)
Lemma cell_nth c c' i : Forall2 (cellrel a b) c c' -> (i < length c)%nat -> R (fst (nth i c ([], 0))) (fst (nth i c' ([], 0))) /\ snd (nth i c' ([], 0)) == a * snd (nth i c ([], 0)).
Proof. intros F. revert i. induction F; intros [|i] Hi; simpl in *; try lia; [exact H|]. apply IHF. lia. Qed.
Lemma draws_rel (f g : nat -> vec) l : (forall i, R (f i) (g i)) -> recoords a b (map f l) (map g l).
Proof. intros H. induction l; constructor; auto. Qed.
Lemma model_sample_units m m' n sel sel' draw draw' : mrel a b m m' -> (forall i j, sel' i j = sel i j) -> (forall i j, draw_units a b (p_kernel P) (draw i j) (draw' i j)) ->
  result_units (recoords a b) (model_sample P m n sel draw) (model_sample P' m' n sel' draw').
Proof.
  intros M S D. unfold model_sample. rewrite kernel_eq. destruct m as [|c w], m' as [|c' w']; simpl in M; try contradiction.
  - apply draws_rel. intros i. apply kernel_draw_units; auto; [apply root_center_units; apply Sp|apply (root_radius_units a b A); apply Sp].
  - destruct M as (C & W & L). rewrite (all_fin 1 w w' W). destruct (forallb is_fin w); [|destruct n; simpl; constructor].
    rewrite (mixture_sample_eq (map fin_val w) (map fin_val w')) by now apply fin_vals_same. unfold mixture_sample. destruct (map fin_val w) as [|w0 ws] eqn:Ew; [destruct n; simpl; constructor|].
    destruct n as [|n]; [simpl; constructor|]. apply draws_rel. intros i. rewrite (multinomial1_ext (w0 :: ws) 1 (sel' i) (sel i) 0 (S i)).
    pose proof (multinomial1_range (w0 :: ws) 1 (sel i) 0 ltac:(discriminate)) as Rg. set (k := multinomial1 _ 1 (sel i) 0) in *. rewrite <- Ew, map_length in Rg.
    assert (Hk : (k < length c)%nat) by (destruct L as [L|L]; [rewrite L in Ew; discriminate|lia]).
    destruct (cell_nth _ _ k C Hk). now apply kernel_draw_units.
Qed.
Lemma filter_cells x x' l l' : R x x' -> Forall2 (fun p p' : vec * Q * fl Q => cellrel a b (fst p) (fst p') /\ times 1 (snd p) (snd p')) l l' ->
  Forall2 (fun p p' : vec * Q * fl Q => cellrel a b (fst p) (fst p') /\ times 1 (snd p) (snd p')) (filter (fun '(c, r, _) => strictly_in c r x) l) (filter (fun '(c, r, _) => strictly_in c r x') l').
Proof.
  intros X F. apply filter_rel; auto. intros ((c, r), w) ((c', r'), w') ((H1 & H2) & _). cbn [fst snd] in *. now apply (strictly_in_units a A r r' H2 b).
Qed.
Lemma prob_units t t' m m' x x' : trel t t' -> mrel a b m m' -> R x x' -> result_units (times (/ vol)) (tp_prob P t m x) (tp_prob P' t' m' x').
Proof.
  intros T M X. unfold tp_prob. rewrite kernel_eq. destruct (p_kernel P) eqn:K.
  - pose proof T as (T1 & T2 & T3 & T4 & T5 & T6 & T7). rewrite T6.
    assert (F : Forall2 (fun p p' : vec * Q * fl Q => cellrel a b (fst p) (fst p') /\ times 1 (snd p) (snd p')) (masked (t_mask t) (combine (combine (t_centers t) (t_radii t)) (t_weights t)))
                (masked (t_mask t) (combine (combine (t_centers t') (t_radii t')) (t_weights t')))).
    { apply (masked_rel (fun p p' : vec * Q * fl Q => cellrel a b (fst p) (fst p') /\ times 1 (snd p) (snd p'))). apply (combine_rel (cellrel a b) (times 1)); [exact (combine_rel _ _ _ _ T3 _ _ T4)|exact (crel_weights a b _ _ _ _ T5)]. }
    pose proof (filter_cells x x' _ _ X F) as G. destruct G as [|((c, r), w) ((c', r'), w') l l' ((H1 & H2) & H3) G]; [simpl; ring|]. destruct G as [|? ? ? ? ? ?]; [|reflexivity]. cbn [fst snd] in *.
    destruct dims_eq as (-> & ->). cbn [result_units]. pose proof (vol_pos a b A). apply times_k with (1 / vol); [unfold Qdiv; ring|]. apply times_div; auto; [reflexivity|]. simpl.
    rewrite (Qpow_proper (2 * r') (r' * 2)), (Qpow_proper (2 * r) (r * 2)) by ring. now apply volume_units.
  - assert (E1 : a == 1). { destruct Sp as (_ & _ & _ & _ & _ & _ & _ & _ & _ & Kk). unfold kernel_units in Kk. rewrite K in Kk. apply Kk. } pose proof (vol_one a b E1) as V1.
    assert (Rd : forall r r', r' == a * r -> r' == r) by (intros r r' ->; rewrite E1; ring).
    destruct m as [|c w], m' as [|c' w']; simpl in M; try contradiction; cbn [result_units].
    + assert (Rr : root_radius (p_lo P') (p_hi P') == root_radius (p_lo P) (p_hi P)) by (apply Rd; apply (root_radius_units a b A); apply Sp).
      destruct (nden_units a b P P' Sp (root_radius (p_lo P) (p_hi P) / 4) (root_radius (p_lo P') (p_hi P') / 4) _ _ x x' K ltac:(rewrite Rr; reflexivity) (root_center_units a b _ _ _ _ (proj1 Sp) (proj1 (proj2 Sp))) X) as (_ & H).
      simpl. rewrite H, V1. field.
    + destruct M as (C & W & _). apply times_k with 1; [rewrite V1; reflexivity|]. apply times_sum. clear T. revert w w' W. induction C as [|(c0, r0) (c0', r0') l l' (H1 & H2) C IH]; intros w w' W; [constructor|].
      destruct W as [|w0 w0' w w' W0 W]; [constructor|]. cbn [map2]. constructor; [|now apply IH]. apply mul_same; auto. cbn [fst snd] in *.
      destruct (nden_units a b P P' Sp r0 r0' c0 c0' x x' K (Rd _ _ H2) H1 X) as (_ & H). simpl. rewrite H. ring.
Qed.
Lemma first_child_units t t' refs x x' : trel t t' -> R x x' -> first_child t' refs x' = first_child t refs x.
Proof.
  intros T X. induction refs as [|k r IH]; simpl; auto. pose proof (trel_node a b _ _ k T) as H. destruct (nth_error (t_nodes t) k) as [n|], (nth_error (t_nodes t') k) as [n'|]; try contradiction; auto.
  destruct H as (N1 & N2 & _). rewrite (in_cell_units a A _ _ N2 b _ _ _ _ N1 X), IH. reflexivity.
Qed.
Lemma get_child_units t t' i x x' : trel t t' -> R x x' -> get_child t' i x' = get_child t i x.
Proof.
  intros T X. unfold get_child. pose proof (trel_node a b _ _ i T) as H. destruct (nth_error (t_nodes t) i) as [n|], (nth_error (t_nodes t') i) as [n'|]; try contradiction; auto.
  destruct H as (N1 & N2 & N3 & N4 & N5 & N6 & N7 & N8 & N9 & N10). assert (n_children n' = n_children n) as -> by auto. destruct (n_children n) as [|c l]; auto. now apply first_child_units.
Qed.
Lemma find_units d t t' x x' : trel t t' -> R x x' -> forall o, find d t' x' o = find d t x o.
Proof.
  intros T X. induction d as [|d IH]; intros o; auto. cbn [find]. rewrite (get_child_units t t' 0 x x' T X). pose proof (trel_node a b _ _ 0 T) as H.
  destruct (nth_error (t_nodes t) 0) as [n|], (nth_error (t_nodes t') 0) as [n'|]; try contradiction; auto.
  destruct H as (N1 & N2 & N3 & N4 & N5 & N6 & N7 & N8 & N9 & N10). unfold is_leaf. rewrite N5. destruct (n_leaf n); auto. destruct (get_child t 0 x); simpl; auto.
Qed.
Lemma find_unique_units d t t' xs xs' : trel t t' -> recoords a b xs xs' -> forall nodes, find_unique d t' xs' nodes = find_unique d t xs nodes.
Proof.
  intros T. induction 1 as [|x x' l l' X F IH]; intros nodes; simpl; auto. rewrite (find_units d t t' x x' T X). destruct (find d t x None); simpl; auto.
Qed.

Section Target.
Variables (pi pi' : vec -> Q).
Hypothesis D : redensity a b pi pi'.
Lemma mixture_nodes_units r r' refs : tp_round_units a b (p_kernel P) r r' -> forall s s', srel s s' -> outs srel (mixture_nodes P pi r refs s) (mixture_nodes P' pi' r' refs s').
Proof.
  intros (_ & _ & _ & _ & _ & _ & Rs & Rd). induction refs as [|ref refs IH]; intros s s' (T & M & C); cbn [mixture_nodes]; [split; auto|].
  pose proof (model_sample_units _ _ 1 (fun _ => rd_nsel r ref) (fun _ => rd_nsel r' ref) (fun _ => rd_ndraw r ref) (fun _ => rd_ndraw r' ref) M (fun _ => Rs ref) (fun _ => Rd ref)) as Sx.
  pose proof (trel_node a b _ _ ref T) as H. destruct (model_sample P (s_model s) 1 _ _) as [xs|e], (model_sample P' (s_model s') 1 _ _) as [xs'|e']; simpl in Sx; try contradiction.
  2: { subst e'. destruct (nth_error (t_nodes (s_tree s)) ref), (nth_error (t_nodes (s_tree s')) ref); try contradiction; split; auto; split; auto. }
  destruct (nth_error (t_nodes (s_tree s)) ref) as [n|], (nth_error (t_nodes (s_tree s')) ref) as [n'|]; try contradiction; [|split; auto; split; auto].
  destruct Sx as [|x x' l l' X F]; [split; auto; split; auto|]. destruct F; [|split; auto; split; auto].
  assert (Ei : n_idx n' = n_idx n) by apply H. rewrite Ei.
  assert (T1 : trel (put_cache (s_tree s) (upd (t_samples (s_tree s)) (n_idx n) x) (t_weights (s_tree s))) (put_cache (s_tree s') (upd (t_samples (s_tree s')) (n_idx n) x') (t_weights (s_tree s')))).
  { pose proof T as (U1 & U2 & U3 & U4 & U5 & U6 & U7). unfold UnitsTreeBase.trel; cbn [put_cache t_nodes t_leaves t_centers t_radii t_samples t_weights t_mask]. rewrite upd_length. repeat (split; auto). now apply crel_upd_pt. }
  cbv zeta. pose proof (prob_units _ _ _ _ _ _ T1 M X) as Pr. destruct (tp_prob P _ _ x) as [q|e], (tp_prob P' _ _ x') as [q'|e']; simpl in Pr; try contradiction.
  - apply IH. split; [|split; [exact M|bump C]]. apply take_units; auto. now apply (weight_units a b A pi pi').
  - subst e'. split; auto. split; [exact T1|]. split; [exact M|]. apply counts_eq in C. destruct C as (E1 & E2 & E3 & E4 & E5 & E6). unfold counts. simpl. congruence.
Qed.
Lemma tree_state s s' t t' : srel s s' -> trel t t' -> srel (with_tree s t) (with_tree s' t').
Proof. intros (_ & M & C) T. split; [exact T|split; [exact M|exact C]]. Qed.
Lemma turn_units need r r' s s' : tp_round_units a b (p_kernel P) r r' -> srel s s' -> outs srel (turn P pi need r s) (turn P' pi' need r' s').
Proof.
  intros Rr S. pose proof Rr as (R1 & R2 & R3 & R4 & R5 & R6 & R7 & R8). pose proof S as (T & M & C). unfold turn. replace (p_flow P') with (p_flow P) by (symmetry; apply Sp).
  assert (E1 : p_ess P' = p_ess P) by apply Sp. assert (E2 : p_nmin P' = p_nmin P) by apply Sp.
  destruct (p_flow P).
  - unfold simple_turn. rewrite (lambda_units r r' _ _ R1 T). replace (p_parallel P') with (p_parallel P) by (symmetry; apply Sp).
    pose proof (expand_nodes_units a b A P P' (lambda_hat (s_tree s) r) E1 E2 _ _ (p_parallel P) [] T) as (H1 & H2). cbv zeta in H1, H2.
    destruct (expand_nodes P _ _ _ _) as [t q], (expand_nodes P' _ _ _ _) as [t' q']. cbn [fst snd] in H1, H2. subst q'. destruct q as [new|e]; [|split; auto; now apply tree_state].
    cbn [outs]. apply maybe_units; auto. apply nodes_units; auto. now apply tree_state.
  - unfold mixture_turn. destruct dims_eq as (-> & ->). cbv zeta. set (k := ((need + 2 ^ length b - 1) / 2 ^ length b)%nat).
    pose proof (model_sample_units _ _ k (rd_psel r) (rd_psel r') (rd_pdraw r) (rd_pdraw r') M R5 R6) as Sx.
    assert (Cn : forall d, srel (mkS (s_tree s) (s_model s) (s_q_samples s + k) (s_q_evals s) (s_pi_evals s) (g_draws s + d) (g_qs s) (g_pis s)) (mkS (s_tree s') (s_model s') (s_q_samples s' + k) (s_q_evals s') (s_pi_evals s') (g_draws s' + d) (g_qs s') (g_pis s'))).
    { intros d. split; [exact T|]. split; [exact M|]. apply counts_eq in C. destruct C as (F1 & F2 & F3 & F4 & F5 & F6). unfold counts. simpl. congruence. }
    assert (Cn0 : srel (mkS (s_tree s) (s_model s) (s_q_samples s + k) (s_q_evals s) (s_pi_evals s) (g_draws s) (g_qs s) (g_pis s)) (mkS (s_tree s') (s_model s') (s_q_samples s' + k) (s_q_evals s') (s_pi_evals s') (g_draws s') (g_qs s') (g_pis s'))).
    { split; [exact T|]. split; [exact M|]. apply counts_eq in C. destruct C as (F1 & F2 & F3 & F4 & F5 & F6). unfold counts. simpl. congruence. }
    destruct (model_sample P (s_model s) k _ _) as [xs|e], (model_sample P' (s_model s') k _ _) as [xs'|e']; simpl in Sx; try contradiction; [|subst e'; split; auto].
    replace (p_frames P') with (p_frames P) by (symmetry; apply Sp).
    assert (Cl : recoords a b (map (fun x => vclip x (p_lo P) (p_hi P)) xs) (map (fun x => vclip x (p_lo P') (p_hi P')) xs')) by (eapply map_rel; [|exact Sx]; intros x y X; apply recoord_clip; auto; apply Sp).
    rewrite (find_unique_units (p_frames P) _ _ _ _ T Cl []). destruct (find_unique _ _ _ _) as [nodes|e]; [|split; auto].
    pose proof (expand_nodes_units a b A P P' nodes E1 E2 _ _ need [] T) as (H1 & H2). cbv zeta in H1, H2.
    destruct (expand_nodes P _ _ _ _) as [t q], (expand_nodes P' _ _ _ _) as [t' q']. cbn [fst snd] in H1, H2. subst q'. destruct q as [new|e]; [|split; auto; now apply tree_state].
    pose proof (mixture_nodes_units r r' new Rr _ _ (tree_state _ _ t t' (Cn k) H1)) as Mx.
    destruct (mixture_nodes P pi r new _) as [u|u|e u], (mixture_nodes P' pi' r' new _) as [u'|u'|e' u']; simpl in Mx; try contradiction; auto. cbn [outs]. now apply maybe_units.
Qed.
Lemma root_units u u' s s' : draw_units a b (p_kernel P) u u' -> srel s s' -> srel (root_turn P pi u s) (root_turn P' pi' u' s').
Proof.
  intros U S. pose proof S as (T & M & C). unfold root_turn. pose proof (trel_node a b _ _ 0 T) as H. destruct (nth_error (t_nodes (s_tree s)) 0) as [n|], (nth_error (t_nodes (s_tree s')) 0) as [n'|]; try contradiction; auto.
  destruct H as (N1 & N2 & N3 & N4 & N5 & N6 & N7 & N8 & N9 & N10). destruct (n_hist n), (n_hist n'); simpl in N9; try contradiction; auto.
  rewrite kernel_eq. replace (p_flow P') with (p_flow P) by (symmetry; apply Sp). cbv zeta. apply update_units; auto.
  assert (X : R (kernel_draw (p_kernel P) (n_center n) (n_radius n) u) (kernel_draw (p_kernel P) (n_center n') (n_radius n') u')) by (apply kernel_draw_units; auto).
  split; [|split; [exact M|bump C]]. cbn [s_tree]. apply take_units; auto. apply (weight_units a b A pi pi'); auto. apply node_density_units; auto.
Qed.
Lemma loop_units n timeout tape tape' : Forall2 (tp_round_units a b (p_kernel P)) tape tape' -> forall el s s', srel s s' -> outs srel (tp_loop P pi n timeout tape el s) (tp_loop P' pi' n timeout tape' el s').
Proof.
  intros F. induction F as [|r r' tape tape' Rr F IH]; intros el s s' S; cbn [tp_loop]; pose proof (get_samples_units _ _ (proj1 S)) as G;
    (destruct (get_samples P (s_tree s)) as [l|e], (get_samples P' (s_tree s')) as [l'|e']; simpl in G; try contradiction; [|subst e'; split; auto]); rewrite <- (rel_length _ _ _ G);
    (destruct ((length l <? n)%nat && Qltb el timeout); [|cbn [outs]; now apply update_units]).
  - exact S.
  - pose proof (turn_units (n - length l) r r' s s' Rr S) as H. destruct (turn P pi _ r s) as [u|u|e u], (turn P' pi' _ r' s') as [u'|u'|e' u']; simpl in H; try contradiction; auto.
    replace (rd_clock r') with (rd_clock r) by (symmetry; apply Rr). now apply IH.
Qed.
End Target.

Lemma new_units : srel (tp_new P) (tp_new P').
Proof. split; [apply tree_new_units; auto; apply Sp|]. split; [exact I|reflexivity]. Qed.
Lemma run_units o o' f f' s s' : tp_units a b (p_kernel P) (o, f) (o', f') -> srel s s' -> outs srel (tp_run P o s) (tp_run P' o' s').
Proof.
  intros (_ & U) S. cbn [fst] in U. destruct o as [pi n t u tape|m sel draw|], o' as [pi' n' t' u' tape'|m' sel' draw'|]; try contradiction; cbn [tp_run].
  - destruct U as (D & -> & -> & Du & F). unfold tp_call. apply loop_units; auto. now apply root_units.
  - destruct U as (-> & Es & Ed). pose proof S as (T & M & C). pose proof (model_sample_units _ _ m sel sel' draw draw' M Es Ed) as Sx.
    assert (Cn : forall d, srel (mkS (s_tree s) (s_model s) (s_q_samples s + m) (s_q_evals s) (s_pi_evals s) (g_draws s + d) (g_qs s) (g_pis s)) (mkS (s_tree s') (s_model s') (s_q_samples s' + m) (s_q_evals s') (s_pi_evals s') (g_draws s' + d) (g_qs s') (g_pis s'))).
    { intros d. split; [exact T|]. split; [exact M|]. apply counts_eq in C. destruct C as (F1 & F2 & F3 & F4 & F5 & F6). unfold counts. simpl. congruence. }
    destruct (model_sample P _ _ _ _), (model_sample P' _ _ _ _); simpl in Sx; try contradiction; cbn [outs]; auto.
  - cbn [outs]. unfold tp_reset. destruct S as (_ & _ & C). split; [apply tree_new_units; auto; apply Sp|]. split; [exact I|reflexivity].
Qed.
Lemma reach_units ops ops' s : Forall2 (tp_units a b (p_kernel P)) ops ops' -> tp_reachable P ops s -> exists s', tp_reachable P' ops' s' /\ srel s s'.
Proof.
  intros F Rc. revert ops' F. induction Rc as [|o ops s s1 Rc IH E|o ops s e s1 Rc IH E]; intros ops' F; inversion F as [|? (o', f') ? ops1 U F1]; subst.
  - exists (tp_new P'). split; [constructor|apply new_units].
  - destruct (IH _ F1) as (s' & R' & S). pose proof (run_units _ _ _ _ _ _ U S) as H. rewrite E in H. destruct U as (Ef & _). simpl in Ef. subst f'.
    destruct (tp_run P' o' s') as [u|u|e' u] eqn:E'; simpl in H; try contradiction. exists u. split; auto. econstructor; eauto.
  - destruct (IH _ F1) as (s' & R' & S). pose proof (run_units _ _ _ _ _ _ U S) as H. rewrite E in H. destruct U as (Ef & _). simpl in Ef. subst f'.
    destruct (tp_run P' o' s') as [u|u|e' u] eqn:E'; simpl in H; try contradiction. exists u. split; [|apply H]. eapply tp_fail; eauto.
Qed.
End Run.
End Units.
