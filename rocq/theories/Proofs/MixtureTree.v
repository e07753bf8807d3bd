(** Draws from the model of the tree sampler fall into each leaf with the leaf's normalised weight. *)
From Coq Require Import List Bool Arith QArith Lia Lqa.
Import ListNotations.
From Verif Require Import Prelude.Py Prelude.QBase Prelude.QFacts Model.Base Model.Mixture Model.Population Model.Tree Model.TreeSampler Model.MixtureLaw
  Spec.UnbiasedSpec Spec.WalkSpec Spec.TreeSpec Spec.MixtureLawSpec Proofs.PopulationUnbiased Proofs.PopulationProofs Proofs.IndepLaw Proofs.MixtureSelect
  Proofs.TreeCells Proofs.TreeProofs Proofs.TreeMask Proofs.TreeSamplerTree Proofs.TreeSamplerInv Proofs.TreeSamplerLeaves Proofs.TreeResample Proofs.TreeDensity.
Open Scope Q_scope.

Lemma inside_open c x : inside_cell c x = true <-> in_open c x.
Proof.
  destruct c as [c r]. unfold inside_cell, in_open. simpl fst. simpl snd. rewrite andb_true_iff, Nat.eqb_eq, forallb_forall. split.
  - intros (L & H). revert x L H. induction c as [|a c IH]; intros [|v x] L H; try discriminate; constructor.
    + specialize (H 0%nat ltac:(apply in_seq; simpl; lia)). simpl in H. rewrite andb_true_iff, !Qltb_true in H. auto.
    + apply IH; [simpl in L; lia|]. intros j Hj. apply in_seq in Hj. apply (H (S j)). apply in_seq. simpl. lia.
  - intros F. split; [symmetry; eapply ListFacts.forall2_length; eauto|]. revert x F. induction c as [|a c IH]; intros x F j Hj; [destruct Hj|].
    inversion F as [|? v ? x' V F']; subst. destruct j as [|j].
    + simpl. rewrite andb_true_iff, !Qltb_true. exact V.
    + simpl. apply (IH x' F'). apply in_seq in Hj. simpl in Hj. apply in_seq. lia.
Qed.

(** Draws from a mixture of cells. *)
Section Cells.
Variables (P : tp_params) (ul : list (Q * Q)) (dl : list (Q * vec)) (cells : list cell) (ws : list Q).
Hypothesis Ek : p_kernel P = Haar.
Hypothesis V : prob_vec ws.
Hypothesis Fa : fair_choice ul ws.
Hypothesis Ln : length cells = length ws.
Hypothesis Ud : unit_law (p_dims P) dl.
Hypothesis Cd : forall c, In c cells -> length (fst c) = p_dims P /\ 0 < snd c.
Hypothesis Sp : separate cells.
Let draw (c : cell) (u : vec) : vec := uniform_draw (cell_lo (fst c) (snd c)) (cell_hi (fst c) (snd c)) u.

Lemma cells_joint n F : tree_mean P ul dl (length cells) (MMix cells (map Fin ws)) n F ==
  expect_each (repeat (mixture_law ws (map (fun c => moved (draw c) dl) cells)) n) (fun xs => F (Ok xs)).
Proof.
  unfold tree_mean, model_sample.
  assert (forallb is_fin (map Fin ws) = true) as -> by (apply forallb_forall; intros w Hw; apply in_map_iff in Hw; destruct Hw as (? & <- & _); reflexivity).
  rewrite map_map. simpl. rewrite map_id. rewrite Ek. unfold kernel_draw.
  apply (joint_mean [] ul ws (repeat dl (length cells)) (fun i u => draw (nth i cells ([], 0)) u) n F V Fa).
  - now rewrite repeat_length.
  - intros l Hl. apply repeat_spec in Hl. subst. apply Ud.
  - now rewrite map_length.
  - intros i Hi. rewrite <- Ln in Hi. rewrite (nth_indep _ [] (moved (draw ([], 0)) dl)) by (rewrite map_length; auto).
    rewrite (map_nth (fun c => moved (draw c) dl)). f_equal.
    clear -Hi. revert i Hi. induction (length cells) as [|k IH]; intros [|i] Hi; simpl; auto; try lia. apply IH. lia.
Qed.

Lemma selection_one i h : h i == 1 -> (forall j, (j < length ws)%nat -> j <> i -> h j == 0) -> (i < length ws)%nat -> selection ws h == nth i ws 0.
Proof.
  clear. revert i h. induction ws as [|w r IH]; intros i h A B L; [simpl in L; lia|]. simpl. destruct i as [|i].
  - rewrite A. assert (selection r (fun i => h (S i)) == 0); [|rewrite H; ring].
    clear IH A L. assert (B' : forall j, (j < length r)%nat -> h (S j) == 0) by (intros; apply B; simpl; lia). clear B.
    rewrite (selection_ext r _ (fun _ => 0)); [|intros; apply B'; auto]. clear. induction r as [|a r IH]; simpl; [reflexivity|].
    rewrite IH. ring.
  - rewrite (B 0%nat) by (simpl; lia). rewrite (IH i); [ring|auto| |simpl in L; lia]. intros j Hj Nj. apply B; [simpl; lia|congruence].
Qed.

Lemma cells_count n k : (k < length cells)%nat ->
  tree_mean P ul dl (length cells) (MMix cells (map Fin ws)) n (fun o => match o with Ok xs => count_inside (nth k cells ([], 0)) xs | Raise _ => - (1) end)
  == Qnat n * nth k ws 0.
Proof.
  intros Hk. rewrite cells_joint. cbn beta iota. unfold count_inside.
  assert (Lm : is_law (mixture_law ws (map (fun c => moved (draw c) dl) cells))).
  { apply mass_mixture; auto; [now rewrite map_length|]. intros l Hl. apply in_map_iff in Hl. destruct Hl as (c & <- & _).
    destruct Ud as ((A & B) & _). split.
    - rewrite <- A. unfold moved. rewrite map_map. reflexivity.
    - intros wx Hx. apply in_map_iff in Hx. destruct Hx as (mx & <- & Hx). apply (B mx Hx). }
  rewrite expect_total by (intros l Hl; apply repeat_spec in Hl; subst; apply is_law_mass; auto).
  rewrite Qsum_repeat. apply Qmult_comp; [reflexivity|].
  change (mean1 (mixture_law ws (map (fun c => moved (draw c) dl) cells)) (fun x => if inside_cell (nth k cells ([], 0)) x then 1 else 0) == nth k ws 0).
  rewrite mixture_law_mean by now rewrite map_length.
  assert (Dn : forall i, (i < length cells)%nat -> nth i (map (fun c => moved (draw c) dl) cells) [] = moved (draw (nth i cells ([], 0))) dl).
  { intros i Hi. rewrite (nth_indep _ [] (moved (draw ([], 0)) dl)) by (rewrite map_length; auto). apply (map_nth (fun c => moved (draw c) dl)). }
  assert (Op : forall i m u, (i < length cells)%nat -> In (m, u) dl -> in_open (nth i cells ([], 0)) (draw (nth i cells ([], 0)) u)).
  { intros i m u Hi Hu. destruct (Cd (nth i cells ([], 0)) (nth_In _ _ Hi)) as (D & R). destruct Ud as (_ & H). destruct (H _ Hu) as (Lu & Fu). simpl in Lu, Fu.
    destruct (nth i cells ([], 0)) as [c r]. simpl in D, R |- *. apply draw_open; auto. rewrite Lu. symmetry. exact D. }
  apply selection_one; [| |lia].
  - rewrite Dn, mean1_moved by auto. rewrite (mean1_ext _ _ (fun _ => 1)); [apply mean1_const, is_law_mass, Ud|].
    intros m u Hu. assert (inside_cell (nth k cells ([], 0)) (draw (nth k cells ([], 0)) u) = true) as -> by (apply inside_open; eauto). reflexivity.
  - intros j Hj Nj. rewrite <- Ln in Hj. rewrite Dn, mean1_moved by auto. rewrite (mean1_ext _ _ (fun _ => 0)); [apply mean1_const, is_law_mass, Ud|].
    intros m u Hu. destruct (inside_cell (nth k cells ([], 0)) (draw (nth j cells ([], 0)) u)) eqn:E; [|reflexivity].
    exfalso. apply Nj. apply inside_open in E. apply (Sp j k (nth j cells ([], 0)) (nth k cells ([], 0)) (draw (nth j cells ([], 0)) u)); auto;
      [apply nth_error_nth'; auto|apply nth_error_nth'; auto|eauto].
Qed.
End Cells.

Lemma posw_list ws : Forall posw ws -> exists l, ws = map Fin l /\ Forall (fun q => 0 < q) l.
Proof.
  induction 1 as [|w ws (q & -> & Pq) _ (l & -> & Fl)]; [exists []; auto|]. exists (q :: l). auto.
Qed.
Lemma set_weights_pos l : Forall (fun q => 0 < q) l -> l <> [] -> set_weights (length l) (map Fin l) = Ok (map Fin (map (fun q => q / Qsum l) l)) /\ 0 < Qsum l.
Proof.
  intros F N. assert (S : 0 < Qsum l).
  { destruct l as [|q l]; [congruence|]. inversion F; subst. simpl. assert (0 <= Qsum l); [|lra]. apply Qsum_nonneg.
    eapply Forall_impl; [|eauto]. intros; simpl in *; lra. }
  split; auto. unfold set_weights. rewrite map_length, Nat.eqb_refl. simpl negb. cbv iota.
  assert (zeroed (map Fin l) = map Fin l) as ->.
  { unfold zeroed. rewrite map_map. apply map_ext_in. intros q Hq. rewrite Forall_forall in F. specialize (F q Hq). simpl.
    destruct (Qle_bool q 0) eqn:D; auto. apply Qle_bool_iff in D. lra. }
  rewrite PopulationProofs.fsumQ_fin. cbv zeta. simpl fnonpos.
  destruct (Qle_bool (Qsum l) 0) eqn:D; [apply Qle_bool_iff in D; lra|]. f_equal. rewrite !map_map. apply map_ext. intros q. simpl.
  unfold fdivQ. destruct (Qeq_bool_spec (Qsum l) 0); [lra|reflexivity].
Qed.

(** The model built at the end of a call, and the normalised cache. *)
Lemma model_cells d whole k s : tree_inv d whole k (s_tree s) -> (forall i n, nth_error (t_nodes (s_tree s)) i = Some n -> 0 < n_radius n) ->
  Forall posw (masked (t_mask (s_tree s)) (t_weights (s_tree s))) ->
  exists cells ws, s_model (update_model s) = MMix cells (map Fin ws) /\ length cells = length ws /\ prob_vec ws /\ separate cells /\
    (forall c, In c cells -> length (fst c) = d /\ 0 < snd c) /\
    forall i n, In i (t_leaves (s_tree s)) -> nth_error (t_nodes (s_tree s)) i = Some n ->
      exists j, (j < length cells)%nat /\ nth j cells ([], 0) = (n_center n, n_radius n) /\
        nth_error (t_weights (s_tree (update_model s))) i = Some (Fin (nth j ws 0)).
Proof.
  set (t := s_tree s). intros I Rp Fw. destruct (posw_list _ Fw) as (l & El & Fl). pose proof (mask_length _ _ _ _ I) as ML.
  set (cells := masked (t_mask t) (combine (t_centers t) (t_radii t))).
  assert (Lc : length (combine (t_centers t) (t_radii t)) = length (t_mask t)).
  { rewrite combine_length, (ti_centers _ _ _ _ I), (ti_radii _ _ _ _ I), !map_length, ML, Nat.min_id. auto. }
  assert (Lw : length (t_weights t) = length (t_mask t)) by (rewrite (ti_weights _ _ _ _ I), ML; auto).
  assert (Ll : length cells = length l).
  { unfold cells. rewrite masked_length by auto. rewrite <- (masked_length _ _ Lw), El, map_length. auto. }
  assert (In_cell : forall p c, nth_error cells p = Some c -> exists i n, rank (t_mask t) i = p /\ nth_error (t_nodes t) i = Some n /\ In i (t_leaves t) /\ c = (n_center n, n_radius n)).
  { intros p c E. apply masked_in in E; auto. destruct E as (i & Rk & M & E). rewrite combine_nth, (ti_centers _ _ _ _ I), (ti_radii _ _ _ _ I), !nth_error_map in E.
    destruct (nth_error (t_nodes t) i) as [n|] eqn:En; [|discriminate]. simpl in E. inversion E; subst c. exists i, n. repeat split; auto.
    apply (leaf_in _ _ _ _ _ _ I En). rewrite (mask_leaf _ _ _ _ _ _ I En) in M. congruence. }
  assert (Nl : l <> []).
  { intros ->. destruct (ti_root _ _ _ _ I) as (_ & _ & _). pose proof (ti_leaves_count _ _ _ _ I) as Lv.
    destruct (t_leaves t) as [|i lv] eqn:Elv; [discriminate|]. assert (Hi : In i (t_leaves t)) by (rewrite Elv; left; auto).
    destruct (leaf_node _ _ _ _ _ I Hi) as (n & En & _). pose proof Hi as Hi'. apply (leaf_in _ _ _ _ _ _ I En) in Hi'.
    assert (Mi : nth_error (t_mask t) i = Some true) by (rewrite (mask_leaf _ _ _ _ _ _ I En); congruence).
    pose proof (masked_rank _ _ _ Lw Mi) as Rk. rewrite El in Rk. simpl in Rk. assert (i < length (t_weights t))%nat.
    { rewrite Lw. apply nth_error_Some. congruence. } apply nth_error_Some in H. destruct (rank (t_mask t) i); simpl in Rk; congruence. }
  destruct (set_weights_pos l Fl Nl) as (Sw & Tp).
  exists cells, (map (fun q => q / Qsum l) l). split.
  { unfold update_model. cbn [s_model]. fold t. fold cells. rewrite El, Ll, Sw. reflexivity. }
  split; [now rewrite map_length|]. split.
  { split. apply Forall_forall. intros q Hq. apply in_map_iff in Hq. destruct Hq as (q' & <- & Hq).
    rewrite Forall_forall in Fl. specialize (Fl _ Hq). apply Qle_shift_div_l; lra.
    transitivity (Qsum l / Qsum l); [|field; lra]. generalize (Qsum l) at 1 3. intros x. clear. induction l as [|a l IH]; simpl; [unfold Qdiv; ring|]. rewrite IH. unfold Qdiv. ring. }
  split.
  { intros p q c c' x Ep Eq Oc Oc'. destruct (In_cell _ _ Ep) as (i & n & <- & En & Hi & ->), (In_cell _ _ Eq) as (i' & n' & <- & En' & Hi' & ->).
    f_equal. apply In_nth_error in Hi. apply In_nth_error in Hi'. destruct Hi as (a & A), Hi' as (b & B). assert (a = b); [|congruence].
    destruct (ti_tiles _ _ _ _ I) as (_ & _ & Se & _). apply (Se a b (n_center n, n_radius n) (n_center n', n_radius n') x); auto;
      unfold leaf_cells; rewrite nth_error_map, ?A, ?B; simpl; unfold leaf_cell; rewrite ?En, ?En'; reflexivity. }
  split.
  { intros c Hc. apply In_nth_error in Hc. destruct Hc as (p & Ep). destruct (In_cell _ _ Ep) as (i & n & _ & En & _ & ->). simpl.
    split; [apply (ti_node _ _ _ _ I _ _ En)|eauto]. }
  intros i n Hi En. pose proof Hi as Hl. apply (leaf_in _ _ _ _ _ _ I En) in Hl.
  assert (Mi : nth_error (t_mask t) i = Some true) by (rewrite (mask_leaf _ _ _ _ _ _ I En); congruence).
  assert (Ec : nth_error cells (rank (t_mask t) i) = Some (n_center n, n_radius n)).
  { unfold cells. rewrite masked_rank; auto. rewrite combine_nth, (ti_centers _ _ _ _ I), (ti_radii _ _ _ _ I), !nth_error_map, En. reflexivity. }
  exists (rank (t_mask t) i). assert (Lk : (rank (t_mask t) i < length cells)%nat) by (apply nth_error_Some; congruence).
  split; auto. split; [apply nth_error_nth; auto|].
  change (s_tree (update_model s)) with (self_normalize t). unfold self_normalize. rewrite El, PopulationProofs.fsumQ_fin. simpl fgtQ.
  destruct (Qltb_spec 0 (Qsum l)) as [L|L]; [|lra]. cbn [t_weights put_cache].
  set (vals := map (fun x => fdivflQ x (Fin (Qsum l))) (map Fin l)).
  assert (Lv : length vals = count_true (t_mask t)) by (unfold vals; rewrite !map_length, <- (masked_length _ _ Lw), El, map_length; auto).
  assert (Lp : length (put_masked (t_mask t) (t_weights t) vals) = length (t_mask t)).
  { rewrite TreeSamplerTree.put_masked_length. exact Lw. }
  rewrite <- (masked_rank _ _ _ Lp Mi), masked_put by auto. unfold vals. rewrite map_map, nth_error_map.
  assert (Hn : nth_error l (rank (t_mask t) i) = Some (nth (rank (t_mask t) i) l 0)) by (apply nth_error_nth'; lia).
  rewrite Hn. simpl. f_equal. unfold fdivQ. destruct (Qeq_bool_spec (Qsum l) 0); [lra|]. f_equal.
  rewrite (nth_indep (map (fun q => q / Qsum l) l) 0 (0 / Qsum l)) by (rewrite map_length; lia).
  symmetry. apply (map_nth (fun q => q / Qsum l)).
Qed.
