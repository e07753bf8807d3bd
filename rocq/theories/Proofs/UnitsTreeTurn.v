(** Expansions, samples and resampling of a tree in other coordinates. *)
From Coq Require Import List Bool Arith Lia ZArith QArith Lqa.
Import ListNotations.
From Verif Require Import Prelude.Py Prelude.QBase Prelude.QFacts Model.Uniform Model.Mixture Model.Population Model.Tree Model.TreeSampler Spec.ScaleSpec Spec.UnitsSpec Spec.UnitsTree
  Proofs.MHLawProofs Proofs.TreeSamplerLeaves Proofs.ScaleBase Proofs.ScalePop Proofs.ScaleTree Proofs.UnitsBase Proofs.UnitsTreeBase.
Open Scope Q_scope.

Section Units.
Variables (a : Q) (b : list Q).
Hypothesis A : 0 < a.
Notation R := (recoord a b).
Notation row := (row_units a b).
Notation trel := (trel a b).
Notation nrel := (nrel a b).
Notation vol := (vol a b).

(** * Expansion *)
Lemma zeros_crel (l l' : list node) k : length l' = length l -> k = length b ->
  crel a b (map (fun _ => repeat 0 k) l) (map (fun _ => Fin 0) l) (map (fun _ => repeat 0 k) l') (map (fun _ => Fin 0) l').
Proof.
  intros E ->. revert l' E. induction l as [|x l IH]; intros [|y l'] E; try discriminate; simpl; constructor; auto. split; [simpl; ring|right]. repeat split.
Qed.
Lemma expand_at_units t t' p n n' li : trel t t' -> nrel (length (t_samples t)) n n' -> trel (expand_at t p n li) (expand_at t' p n' li).
Proof.
  intros T N. pose proof T as (T1 & T2 & T3 & T4 & T5 & T6 & T7). pose proof N as (N1 & N2 & N3 & N4 & N5 & N6 & N7 & N8 & N9 & N10).
  assert (LC : length (expand_children t n li) = @length vec (child_centers (n_center n) (n_radius n))) by (unfold expand_children; rewrite map_length, combine_length, seq_length; apply Nat.min_id).
  assert (C : Forall2 (nrel (length (t_samples t) + length (expand_children t n li))) (expand_children t n li) (expand_children t' n' li)) by (eapply children_units; eauto; rewrite LC, T7; apply Nat.le_refl).
  pose proof (rel_length _ _ _ C) as LE. destruct (recoord_length a b _ _ N1) as (Ln & Ln').
  unfold expand_at. rewrite <- (rel_length _ _ _ T1), <- LE. unfold UnitsTreeBase.trel; cbn [t_nodes t_leaves t_centers t_radii t_samples t_weights t_mask]. rewrite Ln, Ln', T2, T6, N6, app_length, map_length.
  split; [|split; [reflexivity|split; [|split; [|split; [|split]]]]].
  - apply app_rel; [|exact C]. apply upd_rel; [eapply Forall2_impl; [|exact T1]; intros x y; apply nrel_more; lia|]. unfold UnitsTreeBase.nrel; simpl. repeat (split; auto). lia.
  - apply app_rel; [exact T3|]. eapply map_rel; [|exact C]. intros x y H; apply H.
  - apply app_rel; [exact T4|]. eapply map_rel; [|exact C]. intros x y H; apply H.
  - apply crel_app; [exact T5|]. apply zeros_crel; auto.
  - f_equal. f_equal. clear -LE. revert LE. generalize (expand_children t n li), (expand_children t' n' li). induction l as [|x l IH]; intros [|y l'] E; try discriminate; simpl; auto. f_equal. apply IH. simpl in E. lia.
  - rewrite app_length, upd_length. lia.
Qed.
Lemma expand_units e m p t t' : trel t t' -> let r := expand e m p t in let r' := expand e m p t' in trel (fst r) (fst r') /\ snd r' = snd r.
Proof.
  intros T. unfold expand. pose proof (trel_node a b _ _ p T) as H. destruct (nth_error (t_nodes t) p) as [n|], (nth_error (t_nodes t') p) as [n'|]; try contradiction; [|simpl; auto].
  pose proof H as (N1 & N2 & N3 & N4 & N5 & N6 & N7 & N8 & N9 & N10). rewrite N5. destruct (n_leaf n) as [li|]; [|simpl; auto]. rewrite (may_expand_units a b e m _ _ N9).
  destruct (may_expand e m (n_hist n)) as [[|]|]; [|simpl; auto|simpl; auto]. cbn [fst snd]. split; [now apply expand_at_units|].
  rewrite <- (rel_length _ _ _ (proj1 T)). assert (LL : forall u k, length (expand_children u k li) = @length vec (child_centers (n_center k) (n_radius k))) by (intros; unfold expand_children; rewrite map_length, combine_length, seq_length; apply Nat.min_id).
  rewrite !LL. do 3 f_equal. exact (recoords_length a b _ _ (child_units a b _ _ _ _ N1 N2)).
Qed.
Lemma expand_nodes_units P P' ps : p_ess P' = p_ess P -> p_nmin P' = p_nmin P -> forall t t' m acc, trel t t' ->
  let r := expand_nodes P t ps m acc in let r' := expand_nodes P' t' ps m acc in trel (fst r) (fst r') /\ snd r' = snd r.
Proof.
  intros E1 E2. induction ps as [|p ps IH]; intros t t' m acc T; [simpl; auto|]. cbn zeta in *. cbn [expand_nodes]. rewrite E1, E2. pose proof (expand_units (p_ess P) (p_nmin P) p t t' T) as (H1 & H2).
  destruct (expand (p_ess P) (p_nmin P) p t) as [u r], (expand (p_ess P) (p_nmin P) p t') as [u' r']. cbn [fst snd] in H1, H2. subst r'.
  destruct r as [[new|]|e]; [|apply IH; auto|simpl; auto]. destruct (m <? length (acc ++ new))%nat; [simpl; auto|]. apply IH; auto.
Qed.

(** * Samples *)
Lemma put_units t t' ref n n' xs ws ys vs : trel t t' -> nrel (length xs) n n' -> crel a b xs ws ys vs -> length xs = length (t_samples t) ->
  trel (put_cache (put_node t ref n) xs ws) (put_cache (put_node t' ref n') ys vs).
Proof.
  intros (T1 & T2 & T3 & T4 & T5 & T6 & T7) N C L. unfold UnitsTreeBase.trel; cbn [put_cache put_node t_nodes t_leaves t_centers t_radii t_samples t_weights t_mask]. repeat (split; auto).
  - apply upd_rel; auto. rewrite L. exact T1.
  - now rewrite upd_length, L.
Qed.
Lemma payload_units N n n' w w' v v' h h' : nrel N n n' -> times 1 w w' -> times vol v v' -> hrel a b h h' -> nrel N (set_payload n w v h) (set_payload n' w' v' h').
Proof. intros (N1 & N2 & N3 & N4 & N5 & N6 & N7 & N8 & N9 & N10) W V H. unfold UnitsTreeBase.nrel; simpl. repeat (split; auto). Qed.
Lemma mean_same l l' : same_weights l l' -> times 1 (fmean l) (fmean l').
Proof. intros F. unfold fmean. rewrite <- (rel_length _ _ _ F). apply div_same; [now apply times_sum|apply times_refl]. Qed.
Lemma take_units t t' ref x y p p' q q' : trel t t' -> R x y -> times 1 (fdivflQ (Fin p) q) (fdivflQ (Fin p') q') -> trel (take_sample t ref x p q) (take_sample t' ref y p' q').
Proof.
  intros T X W. unfold take_sample. pose proof (trel_node a b _ _ ref T) as H. destruct (nth_error (t_nodes t) ref) as [n|], (nth_error (t_nodes t') ref) as [n'|]; try contradiction; auto.
  pose proof H as (N1 & N2 & N3 & N4 & N5 & N6 & N7 & N8 & N9 & N10). rewrite N6.
  assert (Hh : Forall2 row (hist_list (n_hist n) ++ [(x, fdivflQ (Fin p) q)]) (hist_list (n_hist n') ++ [(y, fdivflQ (Fin p') q')])).
  { apply app_rel; [destruct (n_hist n), (n_hist n'); simpl in *; try tauto; constructor|]. constructor; [now apply row_pt|constructor]. }
  pose proof T as (_ & _ & _ & _ & T5 & _). apply put_units; auto; [| |apply upd_length].
  - rewrite upd_length. apply payload_units; auto. apply times_k with (1 * vol); [ring|]. apply times_mul; [reflexivity|now apply vol_pos|apply mean_same; now apply (hist_same a b)|].
    simpl. destruct (recoord_length a b _ _ N1) as (-> & ->). unfold UnitsTreeBase.vol. rewrite <- Qpow_mult. now apply Qpow_proper.
  - apply crel_upd; auto. now apply row_pt.
Qed.
Lemma row_div s s' x w y v : times 1 s s' -> fgtQ s 0 = true -> row (x, w) (y, v) -> row (x, fdivflQ w s) (y, fdivflQ v s').
Proof.
  intros E G (H & H2). split; [cbn [snd] in *; now apply div_same|]. destruct H2 as [H2|(Z & H2)]; [left; exact H2|right]. split; [|exact H2]. cbn [snd] in *.
  destruct w as [q| | |]; simpl in Z; try contradiction. destruct s as [r| | |]; simpl in G; try discriminate; simpl.
  - unfold fdivQ. destruct (Qeq_bool r 0) eqn:Er; [|cbn; setoid_replace q with 0 by lra; field; now apply Qeq_bool_neq]. apply Qeq_bool_eq in Er. destruct (Qltb_spec 0 r); [lra|discriminate].
  - ring.
Qed.
Lemma normalize_units t t' : trel t t' -> trel (self_normalize t) (self_normalize t').
Proof.
  intros T. pose proof T as (T1 & T2 & T3 & T4 & T5 & T6 & T7). unfold self_normalize. rewrite T6. pose proof (masked_rel (times 1) (t_mask t) _ _ (crel_weights a b _ _ _ _ T5)) as W. pose proof (times_sum 1 _ _ W) as Sm.
  rewrite (times_gt0 1 eq_refl _ _ Sm). destruct (fgtQ (fsumQ (masked (t_mask t) (t_weights t))) 0) eqn:G; auto.
  unfold UnitsTreeBase.trel; cbn [put_cache t_nodes t_leaves t_centers t_radii t_samples t_weights t_mask]. repeat (split; auto). apply crel_put_weights; auto. intros x w y v H. now apply row_div.
Qed.
Definition cellrel (c c' : vec * Q) : Prop := R (fst c) (fst c') /\ snd c' == a * snd c.
Definition mrel (m m' : tp_model) : Prop :=
  match m, m' with MRoot, MRoot => True | MMix c w, MMix c' w' => Forall2 cellrel c c' /\ same_weights w w' /\ (w = [] \/ length w = length c) | _, _ => False end.
Definition srel (s s' : tp) : Prop := trel (s_tree s) (s_tree s') /\ mrel (s_model s) (s_model s') /\ counts s' = counts s.
Lemma combine_rel {X Y X' Y'} (T : X -> X' -> Prop) (U : Y -> Y' -> Prop) l l' : Forall2 T l l' -> forall m m', Forall2 U m m' -> Forall2 (fun p p' => T (fst p) (fst p') /\ U (snd p) (snd p')) (combine l m) (combine l' m').
Proof. induction 1; intros m m' F; [constructor|]. inversion F; subst; simpl; constructor; auto. Qed.
Lemma cells_units t t' : trel t t' -> Forall2 cellrel (masked (t_mask t) (combine (t_centers t) (t_radii t))) (masked (t_mask t') (combine (t_centers t') (t_radii t'))).
Proof. intros (T1 & T2 & T3 & T4 & T5 & T6 & T7). rewrite T6. apply (masked_rel cellrel). exact (combine_rel _ _ _ _ T3 _ _ T4). Qed.
Lemma set_weights_length n l w : set_weights n l = Ok w -> length w = n.
Proof. unfold set_weights. destruct (n =? length l)%nat eqn:E; [|discriminate]. apply Nat.eqb_eq in E. simpl. destruct (fnonpos _); intros H; injection H as <-; unfold zeroed; rewrite ?map_length; auto. Qed.
Lemma update_units s s' : srel s s' -> srel (update_model s) (update_model s').
Proof.
  intros (T & M & C). split; [exact (normalize_units _ _ T)|]. split; [|apply counts_eq in C; destruct C as (E1 & E2 & E3 & E4 & E5 & E6); unfold counts; simpl; congruence].
  pose proof (cells_units _ _ T) as Cl. simpl. split; [exact Cl|]. pose proof T as (_ & _ & _ & _ & T5 & T6 & _). rewrite <- (rel_length _ _ _ Cl).
  rewrite T6. pose proof (masked_rel (times 1) (t_mask (s_tree s)) _ _ (crel_weights a b _ _ _ _ T5)) as W.
  pose proof (ScalePop.set_weights_scale 1 (length (masked (t_mask (s_tree s)) (combine (t_centers (s_tree s)) (t_radii (s_tree s))))) _ _ eq_refl W) as H.
  destruct (set_weights _ (masked (t_mask (s_tree s)) (t_weights (s_tree s)))) as [w|] eqn:E, (set_weights _ (masked (t_mask (s_tree s)) (t_weights (s_tree s')))); try contradiction.
  - split; auto. right. eapply set_weights_length; eauto.
  - split; [constructor|auto].
Qed.

Section Run.
Variables (P P' : tp_params).
Hypothesis Sp : tp_space a b P P'.
Lemma nth_move m m' x x' i : a == 1 -> R m m' -> R x x' -> nth i x' 0 - nth i m' 0 == nth i x 0 - nth i m 0.
Proof.
  intros E. revert m m' x x' i. clear -E. induction b as [|b0 l IH]; intros [|m0 m] [|m0' m'] [|x0 x] [|x0' x'] i; simpl; try tauto; [intros; destruct i; ring|]. intros (E1 & H1) (E2 & H2).
  destruct i as [|i]; [rewrite E1, E2, E; ring|now apply IH].
Qed.
Lemma vol_one : a == 1 -> vol == 1.
Proof. intros E. unfold UnitsTreeBase.vol. rewrite (Qpow_proper a 1 _ E). induction (length b) as [|n IH]; simpl; [reflexivity|]. rewrite IH. ring. Qed.
Lemma nden_units v v' m m' x x' : p_kernel P = Normal -> v' == v -> R m m' -> R x x' -> a == 1 /\ p_nden P' v' m' x' == p_nden P v m x.
Proof.
  intros K V M X. destruct Sp as (_ & _ & _ & _ & _ & _ & _ & _ & _ & Kk). unfold kernel_units in Kk. rewrite K in Kk. destruct Kk as (E & H). split; auto.
  destruct (recoord_length a b _ _ M), (recoord_length a b _ _ X). apply H; auto. intros i. now apply nth_move.
Qed.
Lemma inv_volume_units r r' t : r' == a * r -> times (/ vol) (fdivQ 1 (Qpow (r * t) (length b))) (fdivQ 1 (Qpow (r' * t) (length b))).
Proof.
  intros E. apply times_k with (1 / vol); [unfold Qdiv; ring|]. apply times_fdivQ; [reflexivity|now apply vol_pos|ring|now apply volume_units].
Qed.
Lemma node_density_units c c' r r' x x' : R c c' -> r' == a * r -> R x x' -> times (/ vol) (node_density P c r x) (node_density P' c' r' x').
Proof.
  intros C E X. unfold node_density. replace (p_kernel P') with (p_kernel P) by (symmetry; apply Sp). destruct (p_kernel P) eqn:K.
  - destruct (stretch_map a b _ _ _ _ C E) as (L & H). rewrite (inlier_units a A b _ _ _ _ _ _ L H X). destruct (inlier _ _ _); [|simpl; ring].
    destruct (recoord_length a b _ _ C) as (-> & ->). now apply inv_volume_units.
  - destruct (nden_units (r / 4) (r' / 4) c c' x x' K) as (E1 & H); auto.
    + assert (a == 1). { destruct Sp as (_ & _ & _ & _ & _ & _ & _ & _ & _ & Kk). unfold kernel_units in Kk. rewrite K in Kk. apply Kk. } rewrite E, H. field.
    + simpl. rewrite H, (vol_one E1). field.
Qed.
Lemma weight_units pi pi' x x' q q' : redensity a b pi pi' -> R x x' -> times (/ vol) q q' -> times 1 (fdivflQ (Fin (pi x)) q) (fdivflQ (Fin (pi' x')) q').
Proof.
  intros D X Hq. pose proof (vol_pos a b A) as V. pose proof (vol_inv_pos a b A) as V'. apply times_k with (/ vol / / vol); [field; now apply Qnz|]. apply times_div; auto. simpl. now apply (redensity_vol a b A).
Qed.
Section Target.
Variables (pi pi' : vec -> Q).
Hypothesis D : redensity a b pi pi'.
Lemma counts_bump s s' : counts s' = counts s -> forall i j k l m n t t' md md',
  counts (mkS t' md' (s_q_samples s' + i) (s_q_evals s' + j) (s_pi_evals s' + k) (g_draws s' + l) (g_qs s' + m) (g_pis s' + n)) =
  counts (mkS t md (s_q_samples s + i) (s_q_evals s + j) (s_pi_evals s + k) (g_draws s + l) (g_qs s + m) (g_pis s + n)).
Proof. intros C. intros. apply counts_eq in C. destruct C as (-> & -> & -> & -> & -> & ->). reflexivity. Qed.
Lemma node_turn_units u u' ref s s' : draw_units a b (p_kernel P) u u' -> srel s s' -> srel (node_turn P pi u ref s) (node_turn P' pi' u' ref s').
Proof.
  intros U (T & M & C). unfold node_turn. pose proof (trel_node a b _ _ ref T) as H. destruct (nth_error (t_nodes (s_tree s)) ref) as [n|], (nth_error (t_nodes (s_tree s')) ref) as [n'|]; try contradiction; [|split; auto].
  destruct H as (N1 & N2 & _). replace (p_kernel P') with (p_kernel P) by (symmetry; apply Sp). pose proof (kernel_draw_units a b _ _ _ _ _ _ _ N1 N2 U) as X.
  split; [|split; [exact M|now apply counts_bump]]. cbn [s_tree]. apply take_units; auto. apply weight_units; auto. now apply node_density_units.
Qed.
Lemma nodes_units (f f' : nat -> vec) new : (forall i, draw_units a b (p_kernel P) (f i) (f' i)) -> forall s s', srel s s' ->
  srel (fold_left (fun s ref => node_turn P pi (f ref) ref s) new s) (fold_left (fun s ref => node_turn P' pi' (f' ref) ref s) new s').
Proof. intros F. induction new as [|x new IH]; intros s s' H; cbn [fold_left]; auto. apply IH. apply node_turn_units; auto. Qed.

(** * Resampling *)
Lemma refresh_units t t' ref : trel t t' -> trel (refresh_leaf t ref) (refresh_leaf t' ref).
Proof.
  intros T. unfold refresh_leaf. pose proof (trel_node a b _ _ ref T) as H. destruct (nth_error (t_nodes t) ref) as [n|], (nth_error (t_nodes t') ref) as [n'|]; try contradiction; auto.
  pose proof H as (N1 & N2 & N3 & N4 & N5 & N6 & N7 & N8 & N9 & N10). rewrite N6. pose proof T as (T1 & T2 & T3 & T4 & T5 & T6 & T7). pose proof (crel_nth a b _ _ _ _ T5 _ N10) as Rw.
  assert (G : nrel (length (t_samples t)) (set_payload n (nth (n_idx n) (t_weights t) NaN) (fmulQ (nth (n_idx n) (t_weights t) NaN) (Fin (Qpow (2 * n_radius n) (length (n_center n)))))
      match n_hist n with HList l => HList (replace_last l (nth (n_idx n) (t_samples t) [], nth (n_idx n) (t_weights t) NaN)) | h => h end)
    (set_payload n' (nth (n_idx n) (t_weights t') NaN) (fmulQ (nth (n_idx n) (t_weights t') NaN) (Fin (Qpow (2 * n_radius n') (length (n_center n')))))
      match n_hist n' with HList l => HList (replace_last l (nth (n_idx n) (t_samples t') [], nth (n_idx n) (t_weights t') NaN)) | h => h end)).
  { apply payload_units; auto; [apply Rw| |].
    - apply times_k with (1 * vol); [ring|]. apply times_mul; [reflexivity|now apply vol_pos|apply Rw|]. simpl. destruct (recoord_length a b _ _ N1) as (-> & ->). unfold UnitsTreeBase.vol. rewrite <- Qpow_mult. apply Qpow_proper. rewrite N2. ring.
    - destruct (n_hist n) as [| |l], (n_hist n') as [| |l']; simpl in N9 |- *; try contradiction; auto. unfold replace_last. rewrite <- (rel_length _ _ _ N9). now apply upd_rel. }
  unfold UnitsTreeBase.trel; cbn [put_node t_nodes t_leaves t_centers t_radii t_samples t_weights t_mask]. repeat (split; auto); [now apply upd_rel|now rewrite upd_length].
Qed.
Lemma refresh_all_units refs : forall t t', trel t t' -> trel (fold_left refresh_leaf refs t) (fold_left refresh_leaf refs t').
Proof. induction refs as [|x l IH]; intros t t' T; simpl; auto. apply IH. now apply refresh_units. Qed.
Lemma re_sample_units c c' r r' z : R c c' -> r' == a * r -> length z = length b -> R (re_sample c r z) (re_sample c' r' z).
Proof.
  intros C E. unfold re_sample. revert c c' z C. clear -E. induction b as [|b0 l IH]; intros [|x c] [|y c'] [|k z]; simpl; try tauto; try discriminate. intros (E0 & H) L. split; [rewrite E0, E; ring|]. apply IH; auto.
Qed.
Lemma re_density_units r r' z : r' == a * r -> length z = length b -> times (/ vol) (re_density P r z) (re_density P' r' z).
Proof.
  intros E L. unfold re_density, p_dims. replace (p_kernel P') with (p_kernel P) by (symmetry; apply Sp). destruct (recoord_length a b _ _ (proj1 Sp)) as (-> & ->). destruct (p_kernel P) eqn:K.
  - apply times_k with (1 / vol); [unfold Qdiv; ring|]. apply times_fdivQ; [reflexivity|now apply vol_pos|ring|]. rewrite (Qpow_proper (2 * r') (r' * 2)), (Qpow_proper (2 * r) (r * 2)) by ring. now apply volume_units.
  - destruct Sp as (_ & _ & _ & _ & _ & _ & _ & _ & _ & Kk). unfold kernel_units in Kk. rewrite K in Kk. destruct Kk as (E1 & H). simpl. rewrite (H (1 # 2) (1 # 2) (repeat 0 (length b)) (repeat 0 (length b)) z z); auto using repeat_length; try reflexivity.
    rewrite (vol_one E1). field.
Qed.
Lemma rows_units r r' cells cells' : (forall i, rd_re r' i = rd_re r i /\ length (rd_re r i) = length b) -> Forall2 cellrel cells cells' ->
  Forall2 (fun p p' => R (fst (fst p)) (fst (fst p')) /\ snd (fst p') == a * snd (fst p) /\ snd p' = snd p /\ length (snd p) = length b) (resample_rows P r cells) (resample_rows P' r' cells').
Proof.
  intros E F. unfold resample_rows. rewrite <- (rel_length _ _ _ F). pose proof (combine_seq_rel cellrel 0 _ _ F) as G. eapply map_rel; [|exact G].
  intros (i, c) (i', c') (Ei & _ & H1 & H2). cbn [fst snd] in *. subst i'. destruct (E i) as (-> & L). unfold re_unit. replace (p_kernel P') with (p_kernel P) by (symmetry; apply Sp).
  repeat (split; auto). destruct (p_kernel P); rewrite ?map_length; auto.
Qed.
Lemma rows_crel rows rows' : Forall2 (fun p p' : vec * Q * vec => R (fst (fst p)) (fst (fst p')) /\ snd (fst p') == a * snd (fst p) /\ snd p' = snd p /\ length (snd p) = length b) rows rows' ->
  crel a b (map (fun '(c, rad, z) => re_sample c rad z) rows) (map (fun '(c, rad, z) => fdivflQ (Fin (pi (re_sample c rad z))) (re_density P rad z)) rows)
    (map (fun '(c, rad, z) => re_sample c rad z) rows') (map (fun '(c, rad, z) => fdivflQ (Fin (pi' (re_sample c rad z))) (re_density P' rad z)) rows').
Proof.
  induction 1 as [|((c, r), z) ((c', r'), z') l l' (H1 & H2 & H3 & H4) F IH]; [constructor|]. cbn [map]. constructor; auto. cbn [fst snd] in *. subst z'. pose proof (re_sample_units _ _ _ _ z H1 H2 H4) as X.
  apply row_pt; auto. apply weight_units; auto. now apply re_density_units.
Qed.
Lemma resample_tree_units r r' t t' : (forall i, rd_re r' i = rd_re r i /\ length (rd_re r i) = length b) -> trel t t' -> trel (resample_tree P pi r t) (resample_tree P' pi' r' t').
Proof.
  intros E T. pose proof T as (T1 & T2 & T3 & T4 & T5 & T6 & T7). unfold resample_tree. rewrite T6. cbv zeta.
  assert (Cl : Forall2 cellrel (combine (masked (t_mask t) (t_centers t)) (masked (t_mask t) (t_radii t))) (combine (masked (t_mask t) (t_centers t')) (masked (t_mask t) (t_radii t')))) by (exact (combine_rel _ _ _ _ (masked_rel _ (t_mask t) _ _ T3) _ _ (masked_rel _ (t_mask t) _ _ T4))).
  pose proof (rows_crel _ _ (rows_units r r' _ _ E Cl)) as Cr. set (rows := resample_rows P r _) in *. set (rows' := resample_rows P' r' _) in *.
  set (t0 := put_cache t _ _). set (t0' := put_cache t' _ _).
  assert (T0 : trel t0 t0').
  { pose proof (crel_put a b (t_mask t) _ _ _ _ _ _ _ _ T5 Cr) as Cp. unfold UnitsTreeBase.trel, t0, t0'; cbn [put_cache t_nodes t_leaves t_centers t_radii t_samples t_weights t_mask].
    assert (L : forall A (l v : list A), length (put_masked (t_mask t) l v) = length l).
    { clear. generalize (t_mask t). induction l as [|[|] m IH]; intros X l v; [reflexivity| |]; (destruct l; [reflexivity|]); cbn [put_masked]; [destruct v|]; cbn [length]; f_equal; auto. }
    rewrite !L. repeat (split; auto). }
  pose proof (normalize_units _ _ T0) as T0n. replace (t_leaves (self_normalize t0')) with (t_leaves (self_normalize t0)) by (symmetry; apply T0n). now apply refresh_all_units.
Qed.
Lemma maybe_units r r' s s' : (forall i, rd_re r' i = rd_re r i /\ length (rd_re r i) = length b) -> srel s s' -> srel (maybe_resample P pi r s) (maybe_resample P' pi' r' s').
Proof.
  intros E (T & M & C). unfold maybe_resample. replace (p_leaf_resampling P') with (p_leaf_resampling P) by (symmetry; apply Sp). destruct (p_leaf_resampling P); [|split; auto].
  unfold resample. replace (t_leaves (s_tree s')) with (t_leaves (s_tree s)) by (symmetry; apply T). split; [now apply resample_tree_units|]. split; [exact M|now apply counts_bump].
Qed.
End Target.
End Run.
End Units.
