(** Scaled targets and the tree pyramid sampler with leaf resampling. *)
From Coq Require Import List Bool Arith Lia QArith Lqa Permutation.
Import ListNotations.
From Verif Require Import Prelude.Py Prelude.QBase Prelude.QFacts Model.Mixture Model.Population Model.Tree Model.TreeSampler Spec.TreeSpec Spec.Box Spec.ScaleSpec
  Proofs.PopulationProofs Proofs.TreeProofs Proofs.TreeMask Proofs.TreeSamplerTree Proofs.TreeSamplerInv Proofs.TreeSamplerLeaves Proofs.TreeRequest Proofs.ScaleBase Proofs.ScalePop.
Open Scope Q_scope.

(** Trees that differ in weights and values only. *)
Definition hlike (h h' : history) : Prop := match h, h' with HNone, HNone => True | HGone, HGone => True | HList l, HList l' => length l = length l' | _, _ => False end.
Definition nlike (n n' : node) : Prop :=
  n_center n' = n_center n /\ n_radius n' = n_radius n /\ n_children n' = n_children n /\ n_leaf n' = n_leaf n /\ n_idx n' = n_idx n /\ n_level n' = n_level n /\ hlike (n_hist n) (n_hist n').
Definition tlike (t t' : tree) : Prop :=
  Forall2 nlike (t_nodes t) (t_nodes t') /\ t_leaves t' = t_leaves t /\ t_centers t' = t_centers t /\ t_radii t' = t_radii t /\
  t_samples t' = t_samples t /\ t_mask t' = t_mask t /\ length (t_weights t') = length (t_weights t).

Lemma F2_nth {A B} (R : A -> B -> Prop) l l' i : Forall2 R l l' -> match nth_error l i, nth_error l' i with Some a, Some b => R a b | None, None => True | _, _ => False end.
Proof. intros F. revert i. induction F; intros [|i]; simpl; auto. apply IHF. Qed.
Lemma F2_ext {A B} (R : A -> B -> Prop) l : forall l', (forall i, match nth_error l i, nth_error l' i with Some a, Some b => R a b | None, None => True | _, _ => False end) -> Forall2 R l l'.
Proof.
  induction l as [|a l IH]; intros [|b l'] H; [constructor|destruct (H 0%nat)|destruct (H 0%nat)|]. constructor; [apply (H 0%nat)|]. apply IH. intros i. apply (H (S i)).
Qed.
Lemma children_like t t' n n' li : tlike t t' -> nlike n n' -> Forall2 nlike (expand_children t n li) (expand_children t' n' li).
Proof.
  intros (T1 & T2 & _) (N1 & N2 & N3 & N4 & N5 & N6 & N7). unfold expand_children. rewrite N1, N2, N6, T2, <- (rel_length _ _ _ T1).
  apply map_same. intros (i, c). repeat split; reflexivity.
Qed.
Lemma map_F2 {A B} (R : A -> A -> Prop) (f : A -> B) l l' : (forall a b, R a b -> f b = f a) -> Forall2 R l l' -> map f l' = map f l.
Proof. intros H. induction 1; simpl; auto. f_equal; auto. Qed.
Lemma const_F2 {A B} (R : A -> A -> Prop) (b : B) l l' : Forall2 R l l' -> map (fun _ => b) l' = map (fun _ => b) l.
Proof. apply map_F2. auto. Qed.
Lemma expand_at_like t t' p n n' li : tlike t t' -> nlike n n' -> tlike (expand_at t p n li) (expand_at t' p n' li).
Proof.
  intros T N. pose proof (children_like t t' n n' li T N) as C. destruct T as (T1 & T2 & T3 & T4 & T5 & T6 & T7). pose proof N as (N1 & N2 & N3 & N4 & N5 & N6 & N7).
  unfold expand_at. rewrite <- (rel_length _ _ _ T1), <- (rel_length _ _ _ C). unfold tlike; simpl.
  split; [|rewrite T2, T3, T4, T5, T6, N1, N5; repeat split].
  - apply app_rel; [|exact C]. apply upd_rel; [exact T1|]. unfold nlike; simpl. repeat split; auto.
  - f_equal. eapply map_F2; [|exact C]. intros a b H; apply H.
  - f_equal. eapply map_F2; [|exact C]. intros a b H; apply H.
  - f_equal. eapply const_F2; exact C.
  - f_equal. f_equal. eapply const_F2; exact C.
  - rewrite !app_length, !map_length, T7, (rel_length _ _ _ C). reflexivity.
Qed.

(** Leaves with exactly one sample are always expanded. *)
Definition single (t : tree) (p : nat) : Prop := exists n l, nth_error (t_nodes t) p = Some n /\ n_hist n = HList l /\ length l = 1%nat.
Lemma expand_like P p t t' : one_mode P -> tlike t t' -> single t p -> let r := expand (p_ess P) (p_nmin P) p t in let r' := expand (p_ess P) (p_nmin P) p t' in
  tlike (fst r) (fst r') /\ snd r' = snd r.
Proof.
  intros O T (n & l & En & El & L). unfold expand. pose proof (F2_nth _ _ _ p (proj1 T)) as H. rewrite En in *. destruct (nth_error (t_nodes t') p) as [n'|]; [|tauto].
  pose proof H as (N1 & N2 & N3 & N4 & N5 & N6 & N7). rewrite N4. destruct (n_leaf n) as [li|]; [|simpl; auto]. rewrite El in *. unfold hlike in N7. destruct (n_hist n') as [| |l'] eqn:El'; try tauto.
  rewrite !one_never_refused by (auto; congruence). simpl. split; [now apply expand_at_like|].
  rewrite <- (rel_length _ _ _ (proj1 T)), <- (rel_length _ _ _ (children_like t t' n n' li T H)). reflexivity.
Qed.
Lemma single_keep P p q t : single t q -> q <> p -> single (fst (expand (p_ess P) (p_nmin P) p t)) q.
Proof.
  intros (n & l & En & El & L) D. destruct (expand_cases (p_ess P) (p_nmin P) p t) as (u & r & E & H). rewrite E. simpl. destruct r as [[new|]|]; try (subst u; exists n, l; auto).
  destruct H as (n0 & li & _ & _ & _ & -> & _). exists n, l. rewrite expand_at_old; auto. apply nth_error_Some. congruence.
Qed.
Lemma expand_nodes_like P ps : one_mode P -> forall t t' m acc, tlike t t' -> NoDup ps -> (forall p, In p ps -> single t p) ->
  let r := expand_nodes P t ps m acc in let r' := expand_nodes P t' ps m acc in tlike (fst r) (fst r') /\ snd r' = snd r.
Proof.
  intros O. induction ps as [|p ps IH]; intros t t' m acc T N S; [simpl; auto|]. inversion N as [|? ? N1 N2]; subst. cbn zeta in *. cbn [expand_nodes].
  pose proof (expand_like P p t t' O T (S p (or_introl eq_refl))) as (H1 & H2).
  assert (K : forall q, In q ps -> single (fst (expand (p_ess P) (p_nmin P) p t)) q) by (intros q Hq; apply single_keep; [apply S; right; auto|congruence]).
  destruct (expand (p_ess P) (p_nmin P) p t) as [u r], (expand (p_ess P) (p_nmin P) p t') as [u' r']. simpl in H1, H2, K. subst r'.
  destruct r as [[new|]|e]; [|apply IH; auto|simpl; auto]. destruct (m <? length (acc ++ new))%nat; [simpl; auto|]. apply IH; auto.
Qed.

(** The samples of one turn. *)
Lemma take_like t t' ref x p q p' q' : tlike t t' -> tlike (take_sample t ref x p q) (take_sample t' ref x p' q').
Proof.
  intros T. unfold take_sample. pose proof (F2_nth _ _ _ ref (proj1 T)) as H. destruct (nth_error (t_nodes t) ref) as [n|], (nth_error (t_nodes t') ref) as [n'|]; try tauto.
  destruct T as (T1 & T2 & T3 & T4 & T5 & T6 & T7), H as (N1 & N2 & N3 & N4 & N5 & N6 & N7). unfold tlike; simpl. rewrite N5, T5, !upd_length. repeat split; auto.
  apply upd_rel; auto. unfold nlike; simpl. repeat split; auto. rewrite !app_length. simpl. f_equal. destruct (n_hist n), (n_hist n'); simpl in *; tauto.
Qed.

Definition mlike (m m' : tp_model) : Prop := match m, m' with MRoot, MRoot => True | MMix c w, MMix c' w' => c' = c /\ same_weights w w' | _, _ => False end.
Definition counts (s : tp) : nat * nat * nat * nat * nat * nat := (s_q_samples s, s_q_evals s, s_pi_evals s, g_draws s, g_qs s, g_pis s).
(** States within a turn: the shape, the model and the counters. *)
Definition shape_like (s s' : tp) : Prop := tlike (s_tree s) (s_tree s') /\ mlike (s_model s) (s_model s') /\ counts s' = counts s.
Lemma counts_eq s s' : counts s' = counts s -> s_q_samples s' = s_q_samples s /\ s_q_evals s' = s_q_evals s /\ s_pi_evals s' = s_pi_evals s /\ g_draws s' = g_draws s /\ g_qs s' = g_qs s /\ g_pis s' = g_pis s.
Proof. unfold counts. intros E. inversion E. repeat split; auto. Qed.
Lemma node_turn_like P pi pi' u ref s s' : shape_like s s' -> shape_like (node_turn P pi u ref s) (node_turn P pi' u ref s').
Proof.
  intros (T & M & C). unfold node_turn. pose proof (F2_nth _ _ _ ref (proj1 T)) as H. destruct (nth_error (t_nodes (s_tree s)) ref) as [n|], (nth_error (t_nodes (s_tree s')) ref) as [n'|]; try tauto; [|repeat split; auto; apply T].
  destruct H as (N1 & N2 & _). rewrite N1, N2. split; [now apply take_like|]. split; [exact M|]. apply counts_eq in C. destruct C as (-> & -> & -> & -> & -> & ->). reflexivity.
Qed.
Lemma nodes_like P pi pi' r new : forall s s', shape_like s s' ->
  shape_like (fold_left (fun s ref => node_turn P pi (rd_draw r ref) ref s) new s) (fold_left (fun s ref => node_turn P pi' (rd_draw r ref) ref s) new s').
Proof. induction new as [|a new IH]; intros s s' H; cbn [fold_left]; auto. apply IH. now apply node_turn_like. Qed.

(** Normalising weights that differ by a factor. *)
Definition wlike (t t' : tree) : Prop := exists k, 0 < k /\ Forall2 (times k) (masked (t_mask t) (t_weights t)) (masked (t_mask t') (t_weights t')).
Definition vlike (t t' : tree) : Prop := exists k, 0 < k /\ forall i, In i (t_leaves t) -> times k (leaf_value t i) (leaf_value t' i).
Lemma normalize_like t t' : tlike t t' -> length (t_weights t) = length (t_mask t) -> wlike t t' -> tlike (self_normalize t) (self_normalize t') /\ wlike (self_normalize t) (self_normalize t').
Proof.
  intros T L (k & K & W). unfold self_normalize. pose proof (times_sum k _ _ W) as Ts. rewrite (times_gt0 k K _ _ Ts).
  destruct (fgtQ (fsumQ (masked (t_mask t) (t_weights t))) 0); [|split; [exact T|exists k; auto]]. destruct T as (T1 & T2 & T3 & T4 & T5 & T6 & T7).
  split; [unfold tlike; simpl; rewrite !put_masked_length; repeat split; auto|]. exists 1. split; [lra|]. unfold put_cache; simpl.
  rewrite !masked_put; rewrite ?map_length, ?masked_length; auto; try (rewrite T6, T7; auto). eapply map_rel; [|exact W]. intros a b H. apply times_k with (k / k); [field; now apply Qnz|]. now apply times_div.
Qed.
Lemma update_like s s' : shape_like s s' -> length (t_weights (s_tree s)) = length (t_mask (s_tree s)) -> wlike (s_tree s) (s_tree s') ->
  shape_like (update_model s) (update_model s') /\ wlike (s_tree (update_model s)) (s_tree (update_model s')).
Proof.
  intros (T & M & C) L W. destruct (normalize_like _ _ T L W) as (T1 & W1). split; [|exact W1]. split; [exact T1|]. split; [|apply counts_eq in C; destruct C as (E1 & E2 & E3 & E4 & E5 & E6); unfold counts; simpl; congruence].
  destruct T as (_ & _ & E3 & E4 & _ & E6 & _), W as (k & K & W). simpl. rewrite E3, E4, E6 in *. split; auto.
  pose proof (set_weights_scale k (length (masked (t_mask (s_tree s)) (combine (t_centers (s_tree s)) (t_radii (s_tree s))))) _ _ K W) as H.
  destruct (set_weights _ _), (set_weights _ _); try tauto. constructor.
Qed.

Lemma all_zero l : Forall finw l -> fgtQ (fsumQ l) 0 = false -> Forall (fun w => exists q, w = Fin q /\ q == 0) l.
Proof.
  intros F. assert (E : exists qs, l = map Fin qs /\ Forall (fun q => 0 <= q) qs).
  { induction F as [|w l (q & -> & Hq) F (qs & -> & H)]; [exists []; auto|]. exists (q :: qs). split; auto. }
  destruct E as (qs & -> & H). rewrite fsumQ_fin. simpl. intros G. assert (Z : Qsum qs <= 0) by (destruct (Qltb_spec 0 (Qsum qs)); [discriminate|lra]). clear F G.
  apply Forall_map. induction H as [|q qs Hq H IH]; constructor; simpl in Z; change (fold_right Qplus 0 qs) with (Qsum qs) in Z;
    assert (0 <= Qsum qs) by (apply Qsum_nonneg; auto); [exists q; split; auto; lra|apply IH; lra].
Qed.
(** Nonnegative finite weights are the same after the normalisation. *)
Lemma normalize_same t t' : tlike t t' -> length (t_weights t) = length (t_mask t) -> wlike t t' -> Forall finw (masked (t_mask t) (t_weights t)) ->
  same_weights (masked (t_mask (self_normalize t)) (t_weights (self_normalize t))) (masked (t_mask (self_normalize t')) (t_weights (self_normalize t'))).
Proof.
  intros T L (k & K & W) F. unfold self_normalize. pose proof (times_sum k _ _ W) as Ts. rewrite (times_gt0 k K _ _ Ts).
  destruct (fgtQ (fsumQ (masked (t_mask t) (t_weights t))) 0) eqn:G.
  - destruct T as (T1 & T2 & T3 & T4 & T5 & T6 & T7). unfold put_cache; simpl.
    rewrite !masked_put; rewrite ?map_length, ?masked_length; auto; try (rewrite T6, T7; auto). eapply map_rel; [|exact W]. intros a b H. apply times_k with (k / k); [field; now apply Qnz|]. now apply times_div.
  - pose proof (all_zero _ F G) as Z. clear - W Z. unfold same_weights. induction W as [|x y l l' Hx W IH]; [constructor|]. inversion Z as [|? ? (q & -> & Hq) Z2]; subst. constructor; auto.
    destruct y; simpl in *; try tauto. rewrite Hx, Hq. ring.
Qed.

Section Turn.
Variables (P : tp_params) (c : Q) (pi pi' : vec -> Q).
Hypothesis box : proper (p_lo P) (p_hi P).
Hypothesis flow : p_flow P = Simple.
Hypothesis leaf_re : p_leaf_resampling P = true.
Hypothesis one : one_mode P.
Hypothesis cpos : 0 < c.
Hypothesis sc : scaled c pi pi'.
Lemma nth_masked k t t' i n : (exists j, tree_inv (p_dims P) (whole_cell P) j t) -> tlike t t' -> 0 < k -> Forall2 (times k) (masked (t_mask t) (t_weights t)) (masked (t_mask t') (t_weights t')) ->
  nth_error (t_nodes t) i = Some n -> is_leaf n = true -> times k (nth i (t_weights t) NaN) (nth i (t_weights t') NaN).
Proof.
  intros (j & I) T K W E L. destruct T as (T1 & T2 & T3 & T4 & T5 & T6 & T7). pose proof (mask_leaf _ _ _ _ _ _ I E) as M. rewrite L in M.
  pose proof (mask_length _ _ _ _ I) as ML. assert (LW : length (t_weights t) = length (t_mask t)) by (rewrite (ti_weights _ _ _ _ I), ML; auto).
  pose proof (F2_nth _ _ _ (rank (t_mask t) i) W) as H. rewrite T6 in H. rewrite !masked_rank in H by (auto; congruence).
  destruct (nth_error (t_weights t) i) as [a|] eqn:Ea, (nth_error (t_weights t') i) as [b|] eqn:Eb; try tauto.
  - rewrite (nth_error_nth _ _ NaN Ea), (nth_error_nth _ _ NaN Eb). exact H.
  - apply nth_error_None in Ea. assert (i < length (t_mask t))%nat by (apply nth_error_Some; congruence). lia.
Qed.
Lemma resample_like r t t' : (exists j, tree_inv (p_dims P) (whole_cell P) j t) -> tlike t t' ->
  let u := resample_tree P pi r t in let u' := resample_tree P pi' r t' in tlike u u' /\ wlike u u' /\ vlike u u'.
Proof.
  intros (k & I) T. pose proof T as (T1 & T2 & T3 & T4 & T5 & T6 & T7). pose proof (mask_length _ _ _ _ I) as ML.
  assert (LW : length (t_weights t) = length (t_mask t)) by (rewrite (ti_weights _ _ _ _ I), ML; auto).
  assert (LC : length (combine (masked (t_mask t) (t_centers t)) (masked (t_mask t) (t_radii t))) = count_true (t_mask t)).
  { rewrite combine_length, !masked_length, Nat.min_id; auto; rewrite ML, ?(ti_radii _ _ _ _ I), ?(ti_centers _ _ _ _ I), map_length; auto. }
  unfold resample_tree. rewrite T3, T4, T6. set (rows := resample_rows P r (combine (masked (t_mask t) (t_centers t)) (masked (t_mask t) (t_radii t)))). cbv zeta.
  assert (LR : length rows = count_true (t_mask t)).
  { unfold rows, resample_rows. rewrite map_length, combine_length, seq_length, Nat.min_id. exact LC. }
  rewrite T5. set (xs := map (fun '(c0, rad, z) => re_sample c0 rad z) rows).
  set (ws := map (fun '(c0, rad, z) => fdivflQ (Fin (pi (re_sample c0 rad z))) (re_density P rad z)) rows).
  set (ws' := map (fun '(c0, rad, z) => fdivflQ (Fin (pi' (re_sample c0 rad z))) (re_density P rad z)) rows).
  assert (Tw : Forall2 (times c) ws ws').
  { apply map_same. intros ((c0, rad), z). apply times_k with (c / 1); [field|]. apply times_div; auto; [lra|apply sc|apply times_refl]. }
  set (t0 := put_cache t _ _). set (t0' := put_cache t' _ _).
  assert (L0 : tlike t0 t0') by (unfold tlike, t0, t0'; simpl; rewrite !put_masked_length; repeat split; auto).
  assert (I0 : tree_inv (p_dims P) (whole_cell P) k t0) by (apply cache_inv; auto; apply put_masked_length).
  assert (W0 : wlike t0 t0').
  { exists c. split; auto. unfold t0, t0'; simpl. rewrite T6, !masked_put; auto; try (unfold ws, ws'; rewrite map_length; auto); congruence. }
  assert (LW0 : length (t_weights t0) = length (t_mask t0)) by (unfold t0; simpl; rewrite put_masked_length; auto).
  destruct (normalize_like t0 t0' L0 LW0 W0) as (L1 & W1). set (t1 := self_normalize t0) in *. set (t1' := self_normalize t0') in *.
  assert (I1 : tree_inv (p_dims P) (whole_cell P) k t1) by (unfold t1, self_normalize; destruct (fgtQ _ 0); auto; apply cache_inv; auto; apply put_masked_length).
  pose proof L1 as (A1 & A2 & A3 & A4 & A5 & A6 & A7).
  pose proof (leaves_nodup _ _ _ _ I1) as ND. rewrite A2.
  destruct (refresh_fold (t_leaves t1) t1 ND) as (f1 & f2 & f3 & f4 & f5 & f6 & fn).
  destruct (refresh_fold (t_leaves t1) t1' ND) as (g1 & g2 & g3 & g4 & g5 & g6 & gn). cbv zeta in *.
  set (u := fold_left refresh_leaf (t_leaves t1) t1) in *. set (u' := fold_left refresh_leaf (t_leaves t1) t1') in *.
  split; [|split].
  - unfold tlike. rewrite f1, f2, f3, f4, f5, f6, g1, g2, g3, g4, g5, g6. split; [|repeat split; auto]. apply F2_ext. intros i. rewrite fn, gn. pose proof (F2_nth _ _ _ i A1) as H.
    destruct (nth_error (t_nodes t1) i) as [n|], (nth_error (t_nodes t1') i) as [n'|]; try tauto. destruct (existsb (Nat.eqb i) (t_leaves t1)); auto.
    destruct H as (N1 & N2 & N3 & N4 & N5 & N6 & N7). unfold nlike, refreshed; simpl. repeat split; auto. destruct (n_hist n), (n_hist n'); simpl in *; try tauto.
    unfold replace_last. rewrite !upd_length. auto.
  - unfold wlike. rewrite f5, f6, g5, g6. exact W1.
  - destruct W1 as (k1 & K1 & W1). exists k1. split; auto. rewrite f1. intros i Hi. unfold leaf_value. rewrite fn, gn. destruct (leaf_node _ _ _ _ _ I1 Hi) as (n & En & Ln).
    pose proof (F2_nth _ _ _ i A1) as H. rewrite En in *. destruct (nth_error (t_nodes t1') i) as [n'|]; [|tauto].
    assert (existsb (Nat.eqb i) (t_leaves t1) = true) as -> by (apply existsb_in; auto). destruct H as (N1 & N2 & N3 & N4 & N5 & N6 & N7). unfold refreshed; simpl. rewrite N1, N2, N5.
    assert (n_idx n = i) as -> by (apply (tinv_node P (whole_cell P) ltac:(apply proper_radius; auto) t1 i n (ex_intro _ k I1) En)).
    apply times_k with (k1 * 1); [ring|]. apply times_mul; auto; [lra| |simpl; ring]. eapply nth_masked; eauto.
Qed.

Lemma sort_like v v' l : (forall i j, In i l -> In j l -> fltQ (v' i) (v' j) = fltQ (v i) (v j)) -> sort_desc v' l = sort_desc v l.
Proof.
  induction l as [|a l IH]; intros H; simpl; auto. rewrite IH by (intros; apply H; right; auto).
  assert (G : forall m, incl m l -> insert_desc v' a m = insert_desc v a m); [|apply G; intros x Hx; apply (Permutation_in _ (sort_perm v l)); auto].
  induction m as [|b m IHm]; intros S; simpl; auto. rewrite H by (simpl; auto; right; apply S; left; auto). rewrite IHm; [reflexivity|]. intros x Hx. apply S. right. auto.
Qed.
Lemma lambda_like r t t' : tlike t t' -> vlike t t' -> lambda_hat t' r = lambda_hat t r.
Proof.
  intros (_ & T2 & _) (k & K & V). unfold lambda_hat. rewrite T2.
  assert (existsb (fun i => is_nan (leaf_value t' i)) (t_leaves t) = existsb (fun i => is_nan (leaf_value t i)) (t_leaves t)) as ->.
  { clear T2. revert V. induction (t_leaves t) as [|a l IH]; intros V; simpl; auto. rewrite IH by (intros; apply V; right; auto). f_equal. specialize (V a (or_introl eq_refl)). destruct (leaf_value t a), (leaf_value t' a); simpl in V; tauto. }
  destruct (existsb _ _); auto. apply sort_like. intros i j Hi Hj. apply (times_lt k K); auto.
Qed.

(** States between the turns. *)
Definition head_like (s s' : tp) : Prop := shape_like s s' /\ wlike (s_tree s) (s_tree s') /\ vlike (s_tree s) (s_tree s') /\ settled1 P s /\ settled1 P s'.
Lemma settled_single s p : settled1 P s -> In p (t_leaves (s_tree s)) -> single (s_tree s) p.
Proof.
  intros S H. destruct (settled_histories P (whole_cell P) (Q1 P) (Q1_hist P) s p S H) as (n & l & x & w & En & El & _ & _ & _ & (l0 & E0 & _ & _ & One)).
  exists n, l. repeat split; auto. rewrite El in E0. inversion E0. auto.
Qed.
Lemma turn_like need r s s' : head_like s s' -> exists s1 s1', turn P pi need r s = Done s1 /\ turn P pi' need r s' = Done s1' /\ head_like s1 s1'.
Proof.
  intros ((T & M & C) & W & V & S & S'). destruct (turn1 P pi need r s box flow S) as (s1 & E1 & S1). destruct (turn1 P pi' need r s' box flow S') as (s1' & E1' & S1').
  exists s1, s1'. split; auto. split; auto. pose proof (proj1 S) as (k & I).
  unfold turn in E1, E1'. rewrite flow in E1, E1'. unfold simple_turn in E1, E1'. rewrite (lambda_like r _ _ T V) in E1'.
  assert (ND : NoDup (lambda_hat (s_tree s) r)) by (eapply Permutation_NoDup; [apply Permutation_sym, lambda_perm|eapply leaves_nodup; eauto]).
  assert (Sg : forall p, In p (lambda_hat (s_tree s) r) -> single (s_tree s) p) by (intros p Hp; apply settled_single; auto; eapply Permutation_in; [apply lambda_perm|exact Hp]).
  pose proof (expand_nodes_like P (lambda_hat (s_tree s) r) one (s_tree s) (s_tree s') (p_parallel P) [] T ND Sg) as (H1 & H2). cbv zeta in *.
  destruct (expand_nodes P (s_tree s) (lambda_hat (s_tree s) r) (p_parallel P) []) as [t rr] eqn:X, (expand_nodes P (s_tree s') (lambda_hat (s_tree s) r) (p_parallel P) []) as [t' rr'] eqn:X'.
  simpl in H1, H2. subst rr'. destruct rr as [new|e]; [|discriminate]. unfold maybe_resample in E1, E1'. rewrite leaf_re in E1, E1'.
  assert (SL : shape_like (with_tree s t) (with_tree s' t')) by (split; [exact H1|split; [exact M|exact C]]).
  pose proof (nodes_like P pi pi' r new _ _ SL) as N. set (s2 := fold_left (fun s ref => node_turn P pi (rd_draw r ref) ref s) new (with_tree s t)) in *.
  set (s2' := fold_left (fun s ref => node_turn P pi' (rd_draw r ref) ref s) new (with_tree s' t')) in *.
  assert (T2 : exists j, tree_inv (p_dims P) (whole_cell P) j (s_tree s2)).
  { pose proof S as (Ti & G). destruct (expand_nodes_good P pi (whole_cell P) (Q1 P) anyU (proper_radius _ _ box) (Q1_hist P) ltac:(intros n0 u0 _ _ H; simpl; apply Q1_take; auto) (lambda_hat (s_tree s) r) (s_tree s) (p_parallel P) [] Ti G ND (NoDup_nil _)) as (t0 & new0 & E0 & T0 & G0 & N0 & L0).
    - intros p Hp. split; [|intros []]. eapply Permutation_in; [apply lambda_perm|exact Hp].
    - intros a [].
    - rewrite X in E0. inversion E0; subst t0 new0.
      apply (nodes_good P pi (whole_cell P) (Q1 P) anyU (proper_radius _ _ box) ltac:(intros n0 u0 _ _ H; simpl; apply Q1_take; auto) r new (with_tree s t)); auto. intros; exact Logic.I. }
  destruct N as (N1 & N2 & N3). destruct (resample_like r _ _ T2 N1) as (R1 & R2 & R3). assert (Es : resample P pi r s2 = s1) by congruence. assert (Es' : resample P pi' r s2' = s1') by congruence. clear E1 E1'.
  split; [|split; [rewrite <- Es, <- Es'; exact R2|split; [rewrite <- Es, <- Es'; exact R3|split; auto]]].
  rewrite <- Es, <- Es'. split; [exact R1|]. split; [exact N2|]. apply counts_eq in N3. destruct N3 as (C1 & C2 & C3 & C4 & C5 & C6). unfold resample, counts. cbn [s_q_samples s_q_evals s_pi_evals g_draws g_qs g_pis]. rewrite (proj1 (proj2 N1)), C1, C2, C3, C4, C5, C6. reflexivity.
Qed.

Hypothesis ess : exists e, p_ess P = Some e /\ 1 < e.
Hypothesis kernel : positive_kernel P.
Hypothesis pinn : nonneg pi.
Definition caches_same (s s' : tp) : Prop := same_weights (masked (t_mask (s_tree s)) (t_weights (s_tree s))) (masked (t_mask (s_tree s')) (t_weights (s_tree s'))).
Lemma settled_len s : settled1 P s -> length (t_weights (s_tree s)) = length (t_mask (s_tree s)).
Proof. intros ((k & I) & _). rewrite (ti_weights _ _ _ _ I), (mask_length _ _ _ _ I). reflexivity. Qed.
Lemma finw_masked s : settled2 P s -> Forall finw (masked (t_mask (s_tree s)) (t_weights (s_tree s))).
Proof. intros (T & G). apply (masked_RW P (whole_cell P) (Q2 P) finw) ; auto. intros n x w (_ & H & _). exact H. Qed.
Lemma normalize_value t i : leaf_value (self_normalize t) i = leaf_value t i.
Proof. unfold leaf_value, self_normalize. destruct (fgtQ _ 0); reflexivity. Qed.
Lemma update_head s s' : head_like s s' -> head_like (update_model s) (update_model s').
Proof.
  intros (S & W & V & S1 & S2). destruct (update_like s s' S (settled_len s S1) W) as (H1 & H2). split; auto. split; auto. split.
  - destruct V as (k & K & V). exists k. split; auto. intros i Hi. cbn [update_model s_tree] in *. rewrite normalize_leaves in Hi. rewrite !normalize_value. auto.
  - split; apply (update_settled P (whole_cell P) (Q1 P) anyW); auto; try (intros; exact I).
Qed.
Lemma cached_length t t' e : tlike t t' -> p_ess P = Some e -> 1 < e -> exists l l', get_samples P t = Ok l /\ get_samples P t' = Ok l' /\ length l' = length l.
Proof.
  intros (_ & _ & _ & _ & T5 & T6 & T7) Ee Le. unfold get_samples. rewrite Ee. destruct (Qltb_spec 1 e); [|lra]. do 2 eexists. split; [reflexivity|]. split; [reflexivity|].
  rewrite !combine_length, T5, T6. f_equal. revert T7. generalize (t_mask t) (t_weights t) (t_weights t'). clear. induction l as [|b l IH]; intros [|x u] [|y v] H; simpl in *; try discriminate; auto.
  destruct b; simpl; rewrite (IH u v); auto.
Qed.
Lemma loop_like n timeout tape : Forall (round_ok (unit_open P) (unit_half P)) tape -> forall el s s', head_like s s' -> settled2 P s ->
  outs (fun u u' => head_like u u') (tp_loop P pi n timeout tape el s) (tp_loop P pi' n timeout tape el s') /\
  match tp_loop P pi n timeout tape el s, tp_loop P pi' n timeout tape el s' with Done u, Done u' => caches_same u u' | _, _ => True end.
Proof.
  destruct ess as (e & Ee & Le). induction tape as [|r tape IH]; intros F el s s' H S2; simpl;
    destruct (cached_length _ _ e (proj1 (proj1 H)) Ee Le) as (l & l' & -> & -> & ->); destruct ((length l <? n)%nat && Qltb el timeout).
  1: simpl; auto.
  2: { inversion F as [|? ? F1 F2]; subst. destruct (turn_like (n - length l) r s s' H) as (s1 & s1' & E1 & E1' & H1). rewrite E1, E1'. apply IH; auto.
       destruct (turn2 P pi (n - length l) r s box kernel flow pinn F1 S2) as (s3 & T3 & S3). congruence. }
  all: cbn [outs]; (split; [now apply update_head|]); destruct H as ((T & _) & W & _ & S1 & _); apply normalize_same; auto; [now apply settled_len|now apply finw_masked].
Qed.

(** Whole calls. *)
Definition call_like (s s' : tp) : Prop := shape_like s s' /\ ((s_tree s = tree_new (p_lo P) (p_hi P) /\ s_tree s' = tree_new (p_lo P) (p_hi P)) \/ head_like s s').
Lemma root_like u s s' : call_like s s' -> head_like (root_turn P pi u s) (root_turn P pi' u s').
Proof.
  intros (Sh & [(E & E')|H]).
  - assert (N1 : settled1 P (root_turn P pi u s)) by (apply root1; auto). assert (N2 : settled1 P (root_turn P pi' u s')) by (apply root1; auto). revert N1 N2.
    unfold root_turn. rewrite E, E'. cbn [tree_new t_nodes nth_error node_new n_hist n_center n_radius]. cbv zeta. rewrite flow.
    set (x := kernel_draw _ _ _ u). set (q := node_density P _ _ x).
    match goal with |- settled1 P (update_model ?a) -> settled1 P (update_model ?b) -> _ => set (z := a); set (z' := b) end. intros N1 N2.
    assert (Wt : times c (fdivflQ (Fin (pi x)) q) (fdivflQ (Fin (pi' x)) q)).
    { apply times_k with (c / 1); [field|]. apply times_div; auto; [lra|apply sc|apply times_refl]. }
    assert (Sz : shape_like z z').
    { destruct Sh as (T & M & C). rewrite E, E' in T. split; [apply (take_like _ _ 0 x _ _ _ _ T)|]. split; [exact M|]. apply counts_eq in C. destruct C as (C1 & C2 & C3 & C4 & C5 & C6). unfold counts, z, z'; simpl. rewrite C1, C2, C3, C4, C5, C6. reflexivity. }
    assert (Ez : s_tree z = take_sample (tree_new (p_lo P) (p_hi P)) 0 x (pi x) q) by reflexivity.
    assert (Ez' : s_tree z' = take_sample (tree_new (p_lo P) (p_hi P)) 0 x (pi' x) q) by reflexivity.
    assert (W : wlike (s_tree z) (s_tree z')).
    { exists c. split; auto. rewrite Ez, Ez'. simpl. repeat constructor. exact Wt. }
    assert (V : vlike (s_tree z) (s_tree z')).
    { exists c. split; auto. rewrite Ez, Ez'. intros i [<-|[]]. unfold leaf_value, take_sample. cbn -[fdivflQ fmulQ fmean Qpow]. apply times_k with (c * 1); [ring|]. apply times_mul; auto; [lra| |apply times_refl].
      unfold fmean. apply times_k with (c / 1); [field|]. apply times_div; auto; [lra| |apply times_refl]. apply times_sum. repeat constructor. exact Wt. }
    assert (Ln : length (t_weights (s_tree z)) = length (t_mask (s_tree z))) by (rewrite Ez; reflexivity).
    destruct (update_like z z' Sz Ln W) as (H1 & H2). split; auto. split; auto. split; [|split; auto].
    destruct V as (k & K & V). exists k. split; auto. intros i Hi. cbn [update_model s_tree] in *. rewrite normalize_leaves in Hi. rewrite !normalize_value. auto.
  - pose proof H as (_ & _ & _ & S & S'). rewrite (root_noop P pi (whole_cell P) (Q1 P) (Q1_hist P) u s S), (root_noop P pi' (whole_cell P) (Q1 P) (Q1_hist P) u s' S'). exact H.
Qed.
Lemma call_scale n timeout u tape s s' : unit_open P u -> Forall (round_ok (unit_open P) (unit_half P)) tape -> call_like s s' -> (s_tree s = tree_new (p_lo P) (p_hi P) \/ settled2 P s) ->
  outs head_like (tp_call P pi n timeout u tape s) (tp_call P pi' n timeout u tape s') /\
  match tp_call P pi n timeout u tape s, tp_call P pi' n timeout u tape s' with Done v, Done v' => caches_same v v' | _, _ => True end.
Proof. intros U F H S. unfold tp_call. apply loop_like; auto; [now apply root_like|apply root2; auto]. Qed.
End Turn.

Lemma sample_scale P m sel draw s s' : mlike (s_model s) (s_model s') -> model_sample P (s_model s') m sel draw = model_sample P (s_model s) m sel draw.
Proof.
  unfold model_sample. destruct (s_model s) as [|c w], (s_model s') as [|c' w']; simpl; try tauto. intros (-> & W).
  rewrite (all_fin 1 w w' W). destruct (forallb is_fin w); auto. apply mixture_sample_eq. now apply fin_vals_same.
Qed.
