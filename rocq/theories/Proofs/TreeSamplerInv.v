(** A frame for invariants of the leaves of the tree pyramid sampler (simple flow). *)
From Coq Require Import List Bool Arith Lia QArith Lqa Permutation.
Import ListNotations.
From Verif Require Import Prelude.Py Prelude.QBase Prelude.QFacts Model.Population Model.Tree Model.TreeSampler Spec.TreeSpec Spec.Box Proofs.TreeProofs Proofs.TreeMask Proofs.TreeSamplerTree.
Open Scope Q_scope.

(** What one expansion changes. *)
Lemma expand_cases e m p t : exists t' r, expand e m p t = (t', r) /\
  match r with
  | Ok None => t' = t
  | Raise _ => t' = t
  | Ok (Some new) => exists n li, nth_error (t_nodes t) p = Some n /\ n_leaf n = Some li /\ may_expand e m (n_hist n) = Ok true /\
      t' = expand_at t p n li /\ new = seq (length (t_nodes t)) (2 ^ length (n_center n))
  end.
Proof.
  unfold expand. destruct (nth_error (t_nodes t) p) as [n|]; [|do 2 eexists; split; reflexivity].
  destruct (n_leaf n) as [li|] eqn:El; [|do 2 eexists; split; reflexivity].
  destruct (may_expand e m (n_hist n)) as [[|]|x] eqn:M; (do 2 eexists; split; [reflexivity|]); simpl; auto.
  exists n, li. rewrite children_length. repeat split; auto.
Qed.
Lemma expand_at_old t p n li i : i <> p -> (i < length (t_nodes t))%nat -> nth_error (t_nodes (expand_at t p n li)) i = nth_error (t_nodes t) i.
Proof. intros D L. unfold expand_at. simpl. rewrite nth_error_app1 by (rewrite upd_length; auto). apply upd_nth_error_neq. auto. Qed.
Lemma expand_at_p t p n li : (p < length (t_nodes t))%nat -> exists n', nth_error (t_nodes (expand_at t p n li)) p = Some n' /\ is_leaf n' = false /\ n_hist n' = HGone.
Proof. intros L. unfold expand_at. simpl. rewrite nth_error_app1 by (rewrite upd_length; auto). rewrite upd_nth_error_eq by auto. eexists. split; [reflexivity|split; reflexivity]. Qed.
Lemma expand_at_new t p n li i : (length (t_nodes t) <= i)%nat -> forall x, nth_error (t_nodes (expand_at t p n li)) i = Some x ->
  n_hist x = HNone /\ (i < length (t_nodes t) + 2 ^ length (n_center n))%nat /\ is_leaf x = true.
Proof.
  intros L x E. assert (B : (i < length (t_nodes (expand_at t p n li)))%nat) by (apply nth_error_Some; congruence).
  unfold expand_at in E, B. simpl in E, B. rewrite app_length, upd_length, children_length in B.
  rewrite nth_error_app2 in E by (rewrite upd_length; auto). rewrite upd_length, children_nth in E.
  destruct (nth_error (child_centers (n_center n) (n_radius n)) (i - length (t_nodes t))); [|discriminate]. simpl in E. inversion E. auto.
Qed.
Lemma expand_at_samples t p n li i : (i < length (t_samples t))%nat -> nth_error (t_samples (expand_at t p n li)) i = nth_error (t_samples t) i.
Proof. intros L. unfold expand_at. simpl. apply nth_error_app1. auto. Qed.
Lemma expand_at_weights t p n li i : (i < length (t_weights t))%nat -> nth_error (t_weights (expand_at t p n li)) i = nth_error (t_weights t) i.
Proof. intros L. unfold expand_at. simpl. apply nth_error_app1. auto. Qed.

Ltac csplit := repeat match goal with |- _ /\ _ => split end.
Section Frame.
Variables (P : tp_params) (pi : vec -> Q) (whole : cell) (QQ : node -> vec -> fl Q -> Prop) (RW : fl Q -> Prop) (U U' : vec -> Prop).
Let d := p_dims P.
Hypothesis whole_pos : 0 < snd whole.
Hypothesis QQ_hist : forall n x w, QQ n x w -> exists l, n_hist n = HList l.
Hypothesis QQ_rw : forall n x w, QQ n x w -> RW w.
Hypothesis QQ_set : forall n x w w', QQ n x w -> RW w' -> QQ n x w'.
Hypothesis RW_norm : forall ws w, Forall RW ws -> fgtQ (fsumQ ws) 0 = true -> In w ws -> RW (fdivflQ w (fsumQ ws)).
Let tinv (t : tree) : Prop := exists k, tree_inv d whole k t.
Definition node_ok (n : node) : Prop := length (n_center n) = d /\ 0 < n_radius n.
Definition taken (n : node) (x : vec) (p : Q) (q : fl Q) : node * fl Q :=
  let w := fdivflQ (Fin p) q in
  let h := hist_list (n_hist n) ++ [(x, w)] in
  (set_payload n w (fmulQ (fmean (hist_weights h)) (Fin (Qpow (n_radius n) (length (n_center n))))) (HList h), w).
Hypothesis QQ_take : forall n u, node_ok n -> U u ->
  (n_hist n = HNone \/ (exists x w, QQ n x w) /\ may_expand (p_ess P) (p_nmin P) (n_hist n) = Ok false) ->
  let x := kernel_draw (p_kernel P) (n_center n) (n_radius n) u in
  let nw := taken n x (pi x) (node_density P (n_center n) (n_radius n) x) in
  QQ (fst nw) x (snd nw).
Hypothesis RW_re : forall c r u, length c = d -> 0 < r -> U' u ->
  RW (fdivflQ (Fin (pi (re_sample c r (re_unit P u)))) (re_density P r (re_unit P u))).
Hypothesis QQ_re : forall n x w w' u l, QQ n x w -> node_ok n -> RW w' -> U' u -> n_hist n = HList l ->
  let x' := re_sample (n_center n) (n_radius n) (re_unit P u) in
  QQ (set_payload n w' (fmulQ w' (Fin (Qpow (2 * n_radius n) (length (n_center n))))) (HList (replace_last l (x', w')))) x' w'.

(** Every leaf satisfies QQ, except those still to be sampled. *)
Definition good (todo : list nat) (t : tree) : Prop :=
  forall i n, nth_error (t_nodes t) i = Some n -> (is_leaf n = true ->
  exists x w, nth_error (t_samples t) i = Some x /\ nth_error (t_weights t) i = Some w /\
    ((In i todo /\ n_hist n = HNone) \/ (QQ n x w /\ (In i todo -> may_expand (p_ess P) (p_nmin P) (n_hist n) = Ok false)))) /\
  (is_leaf n = false -> n_hist n = HGone).

Lemma tinv_node t i n : tinv t -> nth_error (t_nodes t) i = Some n -> n_idx n = i /\ node_ok n.
Proof.
  intros (k & I) E. destruct (ti_node _ _ _ _ I _ _ E) as (H1 & H2 & H3). split; auto. split; auto.
  pose proof (TreeCells.power_pos 2 (n_level n) ltac:(lra)).
  destruct (Qlt_le_dec 0 (n_radius n)) as [X|X]; auto. exfalso. nra.
Qed.
Lemma tinv_expand e m p t t' r : tinv t -> expand e m p t = (t', r) -> tinv t'.
Proof. intros (k & I) E. eexists. eapply expand_inv; eauto. lra. Qed.

Lemma expand_nodes_good ps : forall t m acc, tinv t -> good acc t -> NoDup ps -> NoDup acc ->
  (forall p, In p ps -> In p (t_leaves t) /\ ~ In p acc) -> (forall a, In a acc -> In a (t_leaves t)) ->
  exists t' new, expand_nodes P t ps m acc = (t', Ok new) /\ tinv t' /\ good new t' /\ NoDup new /\ (forall a, In a new -> In a (t_leaves t')).
Proof.
  induction ps as [|p ps IH]; intros t m acc T G Np Na Hp Ha; simpl.
  - exists t, acc. csplit; auto.
  - inversion Np as [|? ? Np1 Np2]; subst. destruct (Hp p (or_introl eq_refl)) as (Lp & Dp).
    destruct T as (k & I). destruct (leaf_node _ _ _ _ _ I Lp) as (n & En & Ln).
    destruct (proj1 (G _ _ En) Ln) as (x & w & Ex & Ew & [[X _]|[HQ _]]); [tauto|]. destruct (QQ_hist _ _ _ HQ) as (l & El).
    assert (M : exists b, may_expand (p_ess P) (p_nmin P) (n_hist n) = Ok b).
    { unfold may_expand. rewrite El. destruct (p_ess P); [|eauto]. destruct (length l <? p_nmin P)%nat; eauto. }
    destruct M as (b & M). unfold is_leaf in Ln. destruct (n_leaf n) as [li|] eqn:Eli; [|discriminate].
    destruct b.
    + assert (Ee : expand (p_ess P) (p_nmin P) p t = (expand_at t p n li, Ok (Some (seq (length (t_nodes t)) (2 ^ d))))).
      { unfold expand. rewrite En, Eli, M, children_length. destruct (ti_node _ _ _ _ I _ _ En) as (_ & D & _). rewrite D. reflexivity. }
      assert (T' : tinv (expand_at t p n li)) by (eapply tinv_expand; [exists k; exact I|exact Ee]).
      rewrite Ee. destruct (ti_node _ _ _ _ I _ _ En) as (_ & D & _).
      assert (Lt : (p < length (t_nodes t))%nat) by (apply nth_error_Some; congruence).
      assert (G' : good (acc ++ seq (length (t_nodes t)) (2 ^ d)) (expand_at t p n li)).
      { intros i ni Ei. split; [intros Li|intros Li; destruct (Nat.eq_dec i p) as [->|Dip];
          [destruct (expand_at_p t p n li Lt) as (n' & E' & F & F'); congruence|]; destruct (Nat.lt_ge_cases i (length (t_nodes t))) as [Lo|Hi];
          [rewrite expand_at_old in Ei by auto; apply (G _ _ Ei); auto|destruct (expand_at_new _ _ _ _ _ Hi _ Ei) as (_ & _ & X); congruence]].
        destruct (Nat.lt_ge_cases i (length (t_nodes t))) as [Lo|Hi].
        - destruct (Nat.eq_dec i p) as [->|Dip].
          + destruct (expand_at_p t p n li Lt) as (n' & E' & F & _). congruence.
          + rewrite expand_at_old in Ei by auto. destruct (proj1 (G _ _ Ei) Li) as (xi & wi & Exi & Ewi & H). exists xi, wi.
            rewrite expand_at_samples by (rewrite (ti_samples _ _ _ _ I); auto). rewrite expand_at_weights by (rewrite (ti_weights _ _ _ _ I); auto).
            csplit; auto. destruct H as [[A B]|[A B]]; [left; rewrite in_app_iff; auto|right]. split; auto.
            rewrite in_app_iff, in_seq. intros [X|X]; [auto|lia].
        - destruct (expand_at_new _ _ _ _ _ Hi _ Ei) as (H1 & H2 & _). destruct T' as (k' & I').
          assert (Lt' : (i < length (t_nodes (expand_at t p n li)))%nat) by (apply nth_error_Some; congruence).
          destruct (nth_error (t_samples (expand_at t p n li)) i) as [xi|] eqn:Es; [|apply nth_error_None in Es; rewrite (ti_samples _ _ _ _ I') in Es; lia].
          destruct (nth_error (t_weights (expand_at t p n li)) i) as [wi|] eqn:Ews; [|apply nth_error_None in Ews; rewrite (ti_weights _ _ _ _ I') in Ews; lia].
          exists xi, wi. csplit; auto. left. rewrite in_app_iff, in_seq. split; auto. right. rewrite D in H2. unfold d in *. lia. }
      assert (Keep : forall a, In a (t_leaves t) -> a <> p -> In a (t_leaves (expand_at t p n li))).
      { intros a La Dap. destruct (leaf_node _ _ _ _ _ I La) as (na & Ea & Lna). destruct T' as (k' & I').
        apply (leaf_in _ _ _ _ a na I'); auto. rewrite expand_at_old; auto. apply nth_error_Some. congruence. }
      assert (New : forall a, In a (seq (length (t_nodes t)) (2 ^ d)) -> In a (t_leaves (expand_at t p n li))).
      { intros a Sa. apply in_seq in Sa. destruct T' as (k' & I').
        assert (Lt' : (a < length (t_nodes (expand_at t p n li)))%nat).
        { unfold expand_at. simpl. rewrite app_length, upd_length, children_length, D. unfold d in *. lia. }
        destruct (nth_error (t_nodes (expand_at t p n li)) a) as [na|] eqn:Ea; [|apply nth_error_None in Ea; lia].
        apply (leaf_in _ _ _ _ a na I'); auto. eapply expand_at_new; [|exact Ea]. lia. }
      assert (ND : NoDup (acc ++ seq (length (t_nodes t)) (2 ^ d))).
      { apply ListFacts.nodup_app; auto; [apply seq_NoDup|]. intros a A S. apply in_seq in S. apply Ha in A. apply In_nth_error in A.
        destruct A as (j & J). apply (ti_leaf_lt _ _ _ _ I) in J. lia. }
      assert (HA : forall a, In a (acc ++ seq (length (t_nodes t)) (2 ^ d)) -> In a (t_leaves (expand_at t p n li))).
      { intros a A. apply in_app_iff in A. destruct A as [A|A]; auto. apply Keep; auto. intros ->. auto. }
      destruct (m <? length (acc ++ seq (length (t_nodes t)) (2 ^ d)))%nat.
      * eexists _, _. split; [reflexivity|]. csplit; auto.
      * apply IH; auto. intros q Hq. destruct (Hp q (or_intror Hq)) as (Lq & Dq). assert (q <> p) by (intros ->; tauto).
        split; [auto|]. rewrite in_app_iff, in_seq. intros [X|X]; [tauto|]. apply In_nth_error in Lq. destruct Lq as (j & J).
        apply (ti_leaf_lt _ _ _ _ I) in J. lia.
    + assert (Ee : expand (p_ess P) (p_nmin P) p t = (t, Ok None)) by (unfold expand; rewrite En, Eli, M; reflexivity).
      rewrite Ee. apply IH; auto; [exists k; auto| | | |].
      * intros i ni Ei. split; [intros Li|apply (G _ _ Ei)]. destruct (proj1 (G _ _ Ei) Li) as (xi & wi & Exi & Ewi & H). exists xi, wi. csplit; auto.
        destruct H as [[A B]|[A B]]; [left; rewrite in_app_iff; auto|right]. split; auto. rewrite in_app_iff. intros [X|[X|[]]]; auto.
        subst. rewrite En in Ei. inversion Ei. subst. auto.
      * apply ListFacts.nodup_app; auto; [repeat constructor; intros []|]. intros a A [X|[]]. subst. auto.
      * intros q Hq. destruct (Hp q (or_intror Hq)) as (Lq & Dq). split; auto. rewrite in_app_iff. intros [X|[X|[]]]; [auto|]. subst. auto.
      * intros a A. apply in_app_iff in A. destruct A as [A|[A|[]]]; [auto|]. subst. auto.
Qed.

Lemma take_good t ref u todo : tinv t -> U u -> In ref (t_leaves t) -> In ref todo -> NoDup todo -> good todo t ->
  forall n, nth_error (t_nodes t) ref = Some n ->
  let x := kernel_draw (p_kernel P) (n_center n) (n_radius n) u in
  let t' := take_sample t ref x (pi x) (node_density P (n_center n) (n_radius n) x) in
  tinv t' /\ good (remove Nat.eq_dec ref todo) t' /\ t_leaves t' = t_leaves t.
Proof.
  intros (k & I) Hu Lr Ir Nt G n En x t'. destruct (tinv_node t ref n (ex_intro _ k I) En) as (Ei & Nok).
  assert (Lt : (ref < length (t_nodes t))%nat) by (apply nth_error_Some; congruence).
  assert (Lf : is_leaf n = true) by (apply (leaf_in _ _ _ _ _ _ I En); auto).
  assert (E' : t' = put_cache (put_node t ref (fst (taken n x (pi x) (node_density P (n_center n) (n_radius n) x))))
                 (upd (t_samples t) ref x) (upd (t_weights t) ref (snd (taken n x (pi x) (node_density P (n_center n) (n_radius n) x))))).
  { unfold t', take_sample. rewrite En, Ei. reflexivity. }
  split; [|split; [|rewrite E'; reflexivity]].
  - exists k. rewrite E'. apply cache_inv; [apply payload_inv; auto| |]; apply upd_length.
  - intros i ni Eni. split; [intros Li|intros Li; destruct (Nat.eq_dec i ref) as [->|D]; rewrite E' in Eni; simpl in Eni;
      [rewrite upd_nth_error_eq in Eni by auto; inversion Eni; subst ni; unfold taken, is_leaf in *; simpl in *; congruence|
       rewrite upd_nth_error_neq in Eni by auto; apply (G _ _ Eni); auto]].
    destruct (Nat.eq_dec i ref) as [->|D].
    + destruct (proj1 (G _ _ En) Lf) as (x0 & w0 & E1 & E2 & H). exists x, (snd (taken n x (pi x) (node_density P (n_center n) (n_radius n) x))).
      rewrite E' in Eni |- *. simpl in Eni |- *. rewrite upd_nth_error_eq in Eni by auto. inversion Eni; subst ni. clear Eni.
      rewrite !upd_nth_error_eq by (rewrite ?(ti_samples _ _ _ _ I), ?(ti_weights _ _ _ _ I); auto). csplit; auto. right. split.
      * apply (QQ_take n u Nok Hu). destruct H as [[_ H]|[H1 H2]]; [auto|]. right. split; eauto.
      * intros X. exfalso. exact (remove_In _ _ _ X).
    + rewrite E' in Eni |- *. simpl in Eni |- *. rewrite upd_nth_error_neq in Eni by auto. rewrite !upd_nth_error_neq by auto.
      destruct (proj1 (G _ _ Eni) Li) as (xi & wi & E1 & E2 & H). exists xi, wi. csplit; auto.
      destruct H as [[A B]|[A B]]; [left; split; auto; apply in_in_remove; auto|right; split; auto; intros X; apply B; eapply in_remove; eauto].
Qed.
Lemma good_ext todo todo' t : (forall i, In i todo <-> In i todo') -> good todo t -> good todo' t.
Proof.
  intros H G i n E. split; [intros L|apply (G _ _ E)]. destruct (proj1 (G _ _ E) L) as (x & w & E1 & E2 & C). exists x, w. csplit; auto.
  destruct C as [[A B]|[A B]]; [left; split; auto; apply H; auto|right; split; auto; intros X; apply B, H; auto].
Qed.
Lemma nodes_good r new : forall s, (forall i, U (rd_draw r i)) -> tinv (s_tree s) -> good new (s_tree s) -> NoDup new ->
  (forall a, In a new -> In a (t_leaves (s_tree s))) ->
  let s' := fold_left (fun s ref => node_turn P pi (rd_draw r ref) ref s) new s in
  tinv (s_tree s') /\ good [] (s_tree s') /\ t_leaves (s_tree s') = t_leaves (s_tree s) /\ s_model s' = s_model s /\
  (s_q_samples s' = s_q_samples s + length new /\ s_q_evals s' = s_q_evals s + length new /\ s_pi_evals s' = s_pi_evals s + length new /\
   g_draws s' = g_draws s + length new /\ g_qs s' = g_qs s + length new /\ g_pis s' = g_pis s + length new)%nat.
Proof.
  induction new as [|a new IH]; intros s Hu T G N L; cbn [fold_left].
  - simpl. csplit; auto; try lia.
  - inversion N as [|? ? Na Nn]; subst. pose proof (L a (or_introl eq_refl)) as La. pose proof T as (k & I).
    destruct (leaf_node _ _ _ _ _ I La) as (n & En & Ln).
    destruct (take_good (s_tree s) a (rd_draw r a) (a :: new) T (Hu a) La (or_introl eq_refl) N G n En) as (T1 & G1 & L1).
    assert (E : node_turn P pi (rd_draw r a) a s = mkS (take_sample (s_tree s) a (kernel_draw (p_kernel P) (n_center n) (n_radius n) (rd_draw r a))
       (pi (kernel_draw (p_kernel P) (n_center n) (n_radius n) (rd_draw r a)))
       (node_density P (n_center n) (n_radius n) (kernel_draw (p_kernel P) (n_center n) (n_radius n) (rd_draw r a)))) (s_model s)
          (s_q_samples s + 1) (s_q_evals s + 1) (s_pi_evals s + 1) (g_draws s + 1) (g_qs s + 1) (g_pis s + 1)).
    { unfold node_turn. rewrite En. reflexivity. }
    destruct (IH (node_turn P pi (rd_draw r a) a s) Hu) as (H1 & H2 & H3 & H4 & H5 & H6 & H7 & H8 & H9 & H10); auto.
    + rewrite E. exact T1.
    + rewrite E. simpl s_tree. eapply good_ext; [|exact G1]. intros i. split.
      * intros X. apply in_remove in X. destruct X as [[X|X] Y]; [congruence|auto].
      * intros X. apply in_in_remove; [congruence|right; auto].
    + rewrite E. simpl s_tree. rewrite L1. intros b Hb. apply L. right. auto.
    + split; [exact H1|]. split; [exact H2|]. split; [rewrite H3, E; exact L1|]. split; [rewrite H4, E; reflexivity|].
      rewrite H5, H6, H7, H8, H9, H10, E. simpl. lia.
Qed.

Lemma cache_rows t i n : tinv t -> nth_error (t_nodes t) i = Some n -> is_leaf n = true -> nth_error (t_mask t) i = Some true.
Proof. intros (k & I) E L. rewrite (mask_leaf _ _ _ _ _ _ I E). congruence. Qed.
Lemma masked_RW t : tinv t -> good [] t -> Forall RW (masked (t_mask t) (t_weights t)).
Proof.
  intros (k & I) G. apply Forall_forall. intros w W. apply In_nth_error in W. destruct W as (q & E).
  pose proof (mask_length _ _ _ _ I) as ML.
  apply masked_in in E; [|rewrite (ti_weights _ _ _ _ I), ML; auto]. destruct E as (i & _ & M & W).
  destruct (nth_error (t_nodes t) i) as [n|] eqn:En.
  2:{ apply nth_error_None in En. assert (i < length (t_mask t))%nat by (apply nth_error_Some; congruence). lia. }
  rewrite (mask_leaf _ _ _ _ _ _ I En) in M. destruct (proj1 (G _ _ En)) as (x & w' & _ & Ew & [[[] _]|[HQ _]]); [congruence|]. assert (w' = w) by congruence. subst. eauto.
Qed.
Lemma normalize_good t : tinv t -> good [] t -> tinv (self_normalize t) /\ good [] (self_normalize t) /\ t_leaves (self_normalize t) = t_leaves t /\
  t_nodes (self_normalize t) = t_nodes t.
Proof.
  intros T G. pose proof T as (k & I). unfold self_normalize. destruct (fgtQ _ 0) eqn:F; [|csplit; auto].
  pose proof (mask_length _ _ _ _ I) as ML. csplit.
  - exists k. apply cache_inv; auto. apply put_masked_length.
  - intros i n En. simpl in En. split; [intros Ln|apply (G _ _ En)]. simpl. destruct (proj1 (G _ _ En) Ln) as (x & w & Ex & Ew & [[[] _]|[HQ _]]).
    pose proof (cache_rows _ _ _ T En Ln) as M.
    rewrite put_rank; auto; [|rewrite (ti_weights _ _ _ _ I), ML; auto|rewrite map_length; apply masked_length; rewrite (ti_weights _ _ _ _ I), ML; auto].
    rewrite nth_error_map, masked_rank by (auto; rewrite (ti_weights _ _ _ _ I), ML; auto). rewrite Ew. simpl.
    eexists x, _. csplit; auto. right. split; [|intros []]. eapply QQ_set; eauto. apply RW_norm; auto; [apply masked_RW; auto|].
    apply (nth_error_In _ (rank (t_mask t) i)). rewrite masked_rank by (auto; rewrite (ti_weights _ _ _ _ I), ML; auto). auto.
  - reflexivity.
  - reflexivity.
Qed.

Lemma resample_rows_nth r cells q : nth_error (resample_rows P r cells) q =
  option_map (fun c => (fst c, snd c, re_unit P (rd_re r q))) (nth_error cells q).
Proof. unfold resample_rows. rewrite nth_error_map, nth_error_combine_seq. destruct (nth_error cells q); reflexivity. Qed.
Lemma resample_good r t : (forall q, U' (rd_re r q)) -> tinv t -> good [] t ->
  tinv (resample_tree P pi r t) /\ good [] (resample_tree P pi r t) /\ t_leaves (resample_tree P pi r t) = t_leaves t.
Proof.
  intros Hu T G. pose proof T as (k & I). pose proof (mask_length _ _ _ _ I) as ML.
  assert (LC : length (combine (masked (t_mask t) (t_centers t)) (masked (t_mask t) (t_radii t))) = count_true (t_mask t)).
  { rewrite combine_length, !masked_length, Nat.min_id; auto; rewrite ML, ?(ti_radii _ _ _ _ I), ?(ti_centers _ _ _ _ I), map_length; auto. }
  unfold resample_tree. set (rows := resample_rows P r (combine (masked (t_mask t) (t_centers t)) (masked (t_mask t) (t_radii t)))).
  assert (LR : length rows = count_true (t_mask t)).
  { unfold rows, resample_rows. rewrite map_length, combine_length, seq_length, Nat.min_id. exact LC. }
  assert (RowN : forall i n, nth_error (t_nodes t) i = Some n -> is_leaf n = true ->
    nth_error rows (rank (t_mask t) i) = Some (n_center n, n_radius n, re_unit P (rd_re r (rank (t_mask t) i)))).
  { intros i n En Ln. pose proof (cache_rows _ _ _ T En Ln) as M. unfold rows. rewrite resample_rows_nth.
    rewrite <- masked_combine by (rewrite (ti_centers _ _ _ _ I), (ti_radii _ _ _ _ I), !map_length; auto).
    rewrite masked_rank; auto; [|rewrite combine_length, ML, (ti_centers _ _ _ _ I), (ti_radii _ _ _ _ I), !map_length; apply Nat.min_id].
    rewrite (ti_centers _ _ _ _ I), (ti_radii _ _ _ _ I).
    assert (Hc : forall (l : list node), nth_error l i = Some n -> nth_error (combine (map n_center l) (map n_radius l)) i = Some (n_center n, n_radius n)).
    { clear. intros l. revert i. induction l as [|a l IH]; intros [|i] E; simpl in *; try discriminate; auto. inversion E. auto. }
    rewrite (Hc _ En). reflexivity. }
  set (xs := map (fun '(c, rad, z) => re_sample c rad z) rows).
  set (ws := map (fun '(c, rad, z) => fdivflQ (Fin (pi (re_sample c rad z))) (re_density P rad z)) rows).
  cbv zeta. set (t0 := put_cache t (put_masked (t_mask t) (t_samples t) xs) (put_masked (t_mask t) (t_weights t) ws)).
  assert (I0 : tree_inv d whole k t0) by (apply cache_inv; auto; apply put_masked_length).
  assert (RWs : Forall RW ws).
  { apply Forall_forall. intros w W. unfold ws in W. apply in_map_iff in W. destruct W as (((c, rad), z) & <- & H). apply In_nth_error in H.
    destruct H as (q & E). unfold rows in E. rewrite resample_rows_nth in E.
    destruct (nth_error (combine _ _) q) as [[c0 r0]|] eqn:Ec; [|discriminate]. simpl in E. inversion E; subst. clear E.
    rewrite <- masked_combine in Ec by (rewrite (ti_centers _ _ _ _ I), (ti_radii _ _ _ _ I), !map_length; auto).
    apply masked_in in Ec; [|rewrite combine_length, ML, (ti_centers _ _ _ _ I), (ti_radii _ _ _ _ I), !map_length; apply Nat.min_id].
    destruct Ec as (i & _ & _ & Ec). rewrite (ti_centers _ _ _ _ I), (ti_radii _ _ _ _ I) in Ec.
    assert (exists n, nth_error (t_nodes t) i = Some n /\ n_center n = c /\ n_radius n = rad) as (n & En & <- & <-).
    { clear - Ec. revert i Ec. induction (t_nodes t) as [|a l IH]; intros [|i] E; simpl in *; try discriminate; [inversion E; eauto|eauto]. }
    destruct (tinv_node _ _ _ T En) as (_ & D & Pr). apply RW_re; auto. }
  assert (MW : masked (t_mask t) (put_masked (t_mask t) (t_weights t) ws) = ws).
  { apply masked_put; [rewrite (ti_weights _ _ _ _ I), ML; auto|unfold ws; rewrite map_length; auto]. }
  set (t1 := self_normalize t0).
  assert (I1 : tree_inv d whole k t1).
  { unfold t1, self_normalize. destruct (fgtQ _ 0); auto. apply cache_inv; auto. apply put_masked_length. }
  assert (E1 : t_nodes t1 = t_nodes t /\ t_leaves t1 = t_leaves t /\ t_mask t1 = t_mask t /\ t_samples t1 = put_masked (t_mask t) (t_samples t) xs).
  { unfold t1, self_normalize. destruct (fgtQ _ 0); csplit; reflexivity. }
  destruct E1 as (En1 & El1 & Em1 & Es1).
  assert (W1 : forall i n, nth_error (t_nodes t) i = Some n -> is_leaf n = true -> exists w, nth_error (t_weights t1) i = Some w /\ RW w).
  { intros i n En Ln. pose proof (cache_rows _ _ _ T En Ln) as M.
    assert (exists w, nth_error ws (rank (t_mask t) i) = Some w) as (w & Ew).
    { unfold ws. rewrite nth_error_map, (RowN _ _ En Ln). eexists. reflexivity. }
    pose proof (nth_error_In _ _ Ew) as Iw. unfold t1, self_normalize. simpl. rewrite MW. destruct (fgtQ (fsumQ ws) 0) eqn:F; simpl.
    - exists (fdivflQ w (fsumQ ws)). rewrite put_rank; auto; [|rewrite put_masked_length, (ti_weights _ _ _ _ I), ML; auto|unfold ws; rewrite !map_length; auto].
      rewrite nth_error_map, Ew. split; auto.
    - exists w. rewrite put_rank; auto; [|rewrite (ti_weights _ _ _ _ I), ML; auto|unfold ws; rewrite !map_length; auto].
      split; auto. rewrite Forall_forall in RWs. auto. }
  destruct (refresh_fold (t_leaves t1) t1 (leaves_nodup _ _ _ _ I1)) as (f1 & f2 & f3 & f4 & f5 & f6 & fn).
  assert (T2 : tinv (fold_left refresh_leaf (t_leaves t1) t1)).
  { exists k. generalize (t_leaves t1) as l. intros l. clear - I1. revert I1. generalize t1. induction l as [|a l IH]; intros u Iu; simpl; auto.
    apply IH. unfold refresh_leaf. destruct (nth_error (t_nodes u) a) eqn:E; auto. apply payload_inv; auto. }
  split; [exact T2|]. split; [|rewrite f1; exact El1].
  intros i n2 En2. rewrite fn in En2. rewrite En1 in En2. destruct (nth_error (t_nodes t) i) as [n|] eqn:En; [|discriminate].
  inversion En2 as [E2]. clear En2. split.
  2:{ intros Ln2. assert (Ln : is_leaf n = false) by (subst n2; destruct (existsb _ _); auto).
      subst n2. assert (existsb (Nat.eqb i) (t_leaves t1) = false) as ->; [|apply (G _ _ En); auto].
      destruct (existsb (Nat.eqb i) (t_leaves t1)) eqn:X; auto. apply existsb_in in X. rewrite El1 in X. apply (leaf_in _ _ _ _ _ _ I En) in X. congruence. }
  intros Ln2. assert (Ln : is_leaf n = true) by (subst n2; destruct (existsb _ _); auto).
  assert (existsb (Nat.eqb i) (t_leaves t1) = true) as X.
  { apply existsb_in. rewrite El1. apply (leaf_in _ _ _ _ _ _ I En). auto. }
  rewrite X in E2. subst n2. rewrite f4, f5.
  destruct (W1 _ _ En Ln) as (w & Ew & Rw). destruct (tinv_node _ _ _ T En) as (Ei & Nok).
  pose proof (cache_rows _ _ _ T En Ln) as M. set (u := rd_re r (rank (t_mask t) i)).
  assert (Ex : nth_error (t_samples t1) i = Some (re_sample (n_center n) (n_radius n) (re_unit P u))).
  { rewrite Es1. rewrite put_rank; auto; [|rewrite (ti_samples _ _ _ _ I), ML; auto|unfold xs; rewrite !map_length; auto].
    unfold xs. rewrite nth_error_map, (RowN _ _ En Ln). reflexivity. }
  eexists _, w. split; [exact Ex|]. split; [exact Ew|]. right. split; [|intros []].
  destruct (proj1 (G _ _ En) Ln) as (x0 & w0 & _ & _ & [[[] _]|[HQ _]]). destruct (QQ_hist _ _ _ HQ) as (l & El).
  rewrite ?X. unfold refreshed. rewrite Ei, El. rewrite (nth_error_nth _ _ NaN Ew), (nth_error_nth (t_samples t1) i ([] : list QArith_base.Q) Ex).
  apply (QQ_re n x0 w0 w u l HQ Nok Rw (Hu _) El).
Qed.

(** Whole calls. *)
Hypothesis flow : p_flow P = Simple.
Hypothesis some_ess : p_ess P <> None.
Definition settled (s : tp) : Prop := tinv (s_tree s) /\ good [] (s_tree s).

Lemma update_settled s : settled s -> settled (update_model s).
Proof. intros (T & G). destruct (normalize_good _ T G) as (T1 & G1 & _). split; auto. Qed.
Lemma sort_perm v l : Permutation (sort_desc v l) l.
Proof.
  induction l as [|a l IH]; simpl; auto. transitivity (a :: sort_desc v l); [|constructor; auto]. generalize (sort_desc v l). clear.
  induction l as [|b l IH]; simpl; auto. destruct (fltQ (v a) (v b)); auto. rewrite IH. constructor.
Qed.
Lemma lambda_perm t r : Permutation (lambda_hat t r) (t_leaves t).
Proof. unfold lambda_hat. destruct (existsb _ _); apply sort_perm. Qed.
Definition round_ok (r : tp_round) : Prop := (forall i, U (rd_draw r i)) /\ (forall q, U' (rd_re r q)).

Lemma turn_settled need r s : round_ok r -> settled s -> exists s', turn P pi need r s = Done s' /\ settled s'.
Proof.
  intros (R1 & R2) (T & G). unfold turn. rewrite flow. unfold simple_turn. pose proof T as (k & I).
  destruct (expand_nodes_good (lambda_hat (s_tree s) r) (s_tree s) (p_parallel P) [] T G) as (t' & new & E & T' & G' & N & L).
  - eapply Permutation_NoDup; [apply Permutation_sym, lambda_perm|eapply leaves_nodup; eauto].
  - constructor.
  - intros p H. split; [|intros []]. eapply Permutation_in; [apply lambda_perm|exact H].
  - intros a [].
  - rewrite E. eexists. split; [reflexivity|].
    destruct (nodes_good r new (with_tree s t') R1 T' G' N L) as (H1 & H2 & _).
    unfold maybe_resample. destruct (p_leaf_resampling P); [|split; auto].
    destruct (resample_good r _ R2 H1 H2) as (J1 & J2 & _). split; auto.
Qed.

Lemma leaf_histories_ok t refs : (forall i, In i refs -> exists n l, nth_error (t_nodes t) i = Some n /\ n_hist n = HList l) ->
  exists hs, leaf_histories t refs = Ok hs.
Proof.
  induction refs as [|i refs IH]; intros H; simpl; [eauto|]. destruct (H i (or_introl eq_refl)) as (n & l & -> & ->).
  destruct IH as (hs & ->); [intros; apply H; right; auto|]. simpl. eauto.
Qed.
Lemma settled_histories s i : settled s -> In i (t_leaves (s_tree s)) -> exists n l x w, nth_error (t_nodes (s_tree s)) i = Some n /\ n_hist n = HList l /\
  is_leaf n = true /\ nth_error (t_samples (s_tree s)) i = Some x /\ nth_error (t_weights (s_tree s)) i = Some w /\ QQ n x w.
Proof.
  intros (T & G) H. pose proof T as (k & I). destruct (leaf_node _ _ _ _ _ I H) as (n & En & Ln).
  destruct (proj1 (G _ _ En) Ln) as (x & w & Ex & Ew & [[[] _]|[HQ _]]). destruct (QQ_hist _ _ _ HQ) as (l & El). exists n, l, x, w. csplit; auto.
Qed.
Lemma get_samples_ok s : settled s -> exists l, get_samples P (s_tree s) = Ok l.
Proof.
  intros S. unfold get_samples. destruct (p_ess P) as [e|]; [|congruence]. destruct (Qltb 1 e); [eauto|].
  destruct (leaf_histories_ok (s_tree s) (t_leaves (s_tree s))) as (hs & ->).
  - intros i H. destruct (settled_histories s i S H) as (n & l & x & w & E & El & _). eauto.
  - simpl. eauto.
Qed.
Lemma loop_settled n timeout tape : forall el s, Forall round_ok tape -> settled s ->
  (exists s', (tp_loop P pi n timeout tape el s = Done s' \/ tp_loop P pi n timeout tape el s = Running s') /\ settled s').
Proof.
  induction tape as [|r tape IH]; intros el s F S; simpl; destruct (get_samples_ok s S) as (l & ->);
    destruct ((length l <? n)%nat && Qltb el timeout).
  - exists s. auto.
  - eexists. split; [left; reflexivity|]. apply update_settled. auto.
  - inversion F; subst. destruct (turn_settled (n - length l) r s H1 S) as (s' & -> & S'). apply IH; auto.
  - eexists. split; [left; reflexivity|]. apply update_settled. auto.
Qed.
Lemma root_settled u s : U u -> s_tree s = tree_new (p_lo P) (p_hi P) -> length (p_lo P) = length (p_hi P) ->
  whole = (root_center (p_lo P) (p_hi P), root_radius (p_lo P) (p_hi P)) -> settled (root_turn P pi u s).
Proof.
  intros Hu E L W. assert (T : tinv (s_tree s)) by (exists 0%nat; rewrite E, W; apply new_inv; auto).
  assert (G : good [0%nat] (s_tree s)).
  { rewrite E. intros i n En. simpl in En. destruct i as [|i]; [|destruct i; discriminate]. inversion En. split; [|discriminate]. eexists _, _. simpl. csplit; auto. }
  unfold root_turn. assert (En : nth_error (t_nodes (s_tree s)) 0 = Some (node_new (root_center (p_lo P) (p_hi P)) (root_radius (p_lo P) (p_hi P)) 0 (Some 0%nat) 0 (Fin 0))).
  { rewrite E. reflexivity. }
  rewrite En. simpl n_hist. cbv iota.
  destruct (take_good (s_tree s) 0 u [0%nat] T Hu) with (n := node_new (root_center (p_lo P) (p_hi P)) (root_radius (p_lo P) (p_hi P)) 0 (Some 0%nat) 0 (Fin 0))
    as (T1 & G1 & _); auto.
  - rewrite E. simpl. auto.
  - left. auto.
  - repeat constructor. intros [].
  - apply update_settled. split; [exact T1|exact G1].
Qed.
Lemma root_noop u s : settled s -> root_turn P pi u s = s.
Proof.
  intros (T & G). unfold root_turn. destruct (nth_error (t_nodes (s_tree s)) 0) as [n|] eqn:E; auto.
  destruct (n_hist n) eqn:H; auto. exfalso. pose proof T as (k & I).
  destruct (is_leaf n) eqn:Ln.
  - destruct (proj1 (G _ _ E) Ln) as (x & w & _ & _ & [[[] _]|[HQ _]]). destruct (QQ_hist _ _ _ HQ). congruence.
  - apply (G _ _ E) in Ln. congruence.
Qed.
End Frame.

(** Histories of the simple flow: the tree is new or every leaf satisfies QQ. *)
Section Reach.
Variables (P : tp_params) (QQ : node -> vec -> fl Q -> Prop) (RW : fl Q -> Prop) (U U' : vec -> Prop) (PI : (vec -> Q) -> Prop).
Let whole := (root_center (p_lo P) (p_hi P), root_radius (p_lo P) (p_hi P)).
Hypothesis box : is_box (p_lo P) (p_hi P).
Hypothesis whole_pos : 0 < root_radius (p_lo P) (p_hi P).
Hypothesis flow : p_flow P = Simple.
Hypothesis QQ_hist : forall n x w, QQ n x w -> exists l, n_hist n = HList l.
Hypothesis QQ_rw : forall n x w, QQ n x w -> RW w.
Hypothesis QQ_set : forall n x w w', QQ n x w -> RW w' -> QQ n x w'.
Hypothesis RW_norm : forall ws w, Forall RW ws -> fgtQ (fsumQ ws) 0 = true -> In w ws -> RW (fdivflQ w (fsumQ ws)).
Hypothesis QQ_take : forall pi n u, PI pi -> node_ok P n -> U u ->
  (n_hist n = HNone \/ (exists x w, QQ n x w) /\ may_expand (p_ess P) (p_nmin P) (n_hist n) = Ok false) ->
  let x := kernel_draw (p_kernel P) (n_center n) (n_radius n) u in
  let nw := taken n x (pi x) (node_density P (n_center n) (n_radius n) x) in
  QQ (fst nw) x (snd nw).
Hypothesis RW_re : forall pi c r u, PI pi -> length c = p_dims P -> 0 < r -> U' u ->
  RW (fdivflQ (Fin (pi (re_sample c r (re_unit P u)))) (re_density P r (re_unit P u))).
Hypothesis QQ_re : forall n x w w' u l, QQ n x w -> node_ok P n -> RW w' -> U' u -> n_hist n = HList l ->
  let x' := re_sample (n_center n) (n_radius n) (re_unit P u) in
  QQ (set_payload n w' (fmulQ w' (Fin (Qpow (2 * n_radius n) (length (n_center n))))) (HList (replace_last l (x', w')))) x' w'.
Definition op_ok (o : tp_op) : Prop :=
  match o with TpCall pi n timeout u tape => PI pi /\ U u /\ Forall (round_ok U U') tape | _ => True end.
Let st (s : tp) : Prop := settled P whole QQ s.

Lemma call_root pi u s : PI pi -> U u -> s_tree s = tree_new (p_lo P) (p_hi P) \/ st s -> st (root_turn P pi u s).
Proof.
  intros Hp Hu [E|S].
  - eapply (root_settled P pi whole QQ RW U); eauto; try (intros; eauto; fail). apply is_box_length. auto.
  - rewrite (root_noop P pi whole QQ QQ_hist u s S). auto.
Qed.
Lemma call_settled pi n timeout u tape s : PI pi -> U u -> Forall (round_ok U U') tape ->
  s_tree s = tree_new (p_lo P) (p_hi P) \/ st s ->
  match p_ess P with
  | None => tp_call P pi n timeout u tape s = Failed TypeError (root_turn P pi u s) /\ st (root_turn P pi u s)
  | Some _ => exists s', (tp_call P pi n timeout u tape s = Done s' \/ tp_call P pi n timeout u tape s = Running s') /\ st s'
  end.
Proof.
  intros Hp Hu F S. pose proof (call_root pi u s Hp Hu S) as R.
  assert (L : p_ess P <> None -> exists s', (tp_call P pi n timeout u tape s = Done s' \/ tp_call P pi n timeout u tape s = Running s') /\ st s').
  { intros E. unfold tp_call. eapply (loop_settled P pi whole QQ RW U U'); eauto; try (intros; eauto; fail). }
  assert (K : p_ess P = None -> tp_call P pi n timeout u tape s = Failed TypeError (root_turn P pi u s)).
  { intros E. unfold tp_call. destruct tape; simpl; unfold get_samples; rewrite E; reflexivity. }
  destruct (p_ess P); [apply L; discriminate|auto].
Qed.
Lemma reach_settled ops s : tp_reachable P ops s -> Forall (fun ob => op_ok (fst ob)) ops ->
  s_tree s = tree_new (p_lo P) (p_hi P) \/ st s.
Proof.
  assert (Step : forall o s0, op_ok o -> s_tree s0 = tree_new (p_lo P) (p_hi P) \/ st s0 ->
    (s_tree (out_state (tp_run P o s0)) = tree_new (p_lo P) (p_hi P) \/ st (out_state (tp_run P o s0)))).
  { intros o s0 Ho S. destruct o as [pi n timeout u tape|m sel draw|]; simpl.
    - destruct Ho as (Hp & Hu & F). pose proof (call_settled pi n timeout u tape s0 Hp Hu F S) as C. right. destruct (p_ess P).
      + destruct C as (s' & [-> | ->] & H); auto.
      + destruct C as (-> & H). auto.
    - destruct (model_sample _ _ _ _ _); exact S.
    - left. reflexivity. }
  induction 1 as [|o ops s s' R IH E|o ops s e s' R IH E]; intros F; [left; reflexivity| |];
    inversion F as [|? ? F1 F2]; subst; specialize (Step o s F1 (IH F2)); rewrite E in Step; exact Step.
Qed.
End Reach.
