(** The tree held by the tree pyramid sampler is always one that a history of expansions and payload updates produces. *)
From Coq Require Import List Bool Arith Lia QArith Lqa.
Import ListNotations.
From Verif Require Import Prelude.Py Prelude.QBase Prelude.QFacts Model.Tree Model.TreeSampler Spec.TreeSpec Spec.Box Proofs.TreeProofs.
Open Scope Q_scope.

Definition grown (lo hi : vec) (t : tree) : Prop := exists ops, tree_reachable lo hi ops t.

Lemma grown_inv lo hi t : is_box lo hi -> grown lo hi t ->
  exists k, tree_inv (length lo) (root_center lo hi, root_radius lo hi) k t.
Proof. intros B (ops & R). eexists. eapply tree_reachable_inv; eauto. Qed.
Lemma grown_new lo hi : grown lo hi (tree_new lo hi).
Proof. exists []. constructor. Qed.
Lemma grown_node lo hi t ref n w v h : grown lo hi t -> nth_error (t_nodes t) ref = Some n ->
  grown lo hi (put_node t ref (set_payload n w v h)).
Proof. intros (ops & R) E. eexists. eapply tr_node; eauto. Qed.
Lemma grown_cache lo hi t ss ws : grown lo hi t -> length ss = length (t_samples t) -> length ws = length (t_weights t) ->
  grown lo hi (put_cache t ss ws).
Proof. intros (ops & R) L1 L2. eexists. eapply tr_cache; eauto. Qed.
Lemma grown_expand lo hi t e m ref t' r : grown lo hi t -> expand e m ref t = (t', r) -> grown lo hi t'.
Proof. intros (ops & R) E. eexists. eapply tr_expand; eauto. Qed.

Lemma put_masked_length {A : Type} mask (l vals : list A) : length (put_masked mask l vals) = length l.
Proof.
  revert l vals. induction mask as [|b mask IH]; intros [|a l] vals; simpl; auto.
  destruct b; simpl; [destruct vals; simpl|]; rewrite IH; auto.
Qed.
Lemma grown_take lo hi t ref x p q : grown lo hi t -> grown lo hi (take_sample t ref x p q).
Proof.
  intros G. unfold take_sample. destruct (nth_error (t_nodes t) ref) as [n|] eqn:E; auto.
  apply grown_cache; [apply grown_node; auto|apply upd_length|apply upd_length].
Qed.
Lemma grown_normalize lo hi t : grown lo hi t -> grown lo hi (self_normalize t).
Proof.
  intros G. unfold self_normalize. destruct (fgtQ _ 0); auto. apply grown_cache; auto. apply put_masked_length.
Qed.
Lemma grown_refresh lo hi t ref : grown lo hi t -> grown lo hi (refresh_leaf t ref).
Proof. intros G. unfold refresh_leaf. destruct (nth_error (t_nodes t) ref) as [n|] eqn:E; auto. apply grown_node; auto. Qed.
Lemma grown_resample lo hi P pi r t : grown lo hi t -> grown lo hi (resample_tree P pi r t).
Proof.
  intros G. unfold resample_tree. cbv zeta.
  match goal with |- grown _ _ (fold_left _ (t_leaves ?u) ?u) => assert (G1 : grown lo hi u) by
    (apply grown_normalize, grown_cache; auto; apply put_masked_length); generalize (t_leaves u); revert G1; generalize u end.
  intros u Gu l. revert u Gu. induction l as [|i l IH]; intros u Gu; simpl; auto. apply IH, grown_refresh. auto.
Qed.
Lemma grown_expand_nodes lo hi P ps : forall t m acc t' r, grown lo hi t -> expand_nodes P t ps m acc = (t', r) -> grown lo hi t'.
Proof.
  induction ps as [|p ps IH]; intros t m acc t' r G E; simpl in E; [inversion E; subst; auto|].
  destruct (expand (p_ess P) (p_nmin P) p t) as [t1 [[new|]|e]] eqn:X; pose proof (grown_expand _ _ _ _ _ _ _ _ G X) as G1.
  - destruct (m <? length (acc ++ new))%nat; [inversion E; subst; auto|eauto].
  - eauto.
  - inversion E; subst; auto.
Qed.

Section Sampler.
Variables (P : tp_params) (pi : vec -> Q).
Let ok (s : tp) : Prop := grown (p_lo P) (p_hi P) (s_tree s).

Lemma ok_update s : ok s -> ok (update_model s).
Proof. apply grown_normalize. Qed.
Lemma ok_root u s : ok s -> ok (root_turn P pi u s).
Proof.
  intros G. unfold root_turn. destruct (nth_error (t_nodes (s_tree s)) 0) as [n|]; auto. destruct (n_hist n); auto.
  apply ok_update. unfold ok. simpl. apply grown_take. auto.
Qed.
Lemma ok_node u ref s : ok s -> ok (node_turn P pi u ref s).
Proof. intros G. unfold node_turn. destruct (nth_error _ _); auto. unfold ok. simpl. apply grown_take. auto. Qed.
Lemma ok_maybe r s : ok s -> ok (maybe_resample P pi r s).
Proof. intros G. unfold maybe_resample. destruct (p_leaf_resampling P); auto. unfold ok. simpl. apply grown_resample. auto. Qed.
Lemma ok_nodes r l : forall s, ok s -> ok (fold_left (fun s ref => node_turn P pi (rd_draw r ref) ref s) l s).
Proof. induction l as [|i l IH]; intros s G; simpl; auto. apply IH, ok_node. auto. Qed.
Lemma ok_mix_nodes r l : forall s, ok s -> ok (out_state (mixture_nodes P pi r l s)).
Proof.
  induction l as [|i l IH]; intros s G; simpl; auto.
  destruct (nth_error (t_nodes (s_tree s)) i) as [n|] eqn:E.
  - destruct (model_sample _ _ _ _ _) as [[|x [|y m]]|e]; auto.
    assert (G1 : grown (p_lo P) (p_hi P) (put_cache (s_tree s) (upd (t_samples (s_tree s)) (n_idx n) x) (t_weights (s_tree s))))
      by (apply grown_cache; auto; apply upd_length).
    destruct (tp_prob _ _ _ _); [|exact G1]. apply IH. unfold ok. simpl. apply grown_take. auto.
  - destruct (model_sample _ _ _ _ _); auto.
Qed.
Lemma ok_turn need r s : ok s -> ok (out_state (turn P pi need r s)).
Proof.
  intros G. unfold turn. destruct (p_flow P).
  - unfold simple_turn. destruct (expand_nodes _ _ _ _ _) as [t [new|e]] eqn:E; pose proof (grown_expand_nodes _ _ _ _ _ _ _ _ _ G E) as G1; simpl; auto.
    apply ok_maybe, ok_nodes. exact G1.
  - unfold mixture_turn. cbv zeta. destruct (model_sample _ _ _ _ _) as [xs|e]; [|exact G].
    destruct (find_unique _ _ _ _) as [nodes|e]; [|exact G].
    destruct (expand_nodes _ _ _ _ _) as [t [new|e]] eqn:E; pose proof (grown_expand_nodes _ _ _ _ _ _ _ _ _ G E) as G1; [|exact G1].
    match goal with |- context[mixture_nodes P pi r new ?s0] => pose proof (ok_mix_nodes r new s0 G1) as G2; destruct (mixture_nodes P pi r new s0) end; auto.
    simpl. apply ok_maybe. exact G2.
Qed.
Lemma ok_loop n timeout tape : forall el s, ok s -> ok (out_state (tp_loop P pi n timeout tape el s)).
Proof.
  induction tape as [|r tape IH]; intros el s G; simpl; destruct (get_samples P (s_tree s)) as [l|e]; auto;
    destruct (_ && _); auto.
  - apply ok_update. auto.
  - pose proof (ok_turn (n - length l) r s G) as G1. destruct (turn P pi (n - length l) r s); auto.
  - apply ok_update. auto.
Qed.
End Sampler.

Lemma tp_grown P ops s : tp_reachable P ops s -> grown (p_lo P) (p_hi P) (s_tree s).
Proof.
  assert (St : forall o s, grown (p_lo P) (p_hi P) (s_tree s) -> grown (p_lo P) (p_hi P) (s_tree (out_state (tp_run P o s)))).
  { intros o s0 G. destruct o as [pi n timeout u tape|m sel draw|]; simpl.
    - unfold tp_call. apply (ok_loop P pi). apply (ok_root P pi). auto.
    - destruct (model_sample _ _ _ _ _); exact G.
    - apply grown_new. }
  induction 1 as [|o ops s s' R IH E|o ops s e s' R IH E]; [apply grown_new| |]; specialize (St o s IH); rewrite E in St; exact St.
Qed.
