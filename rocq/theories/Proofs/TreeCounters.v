(** Effort counters of the tree pyramid sampler: differences between the reported and the actual numbers. *)
From Coq Require Import List Bool Arith Lia QArith.
Import ListNotations.
From Verif Require Import Prelude.Py Prelude.QBase Model.Tree Model.TreeSampler.

(** From s to s' the evaluations are counted; the draws too (b) or at least no draw is missed. *)
Definition counts (b : bool) (s s' : tp) : Prop :=
  (s_q_evals s' + g_qs s = s_q_evals s + g_qs s' /\ s_pi_evals s' + g_pis s = s_pi_evals s + g_pis s' /\
   s_q_samples s + g_draws s' <= s_q_samples s' + g_draws s /\ (b = true -> s_q_samples s' + g_draws s = s_q_samples s + g_draws s'))%nat.
Lemma counts_refl b s : counts b s s.
Proof. unfold counts. lia. Qed.
Lemma counts_trans b s s' s'' : counts true s s' -> counts b s' s'' -> counts b s s''.
Proof. unfold counts. intros (A & B & C & D) (A' & B' & C' & D'). specialize (D eq_refl). repeat split; try lia; intros ->; specialize (D' eq_refl); lia. Qed.
Lemma counts_weak s s' : counts true s s' -> counts false s s'.
Proof. unfold counts. intros (A & B & C & D). repeat split; try lia; try discriminate. Qed.
Lemma counts_node P pi u ref s : counts true s (node_turn P pi u ref s).
Proof. unfold node_turn, counts. destruct (nth_error _ _); simpl; lia. Qed.
Lemma counts_nodes P pi r new : forall s, counts true s (fold_left (fun s ref => node_turn P pi (rd_draw r ref) ref s) new s).
Proof. induction new; intros s; simpl; [apply counts_refl|]. eapply counts_trans; [apply counts_node|]. apply IHnew. Qed.
Lemma counts_resample P pi r s : counts true s (maybe_resample P pi r s).
Proof. unfold maybe_resample, resample, counts. destruct (p_leaf_resampling P); simpl; lia. Qed.
Lemma counts_with s t : counts true s (with_tree s t).
Proof. unfold counts. simpl. lia. Qed.
Definition done {S : Type} (o : outcome S) : bool := match o with Failed _ _ => false | _ => true end.
Lemma counts_simple P pi r s : counts true s (out_state (simple_turn P pi r s)).
Proof.
  unfold simple_turn. destruct (expand_nodes _ _ _ _ _) as [t [new|e]]; simpl; [|apply counts_with].
  eapply counts_trans; [apply counts_with|]. eapply counts_trans; [apply counts_nodes|apply counts_resample].
Qed.
Lemma counts_mnodes P pi r refs : forall s, counts true s (out_state (mixture_nodes P pi r refs s)).
Proof.
  induction refs as [|ref refs IH]; intros s; simpl; [apply counts_refl|].
  destruct (nth_error _ _) as [n|]; destruct (model_sample _ _ _ _ _) as [[|x [|]]|e]; simpl; try apply counts_refl.
  destruct (tp_prob _ _ _ _) as [q|e]; simpl; [|unfold counts; simpl; lia].
  eapply counts_trans; [|apply IH]. unfold counts. simpl. lia.
Qed.
Lemma counts_turn P pi need r s : let o := turn P pi need r s in counts (done o) s (out_state o).
Proof.
  simpl. unfold turn. destruct (p_flow P).
  - pose proof (counts_simple P pi r s) as C. destruct (simple_turn P pi r s); simpl in *; auto. apply counts_weak. auto.
  - unfold mixture_turn. set (m := ((need + 2 ^ p_dims P - 1) / 2 ^ p_dims P)%nat).
    destruct (model_sample P (s_model s) m (rd_psel r) (rd_pdraw r)) as [xs|e]; [|simpl; unfold counts; simpl; repeat split; try lia; discriminate].
    set (s1 := mkS (s_tree s) _ _ _ _ _ _ _). assert (C1 : counts true s s1) by (unfold counts; simpl; lia).
    destruct (find_unique _ _ _ _) as [nodes|e]; [|simpl; apply counts_weak; auto].
    destruct (expand_nodes _ _ _ _ _) as [t [new|e]]; [|simpl; apply counts_weak; eapply counts_trans; [exact C1|apply counts_with]].
    pose proof (counts_mnodes P pi r new (with_tree s1 t)) as C2.
    assert (C3 := counts_trans _ _ _ _ (counts_trans _ _ _ _ C1 (counts_with s1 t)) C2).
    destruct (mixture_nodes P pi r new (with_tree s1 t)) as [s2|s2|e s2]; simpl in *; auto; [|apply counts_weak; auto].
    eapply counts_trans; [exact C3|apply counts_resample].
Qed.
Lemma counts_loop P pi n timeout tape : forall el s, let o := tp_loop P pi n timeout tape el s in counts (done o) s (out_state o).
Proof.
  induction tape as [|r tape IH]; intros el s; simpl; destruct (get_samples P (s_tree s)) as [l|e]; simpl; try apply counts_refl;
    destruct ((length l <? n)%nat && Qltb el timeout); simpl; try (unfold counts; simpl; lia).
  pose proof (counts_turn P pi (n - length l) r s) as C. simpl in C. destruct (turn P pi (n - length l) r s) as [s'|s'|e s']; simpl in *; auto.
  eapply counts_trans; [exact C|apply IH].
Qed.
