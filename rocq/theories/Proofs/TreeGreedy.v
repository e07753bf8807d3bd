(** Which leaves a turn of the simple flow of the tree pyramid sampler expands. *)
From Coq Require Import List Bool Arith Lia QArith Lqa Permutation Sorted.
Import ListNotations.
From Verif Require Import Prelude.Py Prelude.QBase Prelude.QFacts Model.Population Model.Tree Model.TreeSampler Spec.TreeSpec Spec.Box
  Proofs.TreeProofs Proofs.TreeMask Proofs.TreeSamplerTree Proofs.TreeSamplerInv Proofs.TreeRequest.
Open Scope Q_scope.

Lemma flt_trans x y z : x <> NaN -> y <> NaN -> z <> NaN -> fltQ x y = false -> fltQ y z = false -> fltQ x z = false.
Proof.
  intros X Y Z H1 H2. destruct x as [a| | |], y as [b| | |], z as [c| | |]; simpl in *; try congruence; auto.
  apply Qltb_false in H1. apply Qltb_false in H2. apply Qltb_false. lra.
Qed.
Lemma flt_asym x y : fltQ x y = true -> fltQ y x = false.
Proof.
  intros H. destruct x as [a| | |], y as [b| | |]; simpl in *; try congruence; auto. apply Qltb_true in H. apply Qltb_false. lra.
Qed.
Definition after (v : nat -> fl Q) (a b : nat) : Prop := fltQ (v a) (v b) = false.
Lemma insert_in v x l y : In y (insert_desc v x l) -> y = x \/ In y l.
Proof.
  induction l as [|z l IH]; simpl; [intros [H|[]]; auto|]. destruct (fltQ (v x) (v z)); simpl.
  - intros [H|H]; auto. destruct (IH H); auto.
  - intros [H|[H|H]]; auto.
Qed.
Lemma sort_sorted v l : (forall i, In i l -> v i <> NaN) -> StronglySorted (after v) (sort_desc v l).
Proof.
  induction l as [|x l IH]; intros N; simpl; [constructor|]. assert (S : StronglySorted (after v) (sort_desc v l)) by (apply IH; intros; apply N; right; auto).
  assert (M : forall i, In i (sort_desc v l) -> v i <> NaN).
  { intros i Hi. apply N. right. apply (Permutation_in _ (sort_perm v l)). auto. }
  revert S M. generalize (sort_desc v l). clear IH. intros m S M. assert (Nx : v x <> NaN) by (apply N; left; auto). clear N.
  induction S as [|y m S IH Fm]; simpl; [repeat constructor|]. destruct (fltQ (v x) (v y)) eqn:L.
  - constructor; [apply IH; intros; apply M; right; auto|]. apply Forall_forall. intros z Hz. apply insert_in in Hz. destruct Hz as [-> |Hz].
    + unfold after. apply flt_asym. auto.
    + rewrite Forall_forall in Fm. auto.
  - constructor; [constructor; auto|]. constructor; auto. apply Forall_forall. intros z Hz. rewrite Forall_forall in Fm. unfold after.
    eapply flt_trans; [exact Nx|apply M; left; reflexivity|apply M; right; exact Hz|exact L|apply Fm; auto].
Qed.
Lemma sorted_app {A : Type} (R : A -> A -> Prop) a : forall b, StronglySorted R (a ++ b) -> forall x y, In x a -> In y b -> R x y.
Proof.
  induction a as [|z a IH]; intros b S x y Hx Hy; [destruct Hx|]. simpl in S. inversion S as [|? ? S' F]; subst. destruct Hx as [-> |Hx]; [|eauto].
  rewrite Forall_forall in F. apply F. apply in_app_iff. auto.
Qed.

Lemma expand_prefix P ps : forall t m acc t' new, NoDup ps -> (forall p, In p ps -> exists n, nth_error (t_nodes t) p = Some n /\ is_leaf n = true) ->
  expand_nodes P t ps m acc = (t', Ok new) -> exists a b, ps = a ++ b /\ (length (t_nodes t) <= length (t_nodes t'))%nat /\
    (forall p n, In p a -> nth_error (t_nodes t) p = Some n -> may_expand (p_ess P) (p_nmin P) (n_hist n) = Ok true ->
       exists n', nth_error (t_nodes t') p = Some n' /\ is_leaf n' = false) /\
    (forall p, ~ In p a -> (p < length (t_nodes t))%nat -> nth_error (t_nodes t') p = nth_error (t_nodes t) p) /\
    (forall p n, In p a -> nth_error (t_nodes t) p = Some n -> may_expand (p_ess P) (p_nmin P) (n_hist n) <> Ok true -> nth_error (t_nodes t') p = Some n).
Proof.
  induction ps as [|p ps IH]; intros t m acc t' new N Hl E; simpl in E.
  - inversion E; subst. exists [], []. csplit; auto; intros ? ? [].
  - inversion N as [|? ? Np Nps]; subst. destruct (Hl p (or_introl eq_refl)) as (n & En & Ln).
    assert (Lp : (p < length (t_nodes t))%nat) by (apply nth_error_Some; congruence).
    destruct (expand_cases (p_ess P) (p_nmin P) p t) as (t1 & r1 & X & C). rewrite X in E. destruct r1 as [[nw|]|e]; [| |discriminate].
    + destruct C as (n1 & li & En1 & El & M & -> & _). assert (n1 = n) by congruence. subst n1. clear En1.
      destruct (expand_at_p t p n li Lp) as (np & Ep & Lnp & _).
      assert (Len : length (t_nodes (expand_at t p n li)) = (length (t_nodes t) + 2 ^ length (n_center n))%nat).
      { unfold expand_at. simpl. rewrite app_length, upd_length, children_length. auto. }
      cbv zeta in E. destruct (m <? length (acc ++ nw))%nat.
      * inversion E; subst. exists [p], ps. split; [reflexivity|]. split; [lia|]. split; [|split].
        -- intros q nq [-> |[]] _ _. eauto.
        -- intros q Hq Lq. apply expand_at_old; auto. intros ->. apply Hq. left. auto.
        -- intros q nq [<- |[]] Eq Mq. congruence.
      * destruct (IH (expand_at t p n li) m (acc ++ nw) t' new Nps) as (a & b & -> & Lt & Ha & Hb & Hc); [|exact E|].
        -- intros q Hq. destruct (Hl q (or_intror Hq)) as (nq & Eq & Lq). exists nq. split; auto.
           rewrite expand_at_old; auto; [intros ->; auto|apply nth_error_Some; congruence].
        -- assert (Pa : ~ In p a) by (intros H; apply Np, in_app_iff; auto).
           assert (Keep : forall q, q <> p -> (q < length (t_nodes t))%nat -> nth_error (t_nodes (expand_at t p n li)) q = nth_error (t_nodes t) q)
             by (intros; apply expand_at_old; auto).
           exists (p :: a), b. split; [reflexivity|]. split; [lia|]. split; [|split].
           ++ intros q nq [<- |Hq] Eq Mq; [exists np; split; auto; rewrite Hb; auto; lia|].
              assert (q <> p) by (intros ->; auto). eapply Ha; eauto. rewrite Keep; auto. apply nth_error_Some. congruence.
           ++ intros q Hq Lq. assert (q <> p) by (intros ->; apply Hq; left; auto). rewrite Hb; [apply Keep; auto|intros H'; apply Hq; right; auto|lia].
           ++ intros q nq [<- |Hq] Eq Mq; [congruence|]. assert (q <> p) by (intros ->; auto). eapply Hc; eauto. rewrite Keep; auto. apply nth_error_Some. congruence.
    + subst t1. assert (M : may_expand (p_ess P) (p_nmin P) (n_hist n) <> Ok true).
      { intros M. unfold expand in X. rewrite En in X. unfold is_leaf in Ln. destruct (n_leaf n); [|discriminate]. rewrite M in X. discriminate. }
      destruct (IH t m (acc ++ [p]) t' new Nps) as (a & b & -> & Lt & Ha & Hb & Hc); [intros; apply Hl; right; auto|exact E|].
      assert (Pa : ~ In p a) by (intros H; apply Np, in_app_iff; auto).
      exists (p :: a), b. split; [reflexivity|]. split; [lia|]. split; [|split].
      * intros q nq [<- |Hq] Eq Mq; [congruence|eauto].
      * intros q Hq Lq. apply Hb; auto. intros H'. apply Hq. right. auto.
      * intros q nq [<- |Hq] Eq Mq; [rewrite Hb; auto|eauto].
Qed.

(** The leaves expanded by a turn. *)
Lemma greedy_grown P pi need r s s' i j ni nj : is_box (p_lo P) (p_hi P) -> p_flow P = Simple -> grown (p_lo P) (p_hi P) (s_tree s) ->
  (forall k n, In k (t_leaves (s_tree s)) -> nth_error (t_nodes (s_tree s)) k = Some n -> n_value n <> NaN) ->
  turn P pi need r s = Done s' ->
  In i (t_leaves (s_tree s)) -> ~ In i (t_leaves (s_tree s')) -> In j (t_leaves (s_tree s)) -> In j (t_leaves (s_tree s')) ->
  nth_error (t_nodes (s_tree s)) i = Some ni -> nth_error (t_nodes (s_tree s)) j = Some nj ->
  may_expand (p_ess P) (p_nmin P) (n_hist nj) = Ok true -> fltQ (n_value ni) (n_value nj) = false /\ may_expand (p_ess P) (p_nmin P) (n_hist ni) = Ok true.
Proof.
  intros B F G NN E Hi Hi' Hj Hj' Ei Ej Mj.  destruct (grown_inv _ _ _ B G) as (k & I).
  unfold turn in E. rewrite F in E. unfold simple_turn in E. destruct (expand_nodes P (s_tree s) (lambda_hat (s_tree s) r) (p_parallel P) []) as [t rr] eqn:X.
  destruct rr as [new|e]; [|discriminate]. inversion E. subst s'. clear E. rewrite maybe_leaves, node_turns_leaves in Hi', Hj'. simpl in Hi', Hj'.
  destruct (grown_inv _ _ _ B (grown_expand_nodes _ _ _ _ _ _ _ _ _ G X)) as (k' & I').
  destruct (expand_prefix P (lambda_hat (s_tree s) r) (s_tree s) (p_parallel P) [] t new) as (a & b & Eab & Lt & Ha & Hb & Hc); auto.
  { eapply Permutation_NoDup; [apply Permutation_sym, lambda_perm|eapply leaves_nodup; eauto]. }
  { intros p Hp. apply (Permutation_in _ (lambda_perm _ _)) in Hp. eapply leaf_node; eauto. }
  assert (Li : is_leaf ni = true) by (apply (leaf_in _ _ _ _ _ _ I Ei); auto).
  assert (Ia : In i a).
  { destruct (in_dec Nat.eq_dec i a) as [Y|Y]; auto. exfalso. apply Hi'. apply (leaf_in _ _ _ _ i ni I'); auto. rewrite Hb; auto. apply nth_error_Some. congruence. }
  assert (Mi : may_expand (p_ess P) (p_nmin P) (n_hist ni) = Ok true).
  { destruct (may_expand (p_ess P) (p_nmin P) (n_hist ni)) as [[|]|e] eqn:M; auto; exfalso; apply Hi', (leaf_in _ _ _ _ i ni I'); auto; eapply Hc; eauto; congruence. }
  split; auto.
  assert (Jb : In j b).
  { assert (Y : In j (a ++ b)) by (rewrite <- Eab; apply (Permutation_in _ (Permutation_sym (lambda_perm _ _))); auto). apply in_app_iff in Y. destruct Y as [Y|Y]; auto.
    exfalso. destruct (Ha j nj Y Ej Mj) as (n' & En' & Ln'). apply (leaf_in _ _ _ _ _ _ I' En') in Hj'. congruence. }
  assert (Nv : forall q, In q (t_leaves (s_tree s)) -> leaf_value (s_tree s) q <> NaN).
  { intros q Hq. destruct (leaf_node _ _ _ _ _ I Hq) as (n & En & _). unfold leaf_value. rewrite En. eapply NN; eauto. }
  assert (Srt : StronglySorted (after (leaf_value (s_tree s))) (lambda_hat (s_tree s) r)).
  { unfold lambda_hat. destruct (existsb _ _) eqn:Ex.
    - apply existsb_exists in Ex. destruct Ex as (q & Hq & Nq). destruct (leaf_value (s_tree s) q) eqn:V; try discriminate. exfalso. eapply Nv; eauto.
    - apply sort_sorted. auto. }
  rewrite Eab in Srt. pose proof (sorted_app _ _ _ Srt i j Ia Jb) as A. unfold after, leaf_value in A. rewrite Ei, Ej in A. exact A.
Qed.
Lemma greedy P pi need r ops s s' i j ni nj : is_box (p_lo P) (p_hi P) -> p_flow P = Simple -> tp_reachable P ops s ->
  (forall k n, In k (t_leaves (s_tree s)) -> nth_error (t_nodes (s_tree s)) k = Some n -> n_value n <> NaN) ->
  turn P pi need r s = Done s' ->
  In i (t_leaves (s_tree s)) -> ~ In i (t_leaves (s_tree s')) -> In j (t_leaves (s_tree s)) -> In j (t_leaves (s_tree s')) ->
  nth_error (t_nodes (s_tree s)) i = Some ni -> nth_error (t_nodes (s_tree s)) j = Some nj ->
  may_expand (p_ess P) (p_nmin P) (n_hist nj) = Ok true -> fltQ (n_value ni) (n_value nj) = false /\ may_expand (p_ess P) (p_nmin P) (n_hist ni) = Ok true.
Proof. intros B F R. apply greedy_grown; auto. eapply tp_grown; eauto. Qed.
