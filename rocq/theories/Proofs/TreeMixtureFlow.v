(** The flow of "dm" and "mixture" of the tree pyramid sampler: the root is expanded at most once. *)
From Coq Require Import List Bool Arith Lia QArith Lqa Permutation.
Import ListNotations.
From Verif Require Import Prelude.Py Prelude.QBase Prelude.QFacts Model.Mixture Model.Population Model.Tree Model.TreeSampler Spec.TreeSpec Spec.Box
  Proofs.TreeCells Proofs.TreeProofs Proofs.TreeMask Proofs.TreeSamplerTree Proofs.TreeSamplerInv Proofs.TreeRequest.
Open Scope Q_scope.

Lemma find_raises t n : nth_error (t_nodes t) 0 = Some n -> is_leaf n = false -> forall depth x prev, exists e, find depth t x prev = Raise e.
Proof.
  intros E L. induction depth as [|k IH]; intros x prev; [simpl; eauto|]. cbn [find]. cbv zeta. rewrite E, L.
  destruct (get_child t 0 x) as [c|e]; simpl; eauto.
Qed.
Lemma find_root t n : nth_error (t_nodes t) 0 = Some n -> is_leaf n = true -> forall depth x prev i, find depth t x prev = Ok i -> i = 0%nat.
Proof. intros E L [|k] x prev i H; cbn [find] in H; cbv zeta in H; [discriminate|]. rewrite E, L in H. congruence. Qed.
Lemma find_unique_raises t n frames xs acc : nth_error (t_nodes t) 0 = Some n -> is_leaf n = false -> xs <> [] -> exists e, find_unique frames t xs acc = Raise e.
Proof.
  intros E L N. destruct xs as [|x xs]; [congruence|]. simpl. destruct (find_raises t n E L frames x None) as (e & ->). simpl. eauto.
Qed.
Lemma find_unique_root t n frames : nth_error (t_nodes t) 0 = Some n -> is_leaf n = true -> forall xs acc l,
  (acc = [] \/ acc = [0%nat]) -> find_unique frames t xs acc = Ok l -> l = [] \/ l = [0%nat].
Proof.
  intros E L. induction xs as [|x xs IH]; intros acc l A H; simpl in H; [inversion H; subst; auto|].
  destruct (find frames t x None) as [i|e] eqn:Fi; [|discriminate]. simpl in H. apply (find_root t n E L) in Fi. subst i.
  eapply IH; [|exact H]. destruct A as [-> | ->]; simpl; auto.
Qed.
Lemma model_sample_length P m n sel draw xs : model_sample P m n sel draw = Ok xs -> length xs = n.
Proof.
  destruct m as [|cells ws]; simpl.
  - intros E. inversion E. rewrite map_length, seq_length. auto.
  - destruct (forallb is_fin ws).
    + unfold mixture_sample. destruct (map fin_val ws) as [|w l]; destruct n; intros E; inversion E; auto. simpl. rewrite map_length, seq_length. auto.
    + destruct n; intros E; inversion E. auto.
Qed.

(** Changes of payload only. *)
Definition kept (t t' : tree) : Prop :=
  length (t_nodes t') = length (t_nodes t) /\ t_leaves t' = t_leaves t /\
  option_map is_leaf (nth_error (t_nodes t') 0) = option_map is_leaf (nth_error (t_nodes t) 0).
Lemma kept_refl t : kept t t.
Proof. repeat split. Qed.
Lemma kept_trans a b c : kept a b -> kept b c -> kept a c.
Proof. intros (H1 & H2 & H3) (K1 & K2 & K3). repeat split; congruence. Qed.
Lemma kept_cache t ss ws : kept t (put_cache t ss ws).
Proof. repeat split. Qed.
Lemma kept_node t i n w v h : nth_error (t_nodes t) i = Some n -> kept t (put_node t i (set_payload n w v h)).
Proof.
  intros E. assert (i < length (t_nodes t))%nat by (apply nth_error_Some; congruence). split; [simpl; apply upd_length|]. split; [reflexivity|].
  unfold put_node. cbn [t_nodes]. destruct i as [|i]; [rewrite upd_nth_error_eq by auto; rewrite E; reflexivity|rewrite upd_nth_error_neq by auto; reflexivity].
Qed.
Lemma kept_take t ref x p q : kept t (take_sample t ref x p q).
Proof. unfold take_sample. destruct (nth_error _ _) eqn:E; [|apply kept_refl]. eapply kept_trans; [eapply kept_node; eauto|apply kept_cache]. Qed.
Lemma kept_normalize t : kept t (self_normalize t).
Proof. unfold self_normalize. destruct (fgtQ _ 0); [apply kept_cache|apply kept_refl]. Qed.
Lemma kept_refresh l : forall t, kept t (fold_left refresh_leaf l t).
Proof.
  induction l as [|a l IH]; intros t; simpl; [apply kept_refl|]. eapply kept_trans; [|apply IH]. unfold refresh_leaf.
  destruct (nth_error _ _) eqn:E; [|apply kept_refl]. eapply kept_node; eauto.
Qed.
Lemma kept_resample P pi r t : kept t (resample_tree P pi r t).
Proof. unfold resample_tree. cbv zeta. eapply kept_trans; [|apply kept_refresh]. eapply kept_trans; [|apply kept_normalize]. apply kept_cache. Qed.
Lemma kept_maybe P pi r s : kept (s_tree s) (s_tree (maybe_resample P pi r s)).
Proof. unfold maybe_resample. destruct (p_leaf_resampling P); [apply kept_resample|apply kept_refl]. Qed.
Lemma kept_root P pi u s : kept (s_tree s) (s_tree (root_turn P pi u s)).
Proof.
  unfold root_turn. destruct (nth_error _ _) as [n|]; [|apply kept_refl]. destruct (n_hist n); try apply kept_refl. simpl.
  eapply kept_trans; [apply kept_take|apply kept_normalize].
Qed.
Lemma kept_mixture P pi r refs : forall s, kept (s_tree s) (s_tree (out_state (mixture_nodes P pi r refs s))).
Proof.
  induction refs as [|i refs IH]; intros s; simpl; [apply kept_refl|]. destruct (nth_error (t_nodes (s_tree s)) i) as [n|] eqn:E.
  - destruct (model_sample _ _ _ _ _) as [[|x [|y l]]|e]; try apply kept_refl. destruct (tp_prob _ _ _ _); simpl.
    + eapply kept_trans; [|apply IH]. simpl. eapply kept_trans; [apply kept_cache|apply kept_take].
    + apply kept_cache.
  - destruct (model_sample _ _ _ _ _); apply kept_refl.
Qed.

(** The root is the only node, or it has been expanded and its 2^d children are the leaves. *)
Definition small (d : nat) (t : tree) : Prop :=
  match option_map is_leaf (nth_error (t_nodes t) 0) with
  | Some true => length (t_leaves t) = 1%nat
  | Some false => length (t_leaves t) = (2 ^ d)%nat
  | None => False
  end.
Lemma small_kept d t t' : kept t t' -> small d t -> small d t'.
Proof. unfold small. intros (_ & -> & ->). auto. Qed.
Lemma small_expand P t m t' r : small (p_dims P) t -> option_map is_leaf (nth_error (t_nodes t) 0) = Some true ->
  (forall n, nth_error (t_nodes t) 0 = Some n -> length (n_center n) = p_dims P) ->
  expand_nodes P t [0%nat] m [] = (t', r) -> small (p_dims P) t'.
Proof.
  intros S L D E. simpl in E. destruct (expand_cases (p_ess P) (p_nmin P) 0 t) as (t1 & r1 & X & C). rewrite X in E.
  assert (t1 = t \/ small (p_dims P) t1) as Hs.
  { destruct r1 as [[new|]|e]; auto. right. destruct C as (n & li & En & El & _ & -> & _). unfold small.
    destruct (expand_at_p t 0 n li) as (n' & E' & F' & _); [apply nth_error_Some; congruence|]. rewrite E'. cbn [option_map]. rewrite F', expand_at_leaves, (D n En).
    unfold small in S. rewrite L in S. pose proof (Nat.pow_nonzero 2 (p_dims P) ltac:(lia)). lia. }
  assert (t' = t1) by (destruct r1 as [[new|]|e]; simpl in E; [destruct (m <? length new)%nat|..]; inversion E; auto). subst t'.
  destruct Hs as [-> | Hs]; auto.
Qed.

Section Flow.
Variables (P : tp_params) (pi : vec -> Q).
Hypothesis flow : p_flow P = MixtureFlow.
Hypothesis box : is_box (p_lo P) (p_hi P).
Let ok (s : tp) : Prop := small (p_dims P) (s_tree s) /\ grown (p_lo P) (p_hi P) (s_tree s).

Lemma mixture_turn_small need r s : ok s -> small (p_dims P) (s_tree (out_state (mixture_turn P pi need r s))).
Proof.
  intros (S & G). unfold mixture_turn. cbv zeta. destruct (model_sample _ _ _ _ _) as [xs|e]; [|exact S].
  destruct (find_unique _ _ _ _) as [nodes|e] eqn:Fu; [|exact S].
  assert (K : exists t1 r1, expand_nodes P (s_tree s) nodes need [] = (t1, r1) /\ small (p_dims P) t1).
  { destruct (expand_nodes P (s_tree s) nodes need []) as [t1 r1] eqn:E. exists t1, r1. split; auto. unfold small in S.
    destruct (nth_error (t_nodes (s_tree s)) 0) as [n|] eqn:En; [|destruct S]. cbn [option_map] in S. destruct (is_leaf n) eqn:Ln.
    - destruct (grown_inv _ _ _ box G) as (k & I). destruct (ti_node _ _ _ _ I _ _ En) as (_ & D & _).
      destruct (find_unique_root _ n _ En Ln _ _ _ (or_introl eq_refl) Fu) as [-> | ->].
      + simpl in E. inversion E; subst. unfold small. rewrite En. cbn [option_map]. rewrite Ln. auto.
      + eapply small_expand; [| | |exact E].
        * unfold small. rewrite En. cbn [option_map]. rewrite Ln. auto.
        * rewrite En. simpl. congruence.
        * intros n0 En0. rewrite En in En0. inversion En0; subst. auto.
    - destruct (map (fun x => vclip x (p_lo P) (p_hi P)) xs) as [|y ys] eqn:Ex.
      + simpl in Fu. inversion Fu; subst. simpl in E. inversion E; subst. unfold small. rewrite En. cbn [option_map]. rewrite Ln. auto.
      + destruct (find_unique_raises (s_tree s) n (p_frames P) (y :: ys) [] En Ln ltac:(discriminate)) as (e & X). congruence. }
  destruct K as (t1 & r1 & -> & S1). destruct r1 as [new|e]; [|exact S1].
  match goal with |- context [mixture_nodes P pi r new ?s2] => pose proof (kept_mixture P pi r new s2) as Km; destruct (mixture_nodes P pi r new s2) as [s3|s3|e s3] end;
    simpl in Km |- *; (eapply small_kept; [|exact S1]); auto. eapply kept_trans; [exact Km|apply kept_maybe].
Qed.
Lemma loop_small n timeout tape : forall el s, ok s -> small (p_dims P) (s_tree (out_state (tp_loop P pi n timeout tape el s))).
Proof.
  induction tape as [|r tape IH]; intros el s (S & G); simpl; destruct (get_samples P (s_tree s)) as [l|e]; auto; destruct (_ && _); auto.
  1,3: eapply small_kept; [apply kept_normalize|exact S].
  pose proof (mixture_turn_small (n - length l) r s (conj S G)) as S1. pose proof (ok_turn P pi (n - length l) r s G) as G1.
  unfold turn in G1 |- *. rewrite flow in G1 |- *. destruct (mixture_turn P pi (n - length l) r s); auto. apply IH. split; auto.
Qed.
End Flow.

Lemma reach_small P ops s : p_flow P = MixtureFlow -> is_box (p_lo P) (p_hi P) -> tp_reachable P ops s -> small (p_dims P) (s_tree s).
Proof.
  intros F B R. assert (St : forall o ops s, tp_reachable P ops s -> small (p_dims P) (s_tree s) -> small (p_dims P) (s_tree (out_state (tp_run P o s)))).
  { clear R ops s. intros o ops s R S. destruct o as [pi n timeout u tape|m sel draw|]; simpl.
    - unfold tp_call. apply loop_small; auto. split; [eapply small_kept; [apply kept_root|exact S]|]. apply ok_root. eapply tp_grown; eauto.
    - destruct (model_sample _ _ _ _ _); exact S.
    - reflexivity. }
  induction R as [|o ops s s' R IH E|o ops s e s' R IH E]; [reflexivity| |]; specialize (St o ops s R IH); rewrite E in St; exact St.
Qed.
