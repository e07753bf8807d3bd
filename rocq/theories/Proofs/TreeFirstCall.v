(** The weights a first call of the tree pyramid sampler returns (simple flow, no resampling, one sample per leaf). *)
From Coq Require Import List Bool Arith Lia QArith Lqa Permutation.
Import ListNotations.
From Verif Require Import Prelude.Py Prelude.QBase Prelude.QFacts Model.Population Model.Tree Model.TreeSampler Spec.TreeSpec Spec.Box
  Proofs.TreeCells Proofs.TreeProofs Proofs.TreeMask Proofs.TreeSamplerTree Proofs.TreeSamplerInv Proofs.TreeSamplerLeaves Proofs.TreeResample
  Proofs.TreeDensity Proofs.TreeRequest Proofs.PopulationProofs.
Open Scope Q_scope.

Section First.
Variables (P : tp_params) (pi : vec -> Q).
Hypothesis B : proper (p_lo P) (p_hi P).
Hypothesis K : positive_kernel P.
Hypothesis F : p_flow P = Simple.
Hypothesis NR : p_leaf_resampling P = false.
Hypothesis O : one_mode P.
Hypothesis N : nonneg pi.

Definition share (c : Q) (n : node) (x : vec) (w : fl Q) : Prop :=
  exists q v, node_density P (n_center n) (n_radius n) x = Fin q /\ 0 < q /\ w = Fin v /\ 0 <= v /\ v * q == c * pi x.
Definition QQ (c : Q) (n : node) (x : vec) (w : fl Q) : Prop := Q1 P n x w /\ share c n x w.
Let st (c : Q) (s : tp) : Prop := settled P (whole_cell P) (QQ c) s.

Lemma QQ_hist c n x w : QQ c n x w -> exists l, n_hist n = HList l.
Proof. intros (H & _). apply (Q1_hist _ _ _ _ H). Qed.
Lemma QQ_take c n u : c == 1 -> node_ok P n -> unit_open P u ->
  (n_hist n = HNone \/ (exists x w, QQ c n x w) /\ may_expand (p_ess P) (p_nmin P) (n_hist n) = Ok false) ->
  let x := kernel_draw (p_kernel P) (n_center n) (n_radius n) u in
  let nw := taken n x (pi x) (node_density P (n_center n) (n_radius n) x) in
  QQ c (fst nw) x (snd nw).
Proof.
  intros C Nok Hu H. destruct (node_density_pos P n u K Nok Hu) as (_ & q & Eq & Pq & _). cbv zeta. unfold taken. rewrite Eq. split.
  - apply Q1_take. destruct H as [H|[(x0 & w0 & Q & _) M]]; [auto|]. right. split; auto. eauto.
  - destruct (fin_divide (pi (kernel_draw (p_kernel P) (n_center n) (n_radius n) u)) q (N _) Pq) as (E & Pv).
    exists q, (pi (kernel_draw (p_kernel P) (n_center n) (n_radius n) u) / q). simpl snd. rewrite E. csplit; auto. rewrite C. field. lra.
Qed.
Lemma share_weights c s : st c s -> Forall finw (masked (t_mask (s_tree s)) (t_weights (s_tree s))).
Proof.
  intros (T & G). apply (masked_RW P (whole_cell P) (QQ c) finw); auto. intros n x w (_ & q & v & _ & _ & -> & Pv & _). exists v. auto.
Qed.

(** The normalisation scales all the weights by the same factor. *)
Lemma update_share c s : 0 < c -> st c s -> exists c', 0 < c' /\ st c' (update_model s).
Proof.
  intros Hc S. pose proof (share_weights c s S) as W. destruct S as (T & G). pose proof T as (k & I). pose proof (mask_length _ _ _ _ I) as ML.
  unfold st, settled, update_model. simpl s_tree. unfold self_normalize.
  destruct (finw_list _ W) as (l & E & Nl). rewrite E, fsumQ_fin. simpl fgtQ. destruct (Qltb_spec 0 (Qsum l)) as [L|L]; [|exists c; split; auto; split; auto].
  exists (c / Qsum l). split; [apply Qlt_shift_div_l; lra|]. split.
  - exists k. apply cache_inv; auto. apply put_masked_length.
  - intros i n En. simpl in En. split; [intros Ln|apply (G _ _ En)]. simpl. destruct (proj1 (G _ _ En) Ln) as (x & w & Ex & Ew & [[[] _]|[(HQ & q & v & Eq & Pq & Ev & Pv & V) _]]).
    assert (M : nth_error (t_mask (s_tree s)) i = Some true) by (rewrite (mask_leaf _ _ _ _ _ _ I En); congruence).
    rewrite put_rank; auto; [|rewrite (ti_weights _ _ _ _ I), ML; auto|rewrite map_length, <- E; apply masked_length; rewrite (ti_weights _ _ _ _ I), ML; auto].
    rewrite <- E, nth_error_map, masked_rank by (auto; rewrite (ti_weights _ _ _ _ I), ML; auto). rewrite Ew. simpl.
    eexists x, _. csplit; [exact Ex|reflexivity|]. right. split; [|intros []]. split; [destruct HQ as (l0 & HQ); exists l0; exact HQ|].
    subst w. destruct (fin_divide v (Qsum l) Pv L) as (E' & P'). exists q, (v / Qsum l). csplit; auto. setoid_replace (v / Qsum l * q) with (v * q / Qsum l) by (field; lra).
    rewrite V. field. lra.
Qed.
Definition fresh (s : tp) : Prop := t_leaves (s_tree s) = [0%nat] /\ length (t_nodes (s_tree s)) = 1%nat.
Lemma root_share u s : s_tree s = tree_new (p_lo P) (p_hi P) -> unit_open P u ->
  exists c, 0 < c /\ st c (root_turn P pi u s) /\ fresh (root_turn P pi u s).
Proof.
  intros E Hu. assert (L : length (p_lo P) = length (p_hi P)) by (apply is_box_length, proper_box, B).
  assert (I : tree_inv (p_dims P) (whole_cell P) 0 (s_tree s)) by (rewrite E; apply new_inv; auto).
  set (n0 := node_new (root_center (p_lo P) (p_hi P)) (root_radius (p_lo P) (p_hi P)) 0 (Some 0%nat) 0 (Fin 0)).
  assert (En : nth_error (t_nodes (s_tree s)) 0 = Some n0) by (rewrite E; reflexivity).
  assert (G : good P (QQ 1) [0%nat] (s_tree s)).
  { rewrite E. intros i n Ei. simpl in Ei. destruct i as [|i]; [|destruct i; discriminate]. inversion Ei. split; [|discriminate]. eexists _, _. simpl. csplit; auto. }
  destruct (take_good P pi (whole_cell P) (QQ 1) (unit_open P) (proper_radius _ _ B) (fun n u => QQ_take 1 n u (Qeq_refl 1)) (s_tree s) 0 u [0%nat] (ex_intro _ 0%nat I) Hu) with (n := n0)
    as (T1 & G1 & L1); auto; [rewrite E; simpl; auto|left; auto|repeat constructor; intros []|].
  unfold root_turn. rewrite En. simpl n_hist. cbv iota. rewrite F.
  match goal with |- context [update_model ?s1] => destruct (update_share 1 s1 ltac:(lra)) as (c & Hc & S); [split; [exact T1|exact G1]|]; exists c; split; auto; split; auto end.
  split.
  - simpl. rewrite normalize_leaves. etransitivity; [exact L1|]. rewrite E. reflexivity.
  - simpl. unfold self_normalize. destruct (fgtQ _ 0); simpl; unfold take_sample; rewrite En; simpl; rewrite upd_length, E; reflexivity.
Qed.
Lemma turn_share need r s c : (forall i, unit_open P (rd_draw r i)) -> st c s -> (c == 1 \/ fresh s) ->
  exists s', turn P pi need r s = Done s' /\ st 1 s'.
Proof.
  intros Hr S C. pose proof S as (T & G). pose proof T as (k & I). unfold turn. rewrite F. unfold simple_turn, maybe_resample. rewrite NR.
  assert (X : exists t' new, expand_nodes P (s_tree s) (lambda_hat (s_tree s) r) (p_parallel P) [] = (t', Ok new) /\
     (exists k, tree_inv (p_dims P) (whole_cell P) k t') /\ good P (QQ 1) new t' /\ NoDup new /\ (forall a, In a new -> In a (t_leaves t'))).
  { destruct C as [C|(Fl & Fn)].
    - assert (G' : good P (QQ 1) [] (s_tree s)).
      { intros i n En. split; [intros Ln|apply (G _ _ En)]. destruct (proj1 (G _ _ En) Ln) as (x & w & Ex & Ew & [[[] _]|[(HQ & q & v & Eq & Pq & Ev & Pv & V) H]]).
        exists x, w. csplit; auto. right. split; auto. split; auto. exists q, v. csplit; auto. rewrite V, C. reflexivity. }
      apply (expand_nodes_good P pi (whole_cell P) (QQ 1) (unit_open P) (proper_radius _ _ B) (QQ_hist 1) (fun n u => QQ_take 1 n u (Qeq_refl 1))); auto.
      + eapply Permutation_NoDup; [apply Permutation_sym, lambda_perm|eapply leaves_nodup; eauto].
      + constructor.
      + intros p H. split; [|intros []]. eapply Permutation_in; [apply lambda_perm|exact H].
      + intros a [].
    - assert (El : lambda_hat (s_tree s) r = [0%nat]).
      { pose proof (lambda_perm (s_tree s) r) as Pm. rewrite Fl in Pm. symmetry in Pm. apply Permutation_length_1_inv in Pm. auto. }
      rewrite El. destruct (settled_histories P (whole_cell P) (QQ c) (QQ_hist c) s 0 S) as (n & l & x & w & En & Eh & Ln & _ & _ & ((l0 & E0 & _ & _ & One) & _)).
      { rewrite Fl. left. auto. }
      rewrite Eh in E0. inversion E0; subst l0. destruct (ti_node _ _ _ _ I _ _ En) as (_ & D & _). pose proof Ln as Ln'. unfold is_leaf in Ln'. destruct (n_leaf n) as [li|] eqn:Eli; [|discriminate].
      assert (Ee : expand (p_ess P) (p_nmin P) 0 (s_tree s) = (expand_at (s_tree s) 0 n li, Ok (Some (seq (length (t_nodes (s_tree s))) (2 ^ p_dims P))))).
      { unfold expand. rewrite En, Eli, Eh, (one_never_refused P l O (One O)), children_length, D. reflexivity. }
      assert (T' : exists k, tree_inv (p_dims P) (whole_cell P) k (expand_at (s_tree s) 0 n li)) by (eapply (tinv_expand P (whole_cell P) (proper_radius _ _ B)); eauto).
      exists (expand_at (s_tree s) 0 n li), (seq 1 (2 ^ p_dims P)). split.
      { simpl. rewrite Ee, Fn. cbv zeta. simpl app. destruct (p_parallel P <? _)%nat; reflexivity. }
      split; auto. destruct T' as (k' & I').
      assert (New : forall i ni, nth_error (t_nodes (expand_at (s_tree s) 0 n li)) i = Some ni -> i <> 0%nat -> n_hist ni = HNone /\ In i (seq 1 (2 ^ p_dims P)) /\ is_leaf ni = true).
      { intros i ni Ei Di. destruct (expand_at_new (s_tree s) 0 n li i ltac:(lia) ni Ei) as (H1 & H2 & H3). rewrite D in H2. split; auto. split; auto. apply in_seq. lia. }
      destruct (expand_at_p (s_tree s) 0 n li ltac:(lia)) as (n' & E' & F' & H').
      split; [|split; [apply seq_NoDup|]].
      + intros i ni Ei. destruct (Nat.eq_dec i 0) as [-> |Di].
        * rewrite E' in Ei. inversion Ei; subst. split; [congruence|auto].
        * destruct (New i ni Ei Di) as (H1 & H2 & H3). split; [intros _|congruence].
          assert (Lt' : (i < length (t_nodes (expand_at (s_tree s) 0 n li)))%nat) by (apply nth_error_Some; congruence).
          destruct (nth_error (t_samples (expand_at (s_tree s) 0 n li)) i) as [xi|] eqn:Es; [|apply nth_error_None in Es; rewrite (ti_samples _ _ _ _ I') in Es; lia].
          destruct (nth_error (t_weights (expand_at (s_tree s) 0 n li)) i) as [wi|] eqn:Ews; [|apply nth_error_None in Ews; rewrite (ti_weights _ _ _ _ I') in Ews; lia].
          exists xi, wi. csplit; auto.
      + intros a Ha. apply in_seq in Ha.
        assert (Lt' : (a < length (t_nodes (expand_at (s_tree s) 0 n li)))%nat).
        { unfold expand_at. simpl. rewrite app_length, upd_length, children_length, D, Fn. lia. }
        destruct (nth_error (t_nodes (expand_at (s_tree s) 0 n li)) a) as [na|] eqn:Ea; [|apply nth_error_None in Ea; lia].
        apply (leaf_in _ _ _ _ a na I'); auto. apply (New a na Ea). lia. }
  destruct X as (t' & new & -> & T' & G' & Nn & Ln). eexists. split; [reflexivity|].
  destruct (nodes_good P pi (whole_cell P) (QQ 1) (unit_open P) (proper_radius _ _ B) (fun n u => QQ_take 1 n u (Qeq_refl 1)) r new (with_tree s t') Hr T' G' Nn Ln) as (H1 & H2 & _).
  split; auto.
Qed.
Lemma first_call n timeout u tape s s' : s_tree s = tree_new (p_lo P) (p_hi P) -> unit_open P u -> Forall (fun r => forall i, unit_open P (rd_draw r i)) tape ->
  tp_call P pi n timeout u tape s = Done s' -> exists c, 0 < c /\ st c s'.
Proof.
  intros Es Hu Ft E. destruct (loop_end _ _ _ _ _ _ _ _ E) as (s1 & el & -> & _ & _ & H).
  assert (J : exists c, 0 < c /\ st c s1 /\ (c == 1 \/ fresh s1)).
  { apply (H (fun s => exists c, 0 < c /\ st c s /\ (c == 1 \/ fresh s))).
    - destruct (root_share u s Es Hu) as (c & Hc & S & Fr). exists c. auto.
    - intros need r s0 s2 (c & _ & S & C) Ir T. rewrite Forall_forall in Ft. destruct (turn_share need r s0 c (Ft _ Ir) S C) as (s3 & T3 & S3).
      exists 1. split; [lra|]. split; [congruence|left; reflexivity]. }
  destruct J as (c & Hc & S & _). apply (update_share c); auto.
Qed.
End First.
