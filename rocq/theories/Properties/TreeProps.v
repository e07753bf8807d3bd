(** Properties C45, C46 and C47: the partition tree. *)
From Coq Require Import List Bool Arith Lia QArith Lqa.
Import ListNotations.
From Verif Require Import Prelude.Py Prelude.QBase Prelude.QFacts Model.Tree Spec.TreeSpec Spec.Box Proofs.TreeCells Proofs.TreeProofs Proofs.TreeFind.
Open Scope Q_scope.

(** The unit square expanded twice: the root, then its third child. *)
Definition sq0 : tree := tree_new [0; 0] [1; 1].
Definition sq1 : tree := fst (expand None 5 0 sq0).
Definition sq2 : tree := fst (expand None 5 3 sq1).
Definition sq_ops : list (tree_op * bool) := [(TExpand None 5 3, true); (TExpand None 5 0, true)].
Lemma sq2_reach : tree_reachable [0; 0] [1; 1] sq_ops sq2.
Proof.
  exact (tr_expand _ _ _ sq1 None 5 3 _ _ (tr_expand _ _ _ sq0 None 5 0 _ _ (tr_init _ _) (surjective_pairing _)) (surjective_pairing _)).
Qed.
Lemma sq_box : is_box [0; 0] [1; 1].
Proof. simpl. repeat split; lra. Qed.

(** C45. Numbering, leaf mask, caches and counts after every history of expansions and payload updates. *)
Theorem C45_bookkeeping :
  forall lo hi ops t, is_box lo hi -> tree_reachable lo hi ops t ->
  let k := count_true (map snd ops) in
  length (t_nodes t) = (1 + k * 2 ^ length lo)%nat /\ length (t_leaves t) = (1 + k * (2 ^ length lo - 1))%nat /\
  (forall i n, nth_error (t_nodes t) i = Some n ->
     n_idx n = i /\
     (forall j, n_leaf n = Some j <-> nth_error (t_leaves t) j = Some i) /\
     nth_error (t_mask t) i = Some (match n_leaf n with Some _ => true | None => false end) /\
     nth_error (t_centers t) i = Some (n_center n) /\ nth_error (t_radii t) i = Some (n_radius n)) /\
  (forall j i, nth_error (t_leaves t) j = Some i -> (i < length (t_nodes t))%nat) /\
  length (t_mask t) = length (t_nodes t) /\ length (t_centers t) = length (t_nodes t) /\ length (t_radii t) = length (t_nodes t) /\
  length (t_samples t) = length (t_nodes t) /\ length (t_weights t) = length (t_nodes t).
Proof.
  intros lo hi ops t B R k. pose proof (tree_reachable_inv _ _ _ _ B R) as I. fold k in I.
  destruct I as [i1 i2 i3 i4 i5 i6 i7 i8 i9 i10 i11 i12 i13].
  split; auto. split; auto. split.
  { intros i n E. destruct (i1 _ _ E) as (e1 & _). split; auto. split; [intros j; apply i7; auto|].
    rewrite i4, i2, i3, !nth_error_map, E. repeat split. }
  split; auto. rewrite i4, i2, i3, !map_length. repeat split; auto.
Qed.
Print Assumptions C45_bookkeeping.
Example C45_bookkeeping_example :
  is_box [0; 0] [1; 1] /\ tree_reachable [0; 0] [1; 1] sq_ops sq2 /\ length (t_nodes sq2) = 9%nat /\ t_leaves sq2 = [1; 2; 5; 4; 6; 7; 8]%nat /\
  t_mask sq2 = [false; true; true; false; true; true; true; true; true].
Proof. split; [apply sq_box|]. split; [apply sq2_reach|]. repeat split; vm_compute; reflexivity. Qed.

(** Parents and children: an internal node's children are 2^d nodes whose cells partition its cell, one level down. *)
Theorem C45_children :
  forall lo hi ops t, is_box lo hi -> tree_reachable lo hi ops t ->
  forall i n, nth_error (t_nodes t) i = Some n ->
  length (n_center n) = length lo /\ n_radius n * power 2 (n_level n) == root_radius lo hi /\
  match n_leaf n with
  | Some _ => n_children n = []
  | None => length (n_children n) = (2 ^ length lo)%nat /\
            exists kids, Forall2 (fun c m => nth_error (t_nodes t) c = Some m) (n_children n) kids /\
              Forall (fun m => n_level m = S (n_level n)) kids /\
              tiles (map (fun m => (n_center m, n_radius m)) kids) (n_center n, n_radius n)
  end.
Proof.
  intros lo hi ops t B R i n E. pose proof (tree_reachable_inv _ _ _ _ B R) as I.
  destruct (ti_node _ _ _ _ I _ _ E) as (_ & D & Rd). split; auto. split; auto.
  pose proof (ti_kids _ _ _ _ I _ _ E) as K. unfold is_leaf in K. destruct (n_leaf n); auto. destruct K as (b & Eb & K).
  split; [rewrite Eb, seq_length; auto|].
  assert (Pr : 0 <= n_radius n).
  { pose proof (root_radius_nonneg _ _ B). simpl in Rd. destruct (Qlt_le_dec (n_radius n) 0) as [X|X]; auto. exfalso.
    pose proof (power_pos 2 (n_level n) ltac:(lra)). nra. }
  assert (G : forall cs b, (forall m c, nth_error cs m = Some c ->
      exists n', nth_error (t_nodes t) (b + m) = Some n' /\ node_cell n' = (c, n_radius n / 2) /\ n_level n' = S (n_level n)) ->
    exists kids, Forall2 (fun c m => nth_error (t_nodes t) c = Some m) (seq b (length cs)) kids /\
      Forall (fun m => n_level m = S (n_level n)) kids /\ map node_cell kids = map (fun c => (c, n_radius n / 2)) cs).
  { clear. induction cs as [|c cs IH]; intros b H; simpl; [exists []; repeat constructor|].
    destruct (H 0%nat c eq_refl) as (n' & E & C & L). rewrite Nat.add_0_r in E.
    destruct (IH (S b)) as (kids & F & G & M).
    { intros m c' E'. destruct (H (S m) c' E') as (n2 & E2 & H2). exists n2. replace (S b + m)%nat with (b + S m)%nat by lia. auto. }
    exists (n' :: kids). repeat split; [constructor; auto|constructor; auto|]. simpl. rewrite C, M. reflexivity. }
  destruct (G _ _ K) as (kids & F & L & M). exists kids. rewrite child_centers_length, D in F. rewrite Eb. split; [exact F|]. split; [exact L|].
  change (map (fun m => (n_center m, n_radius m)) kids) with (map node_cell kids). rewrite M. apply (children_tile _ _ Pr).
Qed.
Print Assumptions C45_children.
Example C45_children_example : exists n, nth_error (t_nodes sq2) 3 = Some n /\ n_leaf n = None /\ n_children n = [5; 6; 7; 8]%nat /\ n_level n = 1%nat.
Proof. vm_compute. eexists. repeat split. Qed.

(** C46. The leaves partition the root cell, which covers the space box. *)
Theorem C46_partition :
  forall lo hi ops t, is_box lo hi -> tree_reachable lo hi ops t ->
  exists cells, Forall2 (fun i c => exists n, nth_error (t_nodes t) i = Some n /\ c = (n_center n, n_radius n)) (t_leaves t) cells /\
    tiles cells (root_center lo hi, root_radius lo hi) /\
    (forall x, in_box lo hi x -> exists c, In c cells /\ in_closed c x).
Proof.
  intros lo hi ops t B R. pose proof (tree_reachable_inv _ _ _ _ B R) as I. exists (leaf_cells t). split; [|split].
  - unfold leaf_cells. assert (H : forall i, In i (t_leaves t) -> (i < length (t_nodes t))%nat).
    { intros i Hi. apply In_nth_error in Hi. destruct Hi as (j & J). exact (ti_leaf_lt _ _ _ _ I _ _ J). }
    clear - H. induction (t_leaves t) as [|i l IH]; simpl; constructor.
    + unfold leaf_cell. destruct (nth_error (t_nodes t) i) as [n|] eqn:E; [exists n; split; reflexivity|].
      apply nth_error_None in E. specialize (H i (or_introl eq_refl)). lia.
    + apply IH. intros; apply H; right; auto.
  - apply (ti_tiles _ _ _ _ I).
  - intros x X. apply (ti_tiles _ _ _ _ I). apply root_covers. auto.
Qed.
Print Assumptions C46_partition.
Example C46_partition_example :
  tree_reachable [0; 0] [1; 1] sq_ops sq2 /\ in_box [0; 0] [1; 1] [3 # 4; 1 # 2] /\ ~ in_open (root_center [0; 0] [1; 1], root_radius [0; 0] [1; 1]) [1; 1].
Proof.
  split; [apply sq2_reach|]. split; [simpl; repeat split; lra|]. intros H. unfold in_open in H. simpl in H.
  inversion H as [|? ? ? ? H1 H2]; subst. vm_compute in H1. destruct H1 as [_ H1]. discriminate.
Qed.
(** In particular a point interior to two leaves is interior to one leaf only. *)
Theorem C46_unique_leaf :
  forall lo hi ops t, is_box lo hi -> tree_reachable lo hi ops t ->
  forall i j n m x, In i (t_leaves t) -> In j (t_leaves t) -> nth_error (t_nodes t) i = Some n -> nth_error (t_nodes t) j = Some m ->
  in_open (n_center n, n_radius n) x -> in_open (n_center m, n_radius m) x -> i = j.
Proof.
  intros lo hi ops t B R i j n m x Hi Hj En Em On Om. pose proof (tree_reachable_inv _ _ _ _ B R) as I.
  apply In_nth_error in Hi. apply In_nth_error in Hj. destruct Hi as (a & A), Hj as (b & Eb).
  assert (a = b).
  { destruct (ti_tiles _ _ _ _ I) as (_ & _ & S & _). apply (S a b (n_center n, n_radius n) (n_center m, n_radius m) x); auto;
      unfold leaf_cells; rewrite nth_error_map, ?A, ?Eb; simpl; unfold leaf_cell; rewrite ?En, ?Em; reflexivity. }
  congruence.
Qed.
Print Assumptions C46_unique_leaf.
Example C46_unique_leaf_example : exists n, In 5%nat (t_leaves sq2) /\ nth_error (t_nodes sq2) 5 = Some n /\ in_open (n_center n, n_radius n) [5 # 8; 1 # 8].
Proof. eexists. split; [vm_compute; tauto|]. split; [vm_compute; reflexivity|]. repeat constructor; vm_compute; reflexivity. Qed.

(** C47 (full statement: find terminates and returns the leaf containing the point). It does while the root is a leaf; and in every
    tree one step of the descent, get_child, goes to a child whose cell contains the point. *)
Theorem C47_find_partial :
  forall lo hi ops t, is_box lo hi -> tree_reachable lo hi ops t -> count_true (map snd ops) = 0%nat ->
  forall x depth, in_box lo hi x -> exists n, find (S depth) t x None = Ok 0%nat /\ nth_error (t_nodes t) 0 = Some n /\ n_leaf n = Some 0%nat /\
    in_closed (n_center n, n_radius n) x.
Proof.
  intros lo hi ops t B R K x depth X. pose proof (tree_reachable_inv _ _ _ _ B R) as I. rewrite K in I.
  destruct (ti_root _ _ _ _ I) as (n & En & Ew). exists n.
  assert (E : n_leaf n = Some 0%nat).
  { apply (ti_leaf _ _ _ _ I _ _ _ En). pose proof (ti_leaves_count _ _ _ _ I) as L. simpl in L.
    destruct (t_leaves t) as [|i [|]] eqn:El; simpl in L; try lia. simpl.
    assert (i < length (t_nodes t))%nat by (apply (ti_leaf_lt _ _ _ _ I 0); rewrite El; reflexivity).
    rewrite (ti_nodes_count _ _ _ _ I) in H. f_equal. simpl in H. lia. }
  repeat split; auto.
  - apply (find_single _ _ _ _ _ _ _ I En). unfold is_leaf. rewrite E. auto.
  - unfold node_cell in Ew. rewrite Ew. apply root_covers. auto.
Qed.
Print Assumptions C47_find_partial.
Example C47_find_example : tree_reachable [0; 0] [1; 1] [] sq0 /\ in_box [0; 0] [1; 1] [1 # 3; 1].
Proof. split; [apply tr_init|]. simpl. repeat split; lra. Qed.
Theorem C47_get_child :
  forall lo hi ops t, is_box lo hi -> tree_reachable lo hi ops t ->
  forall i n x, nth_error (t_nodes t) i = Some n -> n_leaf n = None -> in_closed (n_center n, n_radius n) x ->
  exists c m, get_child t i x = Ok c /\ In c (n_children n) /\ nth_error (t_nodes t) c = Some m /\ in_closed (n_center m, n_radius m) x /\
    n_level m = S (n_level n).
Proof.
  intros lo hi ops t B R i n x E L C. pose proof (tree_reachable_inv _ _ _ _ B R) as I.
  assert (Lf : is_leaf n = false) by (unfold is_leaf; rewrite L; auto).
  destruct (get_child_spec _ _ _ _ _ _ _ I E Lf C) as (c & m & H1 & H2 & H3 & H4 & _ & H5). exists c, m. repeat split; auto.
Qed.
Print Assumptions C47_get_child.
Example C47_get_child_example : get_child sq2 0 [3 # 4; 1 # 4] = Ok 3%nat /\ get_child sq2 3 [3 # 4; 1 # 4] = Ok 5%nat.
Proof. split; vm_compute; reflexivity. Qed.
(** Once the root was expanded no point is ever located: every call of find recurses until the interpreter stops it. *)
Theorem C47_find_refuted :
  exists lo hi ops t, is_box lo hi /\ tree_reachable lo hi ops t /\
    forall x, in_box lo hi x -> forall depth prev, find depth t x prev = Raise RecursionError.
Proof.
  exists [0; 0], [1; 1], sq_ops, sq2. split; [apply sq_box|]. split; [apply sq2_reach|]. intros x X.
  pose proof (tree_reachable_inv _ _ _ _ sq_box sq2_reach) as I.
  destruct (nth_error (t_nodes sq2) 0) as [n|] eqn:E; [|vm_compute in E; discriminate].
  apply (find_diverges _ _ _ _ _ n I E).
  - vm_compute in E. inversion E. reflexivity.
  - apply root_covers. auto.
Qed.
Print Assumptions C47_find_refuted.
Theorem C47_find_never :
  forall lo hi ops t, is_box lo hi -> tree_reachable lo hi ops t -> (0 < count_true (map snd ops))%nat ->
  forall x, in_box lo hi x -> forall depth prev, find depth t x prev = Raise RecursionError.
Proof.
  intros lo hi ops t B R K x X depth prev. pose proof (tree_reachable_inv _ _ _ _ B R) as I.
  destruct (ti_root _ _ _ _ I) as (n & En & Ew). apply (find_diverges _ _ _ _ _ n I En); [|apply root_covers; auto].
  assert (H : n_leaf n = None).
  { clear - R K En. revert n En. induction R as [|ops t e m ref t' r R IH E|ops t ref n0 w v h R IH E|ops t ss ws R IH L1 L2]; intros n En; simpl in *.
    - lia.
    - unfold expand in E. destruct (nth_error (t_nodes t) ref) as [n0|] eqn:E0; [|inversion E; subst; simpl in K; eauto].
      destruct (n_leaf n0) as [li|] eqn:El; [|inversion E; subst; simpl in K; eauto].
      destruct (may_expand e m (n_hist n0)) as [[|]|x]; inversion E; subst; simpl in K; eauto.
      assert (L : (ref < length (t_nodes t))%nat) by (apply nth_error_Some; congruence).
      unfold expand_at in En. simpl in En. destruct ref as [|ref].
      + destruct (t_nodes t); simpl in *; [lia|]. inversion En. reflexivity.
      + destruct (count_true (map snd ops)) eqn:Ec.
        * exfalso. destruct ops as [|o ops']; [inversion R; subst; simpl in L; lia|].
          clear - Ec R L. assert (G : forall ops t, tree_reachable lo hi ops t -> count_true (map snd ops) = 0%nat -> length (t_nodes t) = 1%nat).
          { clear. induction 1 as [|ops t e m ref t' r R IH E|ops t ref n0 w v h R IH E|ops t ss ws R IH L1 L2]; simpl; intros Z; auto.
            - unfold expand in E. destruct (nth_error (t_nodes t) ref) as [n0|]; [|inversion E; subst; simpl in Z; auto].
              destruct (n_leaf n0) as [li|]; [|inversion E; subst; simpl in Z; auto].
              destruct (may_expand e m (n_hist n0)) as [[|]|x]; inversion E; subst; simpl in Z; auto; discriminate.
            - rewrite upd_length. auto. }
          rewrite (G _ _ R Ec) in L. lia.
        * destruct (t_nodes t) as [|r0 rest] eqn:Et; simpl in *; [lia|]. apply IH; [lia|]. exact En.
    - destruct ref as [|ref].
      + specialize (IH K n0 E). destruct (t_nodes t); simpl in *; [discriminate|]. inversion En. exact IH.
      + destruct (t_nodes t); simpl in *; [discriminate|]. apply IH; auto.
    - apply IH; auto. }
  unfold is_leaf. rewrite H. reflexivity.
Qed.
Print Assumptions C47_find_never.
Example C47_find_never_example : count_true (map snd sq_ops) = 2%nat /\ find 900 sq2 [1 # 2; 1 # 2] None = Raise RecursionError.
Proof. split; vm_compute; reflexivity. Qed.
