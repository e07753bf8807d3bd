(** Invariants of the partition tree. *)
From Coq Require Import List Bool Arith Lia QArith Lqa.
Import ListNotations.
From Verif Require Import Prelude.Py Prelude.QBase Prelude.QFacts Prelude.ListFacts Model.Tree Spec.TreeSpec Spec.Box Proofs.TreeCells.
Open Scope Q_scope.

Definition node_cell (n : node) : cell := (n_center n, n_radius n).
Definition leaf_cell (t : tree) (ref : nat) : cell :=
  match nth_error (t_nodes t) ref with Some n => node_cell n | None => ([], 0) end.
Definition leaf_cells (t : tree) : list cell := map (leaf_cell t) (t_leaves t).

Record tree_inv (d : nat) (whole : cell) (k : nat) (t : tree) : Prop := {
  ti_node : forall i n, nth_error (t_nodes t) i = Some n ->
    n_idx n = i /\ length (n_center n) = d /\ n_radius n * power 2 (n_level n) == snd whole;
  ti_centers : t_centers t = map n_center (t_nodes t);
  ti_radii : t_radii t = map n_radius (t_nodes t);
  ti_mask : t_mask t = map is_leaf (t_nodes t);
  ti_samples : length (t_samples t) = length (t_nodes t);
  ti_weights : length (t_weights t) = length (t_nodes t);
  ti_leaf : forall i n j, nth_error (t_nodes t) i = Some n -> (n_leaf n = Some j <-> nth_error (t_leaves t) j = Some i);
  ti_leaf_lt : forall j i, nth_error (t_leaves t) j = Some i -> (i < length (t_nodes t))%nat;
  ti_nodes_count : length (t_nodes t) = (1 + k * 2 ^ d)%nat;
  ti_leaves_count : length (t_leaves t) = (1 + k * (2 ^ d - 1))%nat;
  ti_tiles : tiles (leaf_cells t) whole;
  ti_root : exists n, nth_error (t_nodes t) 0 = Some n /\ node_cell n = whole;
  ti_kids : forall i n, nth_error (t_nodes t) i = Some n ->
    if is_leaf n then n_children n = []
    else exists b, n_children n = seq b (2 ^ d) /\
      forall m c, nth_error (child_centers (n_center n) (n_radius n)) m = Some c ->
        exists n', nth_error (t_nodes t) (b + m) = Some n' /\ node_cell n' = (c, n_radius n / 2) /\ n_level n' = S (n_level n)
}.

Lemma pow2_pos d : (0 < 2 ^ d)%nat.
Proof. apply Nat.neq_0_lt_0, Nat.pow_nonzero. lia. Qed.
Lemma child_centers_length c r : length (child_centers c r) = (2 ^ length c)%nat.
Proof. unfold child_centers. rewrite map_length. apply coeffs_length. Qed.
Lemma child_center_length c r x : In x (child_centers c r) -> length x = length c.
Proof. intros H. apply in_map_iff in H. destruct H as (co & <- & C). apply half_length, coeffs_in_length. auto. Qed.

Lemma nth_error_combine_seq {A : Type} (l : list A) b k : nth_error (combine (seq b (length l)) l) k = option_map (fun c => ((b + k)%nat, c)) (nth_error l k).
Proof.
  revert b k. induction l as [|a l IH]; intros b [|k]; simpl; auto.
  - rewrite Nat.add_0_r. auto.
  - rewrite IH. destruct (nth_error l k); simpl; auto. do 2 f_equal. lia.
Qed.

Lemma nth_error_seq b m q : nth_error (seq b m) q = if (q <? m)%nat then Some (b + q)%nat else None.
Proof.
  destruct (Nat.ltb_spec q m) as [L|L].
  - rewrite (nth_error_nth' _ 0%nat) by (rewrite seq_length; auto). rewrite seq_nth; auto.
  - apply nth_error_None. rewrite seq_length. auto.
Qed.

Lemma children_nth t n li k : nth_error (expand_children t n li) k =
  option_map (fun c => node_new c (n_radius n / 2) (length (t_nodes t) + k)
     (Some (if (k =? 0)%nat then li else (length (t_leaves t) + k - 1)%nat)) (S (n_level n))
     (fdivflQ (n_weight n) (Fin (Qnat (length (child_centers (n_center n) (n_radius n)))))))
   (nth_error (child_centers (n_center n) (n_radius n)) k).
Proof.
  unfold expand_children. rewrite nth_error_map, nth_error_combine_seq.
  destruct (nth_error (child_centers (n_center n) (n_radius n)) k); reflexivity.
Qed.
Lemma children_length t n li : length (expand_children t n li) = (2 ^ length (n_center n))%nat.
Proof. unfold expand_children. rewrite map_length, combine_length, seq_length, Nat.min_id. apply child_centers_length. Qed.
Lemma map_combine_snd {A B C : Type} (f : B -> C) (l : list A) (m : list B) : length l = length m -> map (fun p => f (snd p)) (combine l m) = map f m.
Proof. revert m. induction l as [|a l IH]; intros [|b m] L; simpl in *; try discriminate; auto. f_equal. apply IH. lia. Qed.
Lemma children_cells t n li : map node_cell (expand_children t n li) = child_cells (n_center n) (n_radius n).
Proof.
  unfold expand_children, child_cells. rewrite map_map.
  transitivity (map (fun p : nat * vec => (snd p, n_radius n / 2) : cell)
    (combine (seq 0 (length (child_centers (n_center n) (n_radius n)))) (child_centers (n_center n) (n_radius n)))).
  - reflexivity.
  - apply (map_combine_snd (fun c : vec => (c, n_radius n / 2) : cell)). apply seq_length.
Qed.

Lemma map_seq_nth {A B : Type} (g : option A -> B) (l new : list A) :
  map (fun i => g (nth_error (l ++ new) i)) (seq (length l) (length new)) = map (fun a => g (Some a)) new.
Proof.
  assert (H : forall pre, map (fun i => g (nth_error (pre ++ new) i)) (seq (length pre) (length new)) = map (fun a => g (Some a)) new).
  { induction new as [|a new IH]; intros pre; simpl; auto. f_equal.
    - rewrite nth_error_app2 by lia. rewrite Nat.sub_diag. reflexivity.
    - specialize (IH (pre ++ [a])). rewrite app_length in IH. simpl in IH. rewrite Nat.add_1_r in IH.
      rewrite <- app_assoc in IH. simpl in IH. exact IH. }
  apply H.
Qed.

Lemma map_upd {A B : Type} (f : A -> B) l i a : map f (upd l i a) = upd (map f l) i (f a).
Proof. revert i. induction l as [|x l IH]; intros [|i]; simpl; auto. f_equal. auto. Qed.
Lemma upd_same {A : Type} (l : list A) i a : nth_error l i = Some a -> upd l i a = l.
Proof. revert i. induction l as [|x l IH]; intros [|i] E; simpl in *; try discriminate; f_equal; auto; congruence. Qed.
Lemma upd_app_l {A : Type} (l r : list A) i a : (i < length l)%nat -> upd (l ++ r) i a = upd l i a ++ r.
Proof. revert i. induction l as [|x l IH]; intros [|i] L; simpl in *; try lia; auto. f_equal. apply IH. lia. Qed.

Section Step.
Variables (d : nat) (whole : cell) (k : nat) (t : tree) (ref : nat) (n : node) (li : nat).
Hypothesis I : tree_inv d whole k t.
Hypothesis En : nth_error (t_nodes t) ref = Some n.
Hypothesis El : n_leaf n = Some li.
Let N := length (t_nodes t).
Let new := expand_children t n li.
Let n' := mkN (n_center n) (n_radius n) (seq N (length new)) (n_weight n) None (n_idx n) (n_level n) (n_value n) HGone.
Let t' := expand_at t ref n li.

Lemma step_ref : (ref < N)%nat.
Proof. apply nth_error_Some. unfold N in *. congruence. Qed.
Lemma step_dim : length (n_center n) = d.
Proof. apply (ti_node _ _ _ _ I) in En. tauto. Qed.
Lemma step_new : length new = (2 ^ d)%nat.
Proof. unfold new. rewrite children_length, step_dim. auto. Qed.
Lemma step_nodes i x : nth_error (t_nodes t') i = Some x <->
  (i <> ref /\ nth_error (t_nodes t) i = Some x) \/ (i = ref /\ x = n') \/
  (exists q, i = (N + q)%nat /\ nth_error new q = Some x).
Proof.
  pose proof step_ref as R. unfold t', expand_at. simpl. fold new N. fold n'. rewrite upd_app_nth by auto. split.
  - intros [H|(m & E & H)]; auto. right. destruct m as [|q]; simpl in E; [left; split; congruence|]. right. exists q. auto.
  - intros [H|[[-> ->]|(q & -> & E)]]; auto; right; [exists 0%nat; auto|exists (S q); auto].
Qed.
Lemma step_leaves j i : nth_error (t_leaves t') j = Some i <->
  (j <> li /\ nth_error (t_leaves t) j = Some i) \/
  (exists q, (q < 2 ^ d)%nat /\ i = (N + q)%nat /\ j = match q with O => li | S p => (length (t_leaves t) + p)%nat end).
Proof.
  assert (L : (li < length (t_leaves t))%nat) by (apply nth_error_Some; apply (ti_leaf _ _ _ _ I _ _ _ En) in El; congruence).
  unfold t', expand_at. simpl. fold new N. rewrite upd_app_nth by auto.
  assert (E : hd 0%nat (seq N (length new)) :: tl (seq N (length new)) = seq N (2 ^ d)).
  { rewrite step_new. pose proof (pow2_pos d). destruct (2 ^ d)%nat; [lia|]. reflexivity. }
  rewrite E. split.
  - intros [H|(m & M & H)]; auto. right. rewrite nth_error_seq in M. destruct (Nat.ltb_spec m (2 ^ d)); [|discriminate].
    exists m. repeat split; auto. congruence.
  - intros [H|(q & Q & -> & ->)]; auto. right. exists q. split; auto. rewrite nth_error_seq. destruct (Nat.ltb_spec q (2 ^ d)); [auto|lia].
Qed.
Lemma step_cell i : (i < N)%nat -> leaf_cell t' i = leaf_cell t i.
Proof.
  intros L. unfold leaf_cell. destruct (Nat.eq_dec i ref) as [->|D].
  - assert (nth_error (t_nodes t') ref = Some n') as -> by (apply step_nodes; auto). rewrite En. reflexivity.
  - destruct (nth_error (t_nodes t) i) as [x|] eqn:E; [|apply nth_error_None in E; unfold N in L; lia].
    assert (nth_error (t_nodes t') i = Some x) as -> by (apply step_nodes; auto). reflexivity.
Qed.
Lemma step_leaf_cells : exists c0 rest, child_cells (n_center n) (n_radius n) = c0 :: rest /\ leaf_cells t' = upd (leaf_cells t) li c0 ++ rest.
Proof.
  pose proof (children_cells t n li) as Ec. fold new in Ec.
  assert (Es : map (leaf_cell t') (seq N (length new)) = child_cells (n_center n) (n_radius n)).
  { rewrite <- Ec. unfold leaf_cell, t', expand_at. cbn [t_nodes]. fold new N. fold n'.
    pose proof (map_seq_nth (fun o => match o with Some m => node_cell m | None => ([], 0) end) (upd (t_nodes t) ref n') new) as M.
    rewrite upd_length in M. exact M. }
  pose proof (pow2_pos d) as P. rewrite <- step_new in P. pose proof step_cell as SC.
  unfold leaf_cells. unfold t' at 2. unfold expand_at. cbn [t_leaves]. fold new N.
  destruct (length new) as [|m]; [lia|]. simpl in Es. simpl hd. simpl tl.
  exists (leaf_cell t' N), (map (leaf_cell t') (seq (S N) m)). split; [auto|].
  rewrite map_app, map_upd. f_equal. f_equal. apply map_ext_in. intros i Hi. apply SC.
  apply In_nth_error in Hi. destruct Hi as (j & J). exact (ti_leaf_lt _ _ _ _ I _ _ J).
Qed.

Lemma step_inv : 0 <= snd whole -> tree_inv d whole (S k) t'.
Proof.
  intros W. pose proof step_ref as R. pose proof step_dim as D. pose proof step_new as Ln. pose proof (pow2_pos d) as P.
  pose proof (ti_node _ _ _ _ I _ _ En) as (Idx & _ & Rad).
  assert (Llv : nth_error (t_leaves t) li = Some ref) by (apply (ti_leaf _ _ _ _ I _ _ _ En); auto).
  assert (Lli : (li < length (t_leaves t))%nat) by (apply nth_error_Some; congruence).
  assert (Pr : 0 <= n_radius n).
  { destruct (Qlt_le_dec (n_radius n) 0) as [X|X]; auto. exfalso. pose proof (power_pos 2 (n_level n) ltac:(lra)). nra. }
  assert (Nn : forall q x, nth_error new q = Some x -> exists c, nth_error (child_centers (n_center n) (n_radius n)) q = Some c /\
     x = node_new c (n_radius n / 2) (N + q) (Some (if (q =? 0)%nat then li else (length (t_leaves t) + q - 1)%nat)) (S (n_level n))
           (fdivflQ (n_weight n) (Fin (Qnat (length (child_centers (n_center n) (n_radius n))))))).
  { intros q x E. unfold new in E. rewrite children_nth in E.
    destruct (nth_error (child_centers (n_center n) (n_radius n)) q) as [c|]; [|discriminate]. exists c. split; auto. simpl in E. inversion E. auto. }
  constructor.
  - intros i x E. apply step_nodes in E. destruct E as [[_ E]|[[-> ->]|(q & -> & E)]].
    + apply (ti_node _ _ _ _ I _ _ E).
    + unfold n'. simpl. auto.
    + apply Nn in E. destruct E as (c & C & ->). unfold node_new. simpl. repeat split; auto.
      * rewrite <- D. eapply child_center_length. eapply nth_error_In; eauto.
      * rewrite <- Rad. rewrite half2. ring.
  - unfold t', expand_at. simpl. fold new N n'. rewrite map_app, (ti_centers _ _ _ _ I), map_upd. f_equal. symmetry. apply upd_same.
    rewrite nth_error_map, En. reflexivity.
  - unfold t', expand_at. simpl. fold new N n'. rewrite map_app, (ti_radii _ _ _ _ I), map_upd. f_equal. symmetry. apply upd_same.
    rewrite nth_error_map, En. reflexivity.
  - unfold t', expand_at. cbn [t_mask t_nodes]. fold new N n'. rewrite map_app, map_upd, (ti_mask _ _ _ _ I), Idx.
    rewrite upd_app_l by (rewrite map_length; auto). f_equal. apply map_ext_in. intros x X.
    apply In_nth_error in X. destruct X as (q & E). apply Nn in E. destruct E as (c & _ & ->). reflexivity.
  - unfold t', expand_at. simpl. fold new N n'. rewrite !app_length, map_length, upd_length, (ti_samples _ _ _ _ I). auto.
  - unfold t', expand_at. simpl. fold new N n'. rewrite !app_length, map_length, upd_length, (ti_weights _ _ _ _ I). auto.
  - intros i x j E. rewrite step_leaves. apply step_nodes in E. destruct E as [[Ni E]|[[-> ->]|(q & -> & E)]].
    + assert (i < N)%nat by (apply nth_error_Some; unfold N; congruence). rewrite (ti_leaf _ _ _ _ I _ _ _ E). split.
      * intros J. left. split; auto. intros ->. congruence.
      * intros [[_ J]|(q & _ & X & _)]; [auto|lia].
    + unfold n'. simpl. split; [discriminate|]. intros [[Nj J]|(q & _ & X & _)]; [|lia].
      apply (ti_leaf _ _ _ _ I _ _ _ En) in J. congruence.
    + assert (Lq : (q < 2 ^ d)%nat) by (rewrite <- Ln; apply nth_error_Some; congruence).
      apply Nn in E. destruct E as (c & C & ->). unfold node_new. simpl. split.
      * intros E. right. exists q. repeat split; auto. destruct q as [|q]; simpl in E; [congruence|]. inversion E. lia.
      * intros [[_ J]|(q' & Q & X & ->)]; [apply (ti_leaf_lt _ _ _ _ I) in J; unfold N in J; lia|].
        assert (q' = q) by lia. subst. f_equal. destruct q as [|q]; simpl; lia.
  - intros j i E. unfold t', expand_at. simpl. fold new N n'. rewrite app_length, upd_length, Ln. apply step_leaves in E.
    destruct E as [[_ E]|(q & Q & -> & _)]; [apply (ti_leaf_lt _ _ _ _ I) in E|]; unfold N in *; lia.
  - unfold t', expand_at. simpl. fold new N n'. rewrite app_length, upd_length, Ln, (ti_nodes_count _ _ _ _ I). simpl. lia.
  - unfold t', expand_at. simpl. fold new N n'. rewrite app_length, upd_length, Ln, (ti_leaves_count _ _ _ _ I).
    destruct (2 ^ d)%nat as [|m]; [lia|]. simpl. rewrite seq_length. lia.
  - destruct step_leaf_cells as (c0 & rest & Ec & ->). apply (tiles_replace _ _ _ (n_center n, n_radius n)).
    + apply (ti_tiles _ _ _ _ I).
    + unfold leaf_cells. rewrite nth_error_map, Llv. simpl. unfold leaf_cell. rewrite En. reflexivity.
    + rewrite <- Ec. apply children_tile. auto.
    + rewrite <- Ec, child_cells_eq. intros c x C O. apply in_map_iff in C. destruct C as (co & <- & C). eapply half_open_in; eauto.
  - destruct (ti_root _ _ _ _ I) as (r & E0 & Ew). destruct (Nat.eq_dec 0 ref) as [Z|Z].
    + exists n'. split; [apply step_nodes; auto|]. rewrite <- Ew. rewrite <- Z, E0 in En. inversion En. reflexivity.
    + exists r. split; auto. apply step_nodes. auto.
  - assert (Kids : forall i x, nth_error (t_nodes t) i = Some x -> exists y, nth_error (t_nodes t') i = Some y /\ node_cell y = node_cell x /\ n_level y = n_level x).
    { intros i x E. destruct (Nat.eq_dec i ref) as [->|Ni].
      - exists n'. split; [apply step_nodes; auto|]. rewrite En in E. inversion E. subst. auto.
      - exists x. split; [apply step_nodes; auto|auto]. }
    intros i x E. apply step_nodes in E. destruct E as [[Ni E]|[[-> ->]|(q & -> & E)]].
    + pose proof (ti_kids _ _ _ _ I _ _ E) as K. destruct (is_leaf x); auto. destruct K as (b & B & K). exists b. split; auto.
      intros m c C. destruct (K m c C) as (y & Ey & Cy & Ly). destruct (Kids _ _ Ey) as (z & Ez & Cz & Lz).
      exists z. split; auto. split; congruence.
    + unfold n'. simpl. exists N. rewrite Ln. split; auto. intros m c C.
      assert (exists y, nth_error new m = Some y) as (y & Y).
      { unfold new. rewrite children_nth, C. simpl. eauto. }
      exists y. split; [apply step_nodes; right; right; eauto|]. apply Nn in Y. destruct Y as (c' & C' & ->).
      rewrite C in C'. inversion C'. subst. split; reflexivity.
    + apply Nn in E. destruct E as (c & C & ->). reflexivity.
Qed.
End Step.

Lemma payload_inv d whole k t ref n w v h : tree_inv d whole k t -> nth_error (t_nodes t) ref = Some n ->
  tree_inv d whole k (put_node t ref (set_payload n w v h)).
Proof.
  intros I En. assert (L : (ref < length (t_nodes t))%nat) by (apply nth_error_Some; congruence).
  assert (X : forall i x, nth_error (upd (t_nodes t) ref (set_payload n w v h)) i = Some x ->
    exists y, nth_error (t_nodes t) i = Some y /\ n_center x = n_center y /\ n_radius x = n_radius y /\ n_children x = n_children y /\
      n_leaf x = n_leaf y /\ n_idx x = n_idx y /\ n_level x = n_level y).
  { intros i x E. destruct (Nat.eq_dec i ref) as [->|Ni].
    - rewrite upd_nth_error_eq in E by auto. inversion E. subst. exists n. repeat split; auto.
    - rewrite upd_nth_error_neq in E by auto. exists x. repeat split; auto. }
  assert (Y : forall i y, nth_error (t_nodes t) i = Some y -> exists x, nth_error (upd (t_nodes t) ref (set_payload n w v h)) i = Some x /\
    node_cell x = node_cell y /\ n_level x = n_level y).
  { intros i y E. destruct (Nat.eq_dec i ref) as [->|Ni].
    - exists (set_payload n w v h). rewrite upd_nth_error_eq by auto. split; auto. rewrite E in En. inversion En. subst. auto.
    - exists y. rewrite upd_nth_error_neq by auto. auto. }
  constructor; unfold put_node; simpl.
  - intros i x E. destruct (X _ _ E) as (y & Ey & e1 & e2 & e3 & e4 & e5 & e6). rewrite e1, e2, e5, e6. apply (ti_node _ _ _ _ I _ _ Ey).
  - rewrite (ti_centers _ _ _ _ I), map_upd. symmetry. apply upd_same. rewrite nth_error_map, En. reflexivity.
  - rewrite (ti_radii _ _ _ _ I), map_upd. symmetry. apply upd_same. rewrite nth_error_map, En. reflexivity.
  - rewrite (ti_mask _ _ _ _ I), map_upd. symmetry. apply upd_same. rewrite nth_error_map, En. reflexivity.
  - rewrite upd_length. apply (ti_samples _ _ _ _ I).
  - rewrite upd_length. apply (ti_weights _ _ _ _ I).
  - intros i x j E. destruct (X _ _ E) as (y & Ey & e1 & e2 & e3 & e4 & e5 & e6). rewrite e4. apply (ti_leaf _ _ _ _ I _ _ _ Ey).
  - intros j i E. rewrite upd_length. apply (ti_leaf_lt _ _ _ _ I _ _ E).
  - rewrite upd_length. apply (ti_nodes_count _ _ _ _ I).
  - apply (ti_leaves_count _ _ _ _ I).
  - assert (leaf_cells (put_node t ref (set_payload n w v h)) = leaf_cells t) as Ec.
    { unfold leaf_cells. simpl. apply map_ext_in. intros i Hi. unfold leaf_cell. simpl.
      apply In_nth_error in Hi. destruct Hi as (j & J). apply (ti_leaf_lt _ _ _ _ I) in J.
      destruct (nth_error (t_nodes t) i) as [y|] eqn:E; [|apply nth_error_None in E; lia].
      destruct (Y _ _ E) as (x & -> & C & _). auto. }
    unfold put_node in Ec. rewrite Ec. apply (ti_tiles _ _ _ _ I).
  - destruct (ti_root _ _ _ _ I) as (r & E0 & Ew). destruct (Y _ _ E0) as (x & E & C & _). exists x. split; auto. congruence.
  - intros i x E. destruct (X _ _ E) as (y & Ey & e1 & e2 & e3 & e4 & e5 & e6). pose proof (ti_kids _ _ _ _ I _ _ Ey) as K.
    unfold is_leaf in *. rewrite e4. destruct (n_leaf y); [congruence|]. destruct K as (b & B & K). exists b. split; [congruence|].
    rewrite e1, e2, e6. intros m c C. destruct (K m c C) as (z & Ez & Cz & Lz). destruct (Y _ _ Ez) as (u & Eu & Cu & Lu).
    exists u. split; auto. split; congruence.
Qed.
Lemma cache_inv d whole k t ss ws : tree_inv d whole k t -> length ss = length (t_samples t) -> length ws = length (t_weights t) ->
  tree_inv d whole k (put_cache t ss ws).
Proof.
  intros I Ls Lw. destruct I. constructor; unfold put_cache; simpl; auto; try congruence.
Qed.

Lemma expand_inv d whole k t e m ref t' r : tree_inv d whole k t -> 0 <= snd whole -> expand e m ref t = (t', r) ->
  tree_inv d whole (if grew r then S k else k) t'.
Proof.
  intros I W E. unfold expand in E. destruct (nth_error (t_nodes t) ref) as [n|] eqn:En; [|inversion E; subst; auto].
  destruct (n_leaf n) as [li|] eqn:El; [|inversion E; subst; auto].
  destruct (may_expand e m (n_hist n)) as [[|]|x]; inversion E; subst; simpl; auto.
  eapply step_inv; eauto.
Qed.

(** The root cell. *)
Lemma map2_length_min {A B C : Type} (f : A -> B -> C) l m : length l = length m -> length (map2 f l m) = length l.
Proof. revert m. induction l as [|a l IH]; intros [|b m] L; simpl in *; try discriminate; auto. Qed.
Lemma is_box_length lo hi : is_box lo hi -> length lo = length hi.
Proof. revert hi. induction lo as [|l lo IH]; intros [|h hi] H; simpl in *; try tauto. f_equal. apply IH. tauto. Qed.
Lemma max_list_ge l x : In x l -> x <= max_list l.
Proof.
  induction l as [|a l IH]; intros []; subst.
  - destruct l as [|b l]; [simpl; lra|]. change (max_list (x :: b :: l)) with (qmax x (max_list (b :: l))). unfold qmax.
    destruct (Qle_bool_spec x (max_list (b :: l))); lra.
  - destruct l as [|b l]; [destruct H|]. specialize (IH H). change (max_list (a :: b :: l)) with (qmax a (max_list (b :: l))). unfold qmax.
    destruct (Qle_bool_spec a (max_list (b :: l))); lra.
Qed.
Lemma root_covers lo hi x : in_box lo hi x -> in_closed (root_center lo hi, root_radius lo hi) x.
Proof.
  intros H. unfold in_closed. simpl.
  assert (G : forall R, (forall v, In v (map2 (fun l h => (h - l) / 2) lo hi) -> v <= R) ->
    Forall2 (fun a v => a - R <= v /\ v <= a + R) (root_center lo hi) x).
  { intros R. revert hi x H. induction lo as [|l lo IH]; intros [|h hi] [|v x] H G; simpl in *; try tauto; [constructor|].
    destruct H as (A & B & H). constructor.
    - specialize (G _ (or_introl eq_refl)). rewrite half2 in G. rewrite half2. lra.
    - apply IH; auto. }
  apply G. intros v V. apply max_list_ge. auto.
Qed.
Lemma root_radius_nonneg lo hi : is_box lo hi -> 0 <= root_radius lo hi.
Proof.
  unfold root_radius. destruct lo as [|l lo], hi as [|h hi]; try (simpl; tauto); [simpl; lra|]. intros (A & _).
  pose proof (max_list_ge (map2 (fun l h => (h - l) / 2) (l :: lo) (h :: hi)) ((h - l) / 2) (or_introl eq_refl)) as M.
  rewrite half2 in M at 1. eapply Qle_trans; [|exact M]. lra.
Qed.

Lemma new_inv lo hi : length lo = length hi -> tree_inv (length lo) (root_center lo hi, root_radius lo hi) 0 (tree_new lo hi).
Proof.
  intros L. constructor; simpl.
  - intros [|i] n E; [|destruct i; discriminate]. simpl in E. inversion E. simpl. repeat split; auto; [|lra].
    unfold root_center. apply map2_length_min. auto.
  - auto.
  - auto.
  - auto.
  - auto.
  - auto.
  - intros [|i] n j E; [|destruct i; discriminate]. simpl in E. inversion E. simpl. split.
    + intros X. inversion X. reflexivity.
    + destruct j as [|[|j]]; simpl; intros X; auto; discriminate.
  - intros [|[|j]] i E; simpl in E; inversion E. lia.
  - auto.
  - auto.
  - unfold leaf_cells. simpl. unfold leaf_cell. simpl. split; [|split; [|split]].
    + intros x H. eexists. split; [left; reflexivity|exact H].
    + intros c x [<- |[]] H. exact H.
    + intros [|[|i]] [|[|j]] c c' x E E'; simpl in *; try discriminate; auto.
    + unfold total_volume. simpl. unfold node_cell. simpl. lra.
  - eexists. split; reflexivity.
  - intros [|i] n E; [|destruct i; discriminate]. simpl in E. inversion E. reflexivity.
Qed.

Lemma tree_reachable_inv lo hi ops t : is_box lo hi -> tree_reachable lo hi ops t ->
  tree_inv (length lo) (root_center lo hi, root_radius lo hi) (count_true (map snd ops)) t.
Proof.
  intros B R. pose proof (is_box_length _ _ B) as L. pose proof (root_radius_nonneg _ _ B) as P. induction R; simpl.
  - apply new_inv. auto.
  - pose proof (expand_inv _ _ _ _ _ _ _ _ _ IHR P H) as E. destruct (grew r); auto.
  - apply payload_inv; auto.
  - apply cache_inv; auto.
Qed.
