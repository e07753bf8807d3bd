(** Point location in the partition tree. *)
From Coq Require Import List Bool Arith Lia QArith Lqa.
Import ListNotations.
From Verif Require Import Prelude.Py Prelude.QBase Prelude.QFacts Model.Tree Spec.TreeSpec Spec.Box Proofs.TreeCells Proofs.TreeProofs.
Open Scope Q_scope.

Lemma in_cell_spec c r x : length x = length c -> (in_cell c r x = true <-> in_closed (c, r) x).
Proof.
  unfold in_closed. simpl. revert x. induction c as [|a c IH]; intros [|v x] L; simpl in *; try discriminate.
  - split; constructor.
  - rewrite !andb_true_iff, !Qle_bool_iff, IH by lia. split.
    + intros [[H1 H2] H3]. constructor; auto.
    + intros H. inversion H as [|? ? ? ? H1 H2]; subst. tauto.
Qed.
Lemma in_closed_length c r x : in_closed (c, r) x -> length x = length c.
Proof. unfold in_closed. simpl. induction 1; simpl; auto. Qed.

Lemma first_child_spec t refs x : (forall k, In k refs -> exists n, nth_error (t_nodes t) k = Some n /\ length (n_center n) = length x) ->
  (exists k n, In k refs /\ nth_error (t_nodes t) k = Some n /\ in_closed (node_cell n) x) ->
  exists k n, first_child t refs x = Ok k /\ In k refs /\ nth_error (t_nodes t) k = Some n /\ in_closed (node_cell n) x.
Proof.
  induction refs as [|k refs IH]; intros A (k0 & n0 & I0 & E0 & C0); [destruct I0|]. simpl.
  destruct (A k (or_introl eq_refl)) as (n & E & L). rewrite E.
  destruct (in_cell (n_center n) (n_radius n) x) eqn:Ec.
  - exists k, n. repeat split; auto. apply in_cell_spec; auto.
  - destruct I0 as [->|I0].
    + exfalso. assert (n0 = n) by congruence. subst. apply in_cell_spec in C0; auto. congruence.
    + destruct IH as (k1 & n1 & H1 & H2 & H3 & H4); [intros; apply A; right; auto|eauto|]. exists k1, n1. repeat split; auto.
Qed.

Lemma get_child_spec d whole k t ref n x : tree_inv d whole k t -> nth_error (t_nodes t) ref = Some n -> is_leaf n = false ->
  in_closed (node_cell n) x ->
  exists c m, get_child t ref x = Ok c /\ In c (n_children n) /\ nth_error (t_nodes t) c = Some m /\ in_closed (node_cell m) x /\
    n_radius m = n_radius n / 2 /\ n_level m = S (n_level n).
Proof.
  intros I En Lf Cx. pose proof (ti_kids _ _ _ _ I _ _ En) as K. rewrite Lf in K. destruct K as (b & B & K).
  destruct (ti_node _ _ _ _ I _ _ En) as (_ & Ld & _).
  assert (Lx : length x = d). { apply in_closed_length in Cx. congruence. }
  destruct (halves_cover _ _ _ Cx) as (co & C & Hc). apply In_nth_error in C. destruct C as (m & M).
  assert (Em : nth_error (child_centers (n_center n) (n_radius n)) m = Some (half (n_center n) (n_radius n) co)).
  { unfold child_centers. rewrite nth_error_map. unfold vec in *. rewrite M. reflexivity. }
  assert (Lm : (m < 2 ^ d)%nat).
  { rewrite <- Ld, <- (child_centers_length (n_center n) (n_radius n)). apply nth_error_Some. rewrite Em. discriminate. }
  unfold get_child. rewrite En. pose proof (pow2_pos d) as P. 
  assert (exists k1 n1, first_child t (n_children n) x = Ok k1 /\ In k1 (n_children n) /\ nth_error (t_nodes t) k1 = Some n1 /\ in_closed (node_cell n1) x) as (k1 & n1 & H1 & H2 & H3 & H4).
  { apply first_child_spec.
    - intros q Q. rewrite B in Q. apply in_seq in Q.
      destruct (nth_error (child_centers (n_center n) (n_radius n)) (q - b)) as [c|] eqn:Ec.
      + destruct (K _ _ Ec) as (n2 & E2 & _). replace (b + (q - b))%nat with q in E2 by lia. exists n2. split; auto.
        apply (ti_node _ _ _ _ I) in E2. intuition congruence.
      + exfalso. apply nth_error_None in Ec. rewrite child_centers_length, Ld in Ec. lia.
    - destruct (K _ _ Em) as (n2 & E2 & C2 & _). exists (b + m)%nat, n2. rewrite B. repeat split; auto.
      + apply in_seq. lia.
      + rewrite C2. exact Hc. }
  exists k1, n1. split.
  - destruct (n_children n) as [|q qs]; [destruct H2|exact H1].
  - repeat split; auto; rewrite B in H2; apply in_seq in H2;
      (destruct (nth_error (child_centers (n_center n) (n_radius n)) (k1 - b)) as [c|] eqn:Ec;
       [destruct (K _ _ Ec) as (n2 & E2 & C2 & L2); replace (b + (k1 - b))%nat with k1 in E2 by lia;
        assert (n2 = n1) by congruence; subst; auto; unfold node_cell in C2; congruence
       |exfalso; apply nth_error_None in Ec; rewrite child_centers_length, Ld in Ec; lia]).
Qed.

Lemma find_diverges d whole k t x n : tree_inv d whole k t -> nth_error (t_nodes t) 0 = Some n -> is_leaf n = false ->
  in_closed whole x -> forall depth prev, find depth t x prev = Raise RecursionError.
Proof.
  intros I E0 Lf Cx. destruct (ti_root _ _ _ _ I) as (r & Er & Ew). assert (r = n) by congruence. subst r. rewrite <- Ew in Cx.
  destruct (get_child_spec _ _ _ _ _ _ _ I E0 Lf Cx) as (c & m & G & _).
  induction depth as [|depth IH]; intros prev; [reflexivity|].
  cbn [find]. rewrite E0, Lf, G. cbn [bind]. apply IH.
Qed.
Lemma find_single d whole k t x n depth : tree_inv d whole k t -> nth_error (t_nodes t) 0 = Some n -> is_leaf n = true ->
  forall prev, find (S depth) t x prev = Ok 0%nat.
Proof. intros I E0 Lf prev. cbn [find]. rewrite E0, Lf. reflexivity. Qed.
