(** Boolean masks over the node arrays of the partition tree. *)
From Coq Require Import List Bool Arith Lia QArith Lqa Permutation.
Import ListNotations.
From Verif Require Import Prelude.Py Prelude.QBase Prelude.QFacts Model.Tree Model.TreeSampler Spec.TreeSpec Proofs.TreeProofs.

(** How many flags are set before position i. *)
Definition rank (mask : list bool) (i : nat) : nat := count_true (firstn i mask).

Lemma masked_rank {A : Type} mask (l : list A) i : length l = length mask -> nth_error mask i = Some true ->
  nth_error (masked mask l) (rank mask i) = nth_error l i.
Proof.
  unfold rank. revert l i. induction mask as [|b mask IH]; intros [|a l] [|i] L E; simpl in *; try discriminate.
  - inversion E; subst. reflexivity.
  - destruct b; simpl; apply IH; auto.
Qed.
Lemma masked_length {A : Type} mask (l : list A) : length l = length mask -> length (masked mask l) = count_true mask.
Proof. revert l. induction mask as [|b mask IH]; intros [|a l] L; simpl in *; try discriminate; auto. destruct b; simpl; rewrite IH; auto. Qed.
Lemma masked_in {A : Type} mask (l : list A) k a : length l = length mask -> nth_error (masked mask l) k = Some a ->
  exists i, rank mask i = k /\ nth_error mask i = Some true /\ nth_error l i = Some a.
Proof.
  unfold rank. revert l k. induction mask as [|b mask IH]; intros [|x l] k L E; simpl in *; try discriminate; [destruct k; discriminate|].
  destruct b.
  - destruct k as [|k]; simpl in E; [exists 0%nat; auto|]. destruct (IH l k ltac:(lia) E) as (i & R & M & N). exists (S i). simpl. auto.
  - destruct (IH l k ltac:(lia) E) as (i & R & M & N). exists (S i). simpl. auto.
Qed.
Lemma put_rank {A : Type} mask (l vals : list A) i : length l = length mask -> length vals = count_true mask ->
  nth_error mask i = Some true -> nth_error (put_masked mask l vals) i = nth_error vals (rank mask i).
Proof.
  unfold rank. revert l vals i. induction mask as [|b mask IH]; intros [|a l] vals [|i] L V E; simpl in *; try discriminate.
  - inversion E; subst. destruct vals; simpl in *; [discriminate|reflexivity].
  - destruct b; simpl.
    + destruct vals as [|v vals]; simpl in *; [discriminate|]. apply IH; auto.
    + apply IH; auto.
Qed.
Lemma put_other {A : Type} mask (l vals : list A) i : nth_error mask i <> Some true -> nth_error (put_masked mask l vals) i = nth_error l i.
Proof.
  revert l vals i. induction mask as [|b mask IH]; intros [|a l] vals [|i] E; simpl in *; auto.
  - destruct b; [congruence|reflexivity].
  - destruct b; [destruct vals|]; simpl; apply IH; auto.
Qed.
Lemma masked_put {A : Type} mask (l vals : list A) : length l = length mask -> length vals = count_true mask ->
  masked mask (put_masked mask l vals) = vals.
Proof.
  revert l vals. induction mask as [|b mask IH]; intros [|a l] vals L V; simpl in *; try discriminate; try (destruct vals; [auto|discriminate]).
  destruct b; simpl; [destruct vals as [|v vals]; [discriminate|]; simpl; f_equal|]; apply IH; auto.
Qed.
Lemma masked_map {A B : Type} (f : A -> B) mask l : masked mask (map f l) = map f (masked mask l).
Proof. revert l. induction mask as [|b mask IH]; intros [|a l]; simpl; auto. destruct b; simpl; rewrite IH; auto. Qed.
Lemma masked_combine {A B : Type} mask (l : list A) (m : list B) : length l = length m ->
  masked mask (combine l m) = combine (masked mask l) (masked mask m).
Proof. revert l m. induction mask as [|b mask IH]; intros [|x l] [|y m] L; simpl in *; try discriminate; auto. destruct b; simpl; rewrite IH; auto. Qed.
Lemma rank_bound mask i : nth_error mask i = Some true -> (rank mask i < count_true mask)%nat.
Proof.
  unfold rank. revert i. induction mask as [|b mask IH]; intros [|i] E; simpl in *; try discriminate.
  - inversion E. subst. lia.
  - specialize (IH _ E). destruct b; lia.
Qed.

(** Leaves and mask. *)
Lemma mask_leaf d whole k t i n : tree_inv d whole k t -> nth_error (t_nodes t) i = Some n -> nth_error (t_mask t) i = Some (is_leaf n).
Proof. intros I E. rewrite (ti_mask _ _ _ _ I), nth_error_map, E. reflexivity. Qed.
Lemma leaf_in d whole k t i n : tree_inv d whole k t -> nth_error (t_nodes t) i = Some n -> (In i (t_leaves t) <-> is_leaf n = true).
Proof.
  intros I E. unfold is_leaf. split.
  - intros H. apply In_nth_error in H. destruct H as (j & J). apply (ti_leaf _ _ _ _ I _ _ _ E) in J. rewrite J. auto.
  - destruct (n_leaf n) as [j|] eqn:L; [|discriminate]. intros _. apply (ti_leaf _ _ _ _ I _ _ _ E) in L. eapply nth_error_In; eauto.
Qed.
Lemma leaf_node d whole k t i : tree_inv d whole k t -> In i (t_leaves t) -> exists n, nth_error (t_nodes t) i = Some n /\ is_leaf n = true.
Proof.
  intros I H. pose proof H as H'. apply In_nth_error in H. destruct H as (j & J). apply (ti_leaf_lt _ _ _ _ I) in J.
  destruct (nth_error (t_nodes t) i) as [n|] eqn:E; [|apply nth_error_None in E; lia]. exists n. split; auto.
  apply (leaf_in _ _ _ _ _ _ I E). auto.
Qed.
Lemma leaves_nodup d whole k t : tree_inv d whole k t -> NoDup (t_leaves t).
Proof.
  intros I. apply NoDup_nth_error. intros a b La E.
  destruct (nth_error (t_leaves t) a) as [i|] eqn:Ea; [|apply nth_error_None in Ea; lia]. symmetry in E.
  destruct (nth_error (t_nodes t) i) as [n|] eqn:En; [|apply nth_error_None in En; apply (ti_leaf_lt _ _ _ _ I) in Ea; lia].
  apply (ti_leaf _ _ _ _ I _ _ _ En) in Ea. apply (ti_leaf _ _ _ _ I _ _ _ En) in E. congruence.
Qed.
Lemma masked_nodup {A : Type} mask (l : list A) : NoDup l -> NoDup (masked mask l).
Proof.
  revert l. induction mask as [|b mask IH]; intros [|a l] N; simpl; try constructor. inversion N; subst. destruct b; auto.
  constructor; auto. intros H. apply H1. clear - H. revert l H. induction mask as [|b mask IH]; intros [|x l] H; simpl in *; try tauto.
  destruct b; simpl in H; [destruct H as [H|H]; auto|right; auto].
Qed.
Definition masked_refs (t : tree) : list nat := masked (t_mask t) (seq 0 (length (t_nodes t))).
Lemma mask_length d whole k t : tree_inv d whole k t -> length (t_mask t) = length (t_nodes t).
Proof. intros I. rewrite (ti_mask _ _ _ _ I), map_length. auto. Qed.
Lemma masked_refs_perm d whole k t : tree_inv d whole k t -> Permutation (masked_refs t) (t_leaves t).
Proof.
  intros I. pose proof (mask_length _ _ _ _ I) as L. apply NoDup_Permutation; [apply masked_nodup, seq_NoDup|eapply leaves_nodup; eauto|].
  intros i. unfold masked_refs. split.
  - intros H. apply In_nth_error in H. destruct H as (q & E). apply masked_in in E; [|rewrite seq_length; auto].
    destruct E as (a & _ & M & S). rewrite nth_error_seq in S. destruct (Nat.ltb_spec a (length (t_nodes t))) as [La|La]; [|discriminate].
    simpl in S. inversion S; subst a. destruct (nth_error (t_nodes t) i) as [n|] eqn:En; [|apply nth_error_None in En; lia].
    apply (leaf_in _ _ _ _ _ _ I En). rewrite (mask_leaf _ _ _ _ _ _ I En) in M. congruence.
  - intros H. destruct (leaf_node _ _ _ _ _ I H) as (n & En & Ln).
    assert (M : nth_error (t_mask t) i = Some true) by (rewrite (mask_leaf _ _ _ _ _ _ I En); congruence).
    apply (nth_error_In _ (rank (t_mask t) i)). rewrite masked_rank by (auto; rewrite seq_length; auto).
    rewrite nth_error_seq. assert (i < length (t_nodes t))%nat by (apply nth_error_Some; congruence).
    destruct (Nat.ltb_spec i (length (t_nodes t))); [auto|lia].
Qed.
Lemma count_mask d whole k t : tree_inv d whole k t -> count_true (t_mask t) = length (t_leaves t).
Proof.
  intros I. rewrite <- (Permutation_length (masked_refs_perm _ _ _ _ I)). unfold masked_refs. symmetry. apply masked_length.
  rewrite seq_length. symmetry. eapply mask_length; eauto.
Qed.

(** Refreshing the leaves after resampling. *)
Definition refreshed (ws : list (fl Q)) (ss : list vec) (n : node) : node :=
  let w := nth (n_idx n) ws NaN in
  set_payload n w (fmulQ w (Fin (Qpow (2 * n_radius n) (length (n_center n)))))
    (match n_hist n with HList l => HList (replace_last l (nth (n_idx n) ss [], w)) | h => h end).
Lemma refresh_fold l : forall t, NoDup l -> let t' := fold_left refresh_leaf l t in
  t_leaves t' = t_leaves t /\ t_centers t' = t_centers t /\ t_radii t' = t_radii t /\ t_samples t' = t_samples t /\
  t_weights t' = t_weights t /\ t_mask t' = t_mask t /\
  (forall i, nth_error (t_nodes t') i =
     match nth_error (t_nodes t) i with
     | None => None
     | Some n => Some (if existsb (Nat.eqb i) l then refreshed (t_weights t) (t_samples t) n else n)
     end).
Proof.
  induction l as [|a l IH]; intros t N; cbn [fold_left].
  - repeat split. intros i. simpl. destruct (nth_error (t_nodes t) i); auto.
  - inversion N as [|? ? Na Nl]; subst. destruct (IH (refresh_leaf t a) Nl) as (e1 & e2 & e3 & e4 & e5 & e6 & E).
    assert (F : t_leaves (refresh_leaf t a) = t_leaves t /\ t_centers (refresh_leaf t a) = t_centers t /\ t_radii (refresh_leaf t a) = t_radii t /\
      t_samples (refresh_leaf t a) = t_samples t /\ t_weights (refresh_leaf t a) = t_weights t /\ t_mask (refresh_leaf t a) = t_mask t).
    { unfold refresh_leaf. destruct (nth_error (t_nodes t) a); repeat split. }
    destruct F as (f1 & f2 & f3 & f4 & f5 & f6). repeat split; try congruence.
    intros i. rewrite E. rewrite f4, f5. unfold refresh_leaf. destruct (nth_error (t_nodes t) a) as [n|] eqn:En.
    + simpl t_nodes. assert (a < length (t_nodes t))%nat by (apply nth_error_Some; congruence). destruct (Nat.eq_dec i a) as [->|D].
      * rewrite upd_nth_error_eq by auto. rewrite En. simpl existsb. rewrite Nat.eqb_refl. simpl.
        assert (existsb (Nat.eqb a) l = false) as ->.
        { destruct (existsb (Nat.eqb a) l) eqn:X; auto. apply existsb_exists in X. destruct X as (y & Y & Z). apply Nat.eqb_eq in Z. subst. tauto. }
        reflexivity.
      * rewrite upd_nth_error_neq by auto. simpl existsb. apply Nat.eqb_neq in D. rewrite D. reflexivity.
    + destruct (nth_error (t_nodes t) i) as [m|] eqn:Em; auto. simpl. destruct (Nat.eqb_spec i a); [congruence|]. reflexivity.
Qed.
Lemma existsb_in i l : existsb (Nat.eqb i) l = true <-> In i l.
Proof.
  rewrite existsb_exists. split; [intros (y & Y & E); apply Nat.eqb_eq in E; subst; auto|intros H; exists i; split; auto; apply Nat.eqb_refl].
Qed.
