(** Lemmas about the rational helpers. *)
From Coq Require Import List Bool Arith Lia QArith Lqa Setoid Morphisms.
Import ListNotations.
From Verif Require Import Prelude.Py Prelude.QBase.
Open Scope Q_scope.

Lemma Qltb_true x y : Qltb x y = true <-> x < y.
Proof.
  unfold Qltb. rewrite negb_true_iff.
  split.
  - intros H. apply Qnot_le_lt. intro L. apply Qle_bool_iff in L. congruence.
  - intros H. destruct (Qle_bool y x) eqn:E; auto. apply Qle_bool_iff in E. lra.
Qed.

Lemma Qltb_false x y : Qltb x y = false <-> y <= x.
Proof.
  unfold Qltb. rewrite negb_false_iff. apply Qle_bool_iff.
Qed.

Lemma Qle_bool_false x y : Qle_bool x y = false <-> y < x.
Proof.
  split; intros H.
  - apply Qnot_le_lt. intro L. apply Qle_bool_iff in L. congruence.
  - destruct (Qle_bool x y) eqn:E; auto. apply Qle_bool_iff in E. lra.
Qed.

Lemma Qltb_spec x y : reflect (x < y) (Qltb x y).
Proof. apply iff_reflect. symmetry. apply Qltb_true. Qed.

Lemma Qle_bool_spec x y : reflect (x <= y) (Qle_bool x y).
Proof. apply iff_reflect. symmetry. apply Qle_bool_iff. Qed.

Lemma Qeq_bool_spec x y : reflect (x == y) (Qeq_bool x y).
Proof. apply iff_reflect. symmetry. apply Qeq_bool_iff. Qed.

(** Case split on every boolean comparison of rationals in the goal, innermost first. *)
Ltac noif a := lazymatch a with context [if _ then _ else _] => fail | _ => idtac end.
Ltac qcases :=
  repeat match goal with
  | |- context [Qltb ?a ?b] => noif a; noif b; destruct (Qltb_spec a b)
  | |- context [Qle_bool ?a ?b] => noif a; noif b; destruct (Qle_bool_spec a b)
  | |- context [Qeq_bool ?a ?b] => noif a; noif b; destruct (Qeq_bool_spec a b)
  end.

Lemma clip1_range x lo hi : lo <= hi -> lo <= clip1 x lo hi <= hi.
Proof. intros H. unfold clip1, qmin, qmax. qcases; lra. Qed.

Lemma clip1_id x lo hi : lo <= x <= hi -> clip1 x lo hi == x.
Proof. intros H. unfold clip1, qmin, qmax. qcases; lra. Qed.

Lemma Qsum_app l m : Qsum (l ++ m) == Qsum l + Qsum m.
Proof. induction l; simpl; lra. Qed.

Lemma Qsum_nonneg l : Forall (fun x => 0 <= x) l -> 0 <= Qsum l.
Proof. induction 1; simpl; lra. Qed.

Lemma Qsum_scale c l : Qsum (map (fun x => c * x) l) == c * Qsum l.
Proof. induction l; simpl; try rewrite IHl; lra. Qed.

Lemma Qnat_S n : Qnat (S n) == Qnat n + 1.
Proof. unfold Qnat. rewrite Nat2Z.inj_succ, <- Z.add_1_r, inject_Z_plus. reflexivity. Qed.

Lemma Qnat_0 : Qnat 0 == 0.
Proof. reflexivity. Qed.

Lemma Qnat_nonneg n : 0 <= Qnat n.
Proof. induction n. - rewrite Qnat_0; lra. - rewrite Qnat_S; lra. Qed.

Lemma Qnat_pos n : (0 < n)%nat -> 0 < Qnat n.
Proof. destruct n; [lia|]. intros _. rewrite Qnat_S. pose proof (Qnat_nonneg n). lra. Qed.

Lemma Qnat_le a b : (a <= b)%nat -> Qnat a <= Qnat b.
Proof. intros H. unfold Qnat. rewrite <- Zle_Qle. lia. Qed.

Lemma Qnat_inj_lt a b : (a < b)%nat -> Qnat a < Qnat b.
Proof. intros H. unfold Qnat. rewrite <- Zlt_Qlt. lia. Qed.

Lemma Qnat_add a b : Qnat (a + b) == Qnat a + Qnat b.
Proof. unfold Qnat. rewrite Nat2Z.inj_add, inject_Z_plus. reflexivity. Qed.

Lemma Qnat_mul a b : Qnat (a * b) == Qnat a * Qnat b.
Proof. unfold Qnat. rewrite Nat2Z.inj_mul, inject_Z_mult. reflexivity. Qed.

Lemma Qsum_repeat x n : Qsum (repeat x n) == Qnat n * x.
Proof. induction n; simpl. - rewrite Qnat_0; lra. - rewrite IHn, Qnat_S; lra. Qed.

Lemma map2_length {A B C} (f : A -> B -> C) l m :
  length l = length m -> length (map2 f l m) = length l.
Proof. revert m; induction l; destruct m; simpl; intros; try discriminate; auto. Qed.

Lemma vclip_length x lo hi :
  length lo = length x -> length hi = length x -> length (vclip x lo hi) = length x.
Proof.
  revert lo hi; induction x; destruct lo, hi; simpl; intros; try discriminate; auto.
Qed.

Lemma upd_length {A} (l : list A) i a : length (upd l i a) = length l.
Proof. revert i; induction l; destruct i; simpl; auto. Qed.

Lemma upd_nth_eq {A} (l : list A) i a d : (i < length l)%nat -> nth i (upd l i a) d = a.
Proof. revert i; induction l; destruct i; simpl; intros; try lia; auto. apply IHl; lia. Qed.

Lemma upd_nth_neq {A} (l : list A) i j a d : i <> j -> nth j (upd l i a) d = nth j l d.
Proof. revert i j; induction l; destruct i, j; simpl; intros; try congruence; auto. Qed.

Lemma upd_nth_error_eq {A} (l : list A) i a : (i < length l)%nat -> nth_error (upd l i a) i = Some a.
Proof. revert i; induction l; destruct i; simpl; intros; try lia; auto. apply IHl; lia. Qed.

Lemma upd_nth_error_neq {A} (l : list A) i j a : i <> j -> nth_error (upd l i a) j = nth_error l j.
Proof. revert i j; induction l; destruct i, j; simpl; intros; try congruence; auto. Qed.

Lemma argmin_from_spec l best besti i :
  (besti < i)%nat ->
  forall pre, length pre = i -> nth besti pre 0 = best ->
  (forall j, (j < i)%nat -> best <= nth j pre 0) ->
  let k := argmin_from l best besti i in
  (k < i + length l)%nat /\ (forall j, (j < i + length l)%nat -> nth k (pre ++ l) 0 <= nth j (pre ++ l) 0).
Proof.
  revert best besti i; induction l as [|x l IH]; intros best besti i Hb pre Hl Hn Hm; cbn [argmin_from length].
  - rewrite app_nil_r, Nat.add_0_r. split; auto. intros j Hj. rewrite Hn. auto.
  - replace (pre ++ x :: l) with ((pre ++ [x]) ++ l) by (rewrite <- app_assoc; reflexivity).
    replace (i + S (length l))%nat with (S i + length l)%nat by lia.
    destruct (Qltb_spec x best); apply IH; auto.
    + rewrite app_length, Hl; simpl; lia.
    + rewrite app_nth2, Hl, Nat.sub_diag by lia. reflexivity.
    + intros j Hj. destruct (Nat.eq_dec j i) as [->|].
      * rewrite app_nth2, Hl, Nat.sub_diag by lia. simpl; lra.
      * rewrite app_nth1 by lia. specialize (Hm j ltac:(lia)). lra.
    + rewrite app_length, Hl; simpl; lia.
    + rewrite app_nth1 by lia. auto.
    + intros j Hj. destruct (Nat.eq_dec j i) as [->|].
      * rewrite app_nth2, Hl, Nat.sub_diag by lia. simpl; lra.
      * rewrite app_nth1 by lia. apply Hm; lia.
Qed.

Lemma argminQ_lt l : l <> [] -> (argminQ l < length l)%nat.
Proof.
  destruct l as [|x l]; [congruence|]. intros _. unfold argminQ.
  destruct (argmin_from_spec l x 0 1 ltac:(lia) [x] eq_refl eq_refl) as [H _]; auto.
  intros j Hj. assert (j = 0)%nat as -> by lia. simpl; lra.
Qed.

Lemma argminQ_min l j : (j < length l)%nat -> nth (argminQ l) l 0 <= nth j l 0.
Proof.
  destruct l as [|x l]; simpl length; [lia|]. intros Hj. unfold argminQ.
  destruct (argmin_from_spec l x 0 1 ltac:(lia) [x] eq_refl eq_refl) as [_ H].
  - intros k Hk. assert (k = 0)%nat as -> by lia. simpl; lra.
  - apply (H j). simpl; lia.
Qed.
