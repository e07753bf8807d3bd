(** Mean weights of leaves and bounds of the target on them. *)
From Coq Require Import List Bool Arith Lia QArith Lqa.
Import ListNotations.
From Verif Require Import Prelude.Py Prelude.QBase Prelude.QFacts Model.Uniform Model.HiDaisee Spec.UniformSpec Spec.SplitSpec
  Proofs.UniformProofs Proofs.HiDaiseeBox Proofs.HiDaiseeProofs Proofs.HiDaiseeHistory Proofs.HiDaiseeDensity.
Open Scope Q_scope.

(** The tree after a call that returned. *)
Lemma call_tree P ops s pi n rds s' : corners (hp_lo P) (hp_hi P) -> hd_reachable P ops s -> dims_ok (length (hp_lo P)) ops ->
  dim_ok (length (hp_lo P)) rds -> hd_call P pi n rds s = Done s' ->
  hinv (length (hp_lo P)) (hp_lo P, hp_hi P) (fun f => f = pi \/ called_with ops f) (hs_tree s') /\ hs_samples s' = hd_rows (hs_tree s').
Proof.
  intros C R D Hd E. pose proof (reach_inv P C ops s R D) as I.
  set (pis := fun f => f = pi \/ called_with ops f).
  assert (I0 : hinv (length (hp_lo P)) (hp_lo P, hp_hi P) pis (hs_tree s)) by (eapply hinv_weaken; [|exact I]; intros f Hf; right; exact Hf).
  unfold hd_call in E.
  destruct (turns_spec P pi rds pis (or_introl eq_refl) Hd (n - length (hs_samples s)) (length (hs_samples s)) s I0) as [(s1 & xs & E1 & I1 & _)|(e & s1 & xs & E1 & _)]; rewrite E1 in E; [|discriminate].
  injection E as <-. split; auto.
Qed.

Section Mean.
Context {X : Type}.
Definition wsum (l : list (X * Q)) : Q := fold_right (fun xw v => snd xw + v) 0 l.
Lemma wsum_low a l : (forall x w, In (x, w) l -> a <= w) -> a * Qnat (length l) <= wsum l.
Proof.
  induction l as [|(x, w) l IH]; intros H; simpl; [unfold Qnat, inject_Z; simpl; unfold wsum; simpl; lra|].
  pose proof (H x w (or_introl eq_refl)). specialize (IH ltac:(intros; eapply H; right; eauto)).
  assert (E : Qnat (S (length l)) == Qnat (length l) + 1) by (unfold Qnat; rewrite Nat2Z.inj_succ; unfold Z.succ; rewrite inject_Z_plus; reflexivity).
  rewrite E. simpl. lra.
Qed.
Lemma wsum_high a l : (forall x w, In (x, w) l -> w <= a) -> wsum l <= a * Qnat (length l).
Proof.
  induction l as [|(x, w) l IH]; intros H; simpl; [unfold Qnat, inject_Z; simpl; unfold wsum; simpl; lra|].
  pose proof (H x w (or_introl eq_refl)). specialize (IH ltac:(intros; eapply H; right; eauto)).
  assert (E : Qnat (S (length l)) == Qnat (length l) + 1) by (unfold Qnat; rewrite Nat2Z.inj_succ; unfold Z.succ; rewrite inject_Z_plus; reflexivity).
  rewrite E. simpl. lra.
Qed.
Lemma mean_bounds a b l : l <> [] -> (forall x w, In (x, w) l -> a <= w <= b) -> a <= wsum l / Qnat (length l) <= b.
Proof.
  intros N H. assert (P : 0 < Qnat (length l)) by (apply Qnat_pos; destruct l; [congruence|simpl; lia]).
  pose proof (wsum_low a l ltac:(intros; eapply H; eauto)). pose proof (wsum_high b l ltac:(intros; eapply H; eauto)).
  split; [apply Qle_shift_div_l|apply Qle_shift_div_r]; auto.
Qed.
End Mean.

Lemma sum_over_le {I} (f g : I -> Q) l : (forall i, In i l -> f i <= g i) -> sum_over f l <= sum_over g l.
Proof.
  induction l as [|i l IH]; intros H; simpl; [lra|]. pose proof (H i (or_introl eq_refl)). specialize (IH ltac:(intros; apply H; right; auto)).
  unfold sum_over in *. lra.
Qed.
Lemma sum_over_scal {I} c (f : I -> Q) l : sum_over (fun i => c * f i) l == c * sum_over f l.
Proof. induction l as [|i l IH]; simpl; [ring|]. unfold sum_over in *. rewrite IH. ring. Qed.
Lemma sum_over_pos {I} (f : I -> Q) l : 0 < sum_over f l -> exists i, In i l /\ 0 < f i.
Proof.
  induction l as [|i l IH]; unfold sum_over in *; simpl; intros H; [lra|]. destruct (Qlt_le_dec 0 (f i)); [exists i; split; [left|]; auto|].
  destruct IH as (j & Hj & Hp); [lra|]. exists j. split; [right|]; auto.
Qed.
Lemma wsum_pos {X} (l : list (X * Q)) : 0 < wsum l -> exists x w, In (x, w) l /\ 0 < w.
Proof.
  induction l as [|(x, w) l IH]; unfold wsum in *; simpl; intros H; [lra|]. destruct (Qlt_le_dec 0 w); [exists x, w; split; [left|]; auto|].
  destruct IH as (y & v & Hy & Hp); [lra|]. exists y, v. split; [right|]; auto.
Qed.
Lemma wsum_app {X} (a b : list (X * Q)) : wsum (a ++ b) == wsum a + wsum b.
Proof. unfold wsum. induction a as [|x a IH]; simpl; [ring|]. rewrite IH. ring. Qed.
Lemma wsum_flat {X} (f : nat -> list (X * Q)) l : wsum (flat_map f l) == sum_over (fun i => wsum (f i)) l.
Proof. unfold sum_over. induction l as [|i l IH]; simpl; [reflexivity|]. rewrite wsum_app, IH. reflexivity. Qed.
Lemma part_length {X} (f : nat -> list X) l i : In i l -> (length (f i) <= length (flat_map f l))%nat.
Proof. induction l as [|j l IH]; simpl; [tauto|]. rewrite app_length. intros [->|H]; [lia|]. specialize (IH H). lia. Qed.
Lemma part_length2 {X} (f : nat -> list X) l i j : In i l -> In j l -> i <> j -> f j <> [] -> (length (f i) < length (flat_map f l))%nat.
Proof.
  intros Hi Hj N E. assert (0 < length (f j))%nat by (destruct (f j); [congruence|simpl; lia]).
  induction l as [|k l IH]; simpl; [destruct Hi|]. rewrite app_length. destruct Hi as [->|Hi], Hj as [->|Hj]; [congruence| | |].
  - pose proof (part_length f l j Hj). lia.
  - pose proof (part_length f l i Hi). lia.
  - specialize (IH Hi Hj). lia.
Qed.
Lemma sum_over_lt {I} (f g : I -> Q) l i : (forall j, In j l -> f j <= g j) -> In i l -> f i < g i -> sum_over f l < sum_over g l.
Proof.
  unfold sum_over. induction l as [|j l IH]; simpl; intros H Hi Lt; [destruct Hi|]. pose proof (H j (or_introl eq_refl)).
  pose proof (sum_over_le f g l ltac:(intros; apply H; auto)) as G. unfold sum_over in G.
  destruct Hi as [->|Hi]; [lra|]. specialize (IH ltac:(intros; apply H; auto) Hi Lt). lra.
Qed.
Lemma inside_length b x : inside b x -> length x = length (fst b).
Proof. intros H. destruct (half_open_length _ _ _ H) as (L & L'). congruence. Qed.
Lemma inside_by b x : length (fst b) = length (snd b) -> length x = length (fst b) -> inlier (fst b) (snd b) x = true -> inside b x.
Proof. intros H1 H2 H3. apply inlier_half_open; auto. Qed.
(** A mean over everything is below the sum of the means of the parts, when two parts count. *)
Lemma mean_below_sum {X} (f : nat -> list (X * Q)) l i j : (forall k x w, In k l -> In (x, w) (f k) -> 0 <= w) ->
  In i l -> In j l -> i <> j -> 0 < wsum (f i) -> f j <> [] ->
  wsum (flat_map f l) / Qnat (length (flat_map f l)) < sum_over (fun k => wsum (f k) / Qnat (length (f k))) l.
Proof.
  intros Nn Hi Hj N Pi Ej. set (T := Qnat (length (flat_map f l))).
  assert (NZ : forall k, In k l -> 0 <= wsum (f k)).
  { intros k Hk. pose proof (wsum_low 0 (f k) ltac:(intros; eapply Nn; eauto)). lra. }
  assert (Tp : 0 < T). { apply Qnat_pos. pose proof (part_length2 f l i j Hi Hj N Ej). lia. }
  assert (Each : forall k, In k l -> wsum (f k) <= T * (wsum (f k) / Qnat (length (f k)))).
  { intros k Hk. destruct (f k) as [|r rs] eqn:E; [unfold wsum; simpl; unfold Qdiv; ring_simplify; lra|]. rewrite <- E.
    assert (0 < Qnat (length (f k))) by (apply Qnat_pos; rewrite E; simpl; lia).
    assert (G : Qnat (length (f k)) <= T) by (apply Qnat_le, part_length; auto).
    setoid_replace (wsum (f k)) with (Qnat (length (f k)) * (wsum (f k) / Qnat (length (f k)))) at 1 by (field; lra).
    assert (0 <= wsum (f k) / Qnat (length (f k))) by (apply Qle_shift_div_l; auto; rewrite Qmult_0_l; auto). nra. }
  assert (Strict : wsum (f i) < T * (wsum (f i) / Qnat (length (f i)))).
  { assert (f i <> []) by (intros Z; rewrite Z in Pi; unfold wsum in Pi; simpl in Pi; lra).
    assert (0 < Qnat (length (f i))) by (apply Qnat_pos; destruct (f i); [congruence|simpl; lia]).
    assert (G : Qnat (length (f i)) < T) by (apply Qnat_inj_lt, (part_length2 f l i j); auto).
    setoid_replace (wsum (f i)) with (Qnat (length (f i)) * (wsum (f i) / Qnat (length (f i)))) at 1 by (field; lra).
    assert (0 < wsum (f i) / Qnat (length (f i))) by (apply Qlt_shift_div_l; auto; rewrite Qmult_0_l; auto). nra. }
  apply Qlt_shift_div_r; auto. rewrite wsum_flat, Qmult_comm, <- sum_over_scal. apply (sum_over_lt _ _ l i); [exact Each|exact Hi|exact Strict].
Qed.
