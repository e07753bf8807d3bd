(** Arithmetic of floats under a positive factor. *)
From Coq Require Import List Bool Arith Lia QArith Lqa.
Import ListNotations.
From Verif Require Import Prelude.Py Prelude.QBase Prelude.QFacts Model.Base Model.Mixture Model.Population Model.Tree Spec.ScaleSpec.
Open Scope Q_scope.

Lemma Qltb_scale c a b a' b' : 0 < c -> a' == c * a -> b' == c * b -> Qltb a' b' = Qltb a b.
Proof.
  intros C A B. destruct (Qltb_spec a b) as [H|H].
  - apply Qltb_true. rewrite A, B. apply Qmult_lt_l; auto.
  - apply Qltb_false. apply Qnot_lt_le in H. rewrite A, B. apply Qmult_le_l; auto.
Qed.
Lemma Qle_bool_scale c a b a' b' : 0 < c -> a' == c * a -> b' == c * b -> Qle_bool a' b' = Qle_bool a b.
Proof.
  intros C A B. pose proof (Qltb_scale c b a b' a' C B A) as H. unfold Qltb in H. destruct (Qle_bool a' b'), (Qle_bool a b); auto; discriminate.
Qed.
Lemma Qltb_eq a b a' b' : a' == a -> b' == b -> Qltb a' b' = Qltb a b.
Proof. intros A B. apply (Qltb_scale 1); [reflexivity|rewrite A; ring|rewrite B; ring]. Qed.
Lemma Qeq_bool_scale c a a' : 0 < c -> a' == c * a -> Qeq_bool a' 0 = Qeq_bool a 0.
Proof.
  intros C A. destruct (Qeq_bool_spec a 0) as [H|H].
  - apply Qeq_eq_bool. rewrite A, H. ring.
  - apply not_true_is_false. intros E. apply Qeq_bool_eq in E. apply H. rewrite A in E.
    destruct (Qmult_integral _ _ E) as [Z|Z]; auto. rewrite Z in C. discriminate.
Qed.

Lemma times_refl x : times 1 x x.
Proof. destruct x; simpl; auto. ring. Qed.
Lemma times_sym x y : times 1 x y -> times 1 y x.
Proof. destruct x, y; simpl; auto. intros E. rewrite E. ring. Qed.
Lemma times_trans k m x y z : times k x y -> times m y z -> times (m * k) x z.
Proof. destruct x, y, z; simpl; try tauto. intros E F. rewrite F, E. ring. Qed.
Lemma times_k k m x y : k == m -> times k x y -> times m x y.
Proof. intros E. destruct x, y; simpl; auto. now rewrite E. Qed.
Lemma times_zero k x y : times k x y -> x = Fin 0 -> times 1 x y.
Proof. intros T E. subst x. destruct y; simpl in *; auto. rewrite T. ring. Qed.

Section Factor.
Variable k : Q.
Hypothesis K : 0 < k.

Lemma times_add a a' b b' : times k a a' -> times k b b' -> times k (faddQ a b) (faddQ a' b').
Proof. destruct a, a', b, b'; simpl; try tauto. intros A B. rewrite A, B. ring. Qed.
Lemma times_sum l l' : Forall2 (times k) l l' -> times k (fsumQ l) (fsumQ l').
Proof. induction 1; cbn [fsumQ]; [simpl; ring|]. apply times_add; auto. Qed.
Lemma times_opp a a' : times k a a' -> times k (foppQ a) (foppQ a').
Proof. destruct a, a'; simpl; try tauto. intros A. rewrite A. ring. Qed.

Lemma times_fdivQ m a a' b b' : 0 < m -> a' == k * a -> b' == m * b -> times (k / m) (fdivQ a b) (fdivQ a' b').
Proof.
  intros M A B. unfold fdivQ. rewrite (Qeq_bool_scale m b b' M B), (Qeq_bool_scale k a a' K A).
  rewrite (Qltb_scale k 0 a 0 a' K) by (auto; ring).
  destruct (Qeq_bool_spec b 0) as [Z|Z]; [destruct (Qeq_bool a 0); [exact I|destruct (Qltb 0 a); exact I]|].
  cbn [times]. rewrite A, B. field. split; auto. intros E. rewrite E in M. discriminate.
Qed.
Lemma times_div m a a' b b' : 0 < m -> times k a a' -> times m b b' -> times (k / m) (fdivflQ a b) (fdivflQ a' b').
Proof.
  intros M A B. destruct a, a'; simpl in A; try tauto; destruct b, b'; simpl in B; try tauto; cbn [fdivflQ]; try exact I.
  - apply times_fdivQ; auto.
  - simpl. ring.
  - simpl. ring.
  - rewrite (Qltb_scale m a 0 a0 0 M) by (auto; ring). destruct (Qltb a 0); exact I.
  - rewrite (Qltb_scale m a 0 a0 0 M) by (auto; ring). destruct (Qltb a 0); exact I.
Qed.
Lemma times_gt x x' u u' : times k x x' -> u' == k * u -> fgtQ x' u' = fgtQ x u.
Proof. destruct x, x'; simpl; try tauto. intros A U. apply (Qltb_scale k); auto. Qed.
Lemma times_gt0 x x' : times k x x' -> fgtQ x' 0 = fgtQ x 0.
Proof. intros T. eapply times_gt; eauto. ring. Qed.
Lemma times_lt x x' y y' : times k x x' -> times k y y' -> fltQ x' y' = fltQ x y.
Proof. destruct x, x', y, y'; simpl; try tauto. intros A B. apply (Qltb_scale k); auto. Qed.
Lemma times_fin x x' : times k x x' -> is_fin x' = is_fin x.
Proof. destruct x, x'; simpl; tauto. Qed.
Lemma times_bad x x' : times k x x' -> bad_weight x' = bad_weight x.
Proof. destruct x, x'; simpl; try tauto. intros A. apply (Qle_bool_scale k); auto. ring. Qed.
Lemma times_nonpos x x' : times k x x' -> fnonpos x' = fnonpos x.
Proof. destruct x, x'; simpl; try tauto. intros A. apply (Qle_bool_scale k); auto. ring. Qed.
Lemma times_mul m x x' y y' : 0 < m -> times k x x' -> times m y y' -> times (k * m) (fmulQ x y) (fmulQ x' y').
Proof.
  intros M A B. destruct x, x'; simpl in A; try tauto; destruct y, y'; simpl in B; try tauto; cbn [fmulQ]; try exact I.
  - cbn [times]. rewrite A, B. ring.
  - rewrite (Qeq_bool_scale k a a0 K A), (Qltb_scale k 0 a 0 a0 K) by (auto; ring). destruct (Qeq_bool a 0), (Qltb 0 a); exact I.
  - rewrite (Qeq_bool_scale k a a0 K A), (Qltb_scale k 0 a 0 a0 K) by (auto; ring). destruct (Qeq_bool a 0), (Qltb 0 a); exact I.
  - rewrite (Qeq_bool_scale m a a0 M B), (Qltb_scale m 0 a 0 a0 M) by (auto; ring). destruct (Qeq_bool a 0), (Qltb 0 a); exact I.
  - rewrite (Qeq_bool_scale m a a0 M B), (Qltb_scale m 0 a 0 a0 M) by (auto; ring). destruct (Qeq_bool a 0), (Qltb 0 a); exact I.
Qed.

Lemma map_times {A B} (R : A -> B -> Prop) f g l l' : (forall a b, R a b -> times k (f a) (g b)) -> Forall2 R l l' -> Forall2 (times k) (map f l) (map g l').
Proof. intros H. induction 1; simpl; constructor; auto. Qed.
Lemma all_fin l l' : Forall2 (times k) l l' -> forallb is_fin l' = forallb is_fin l.
Proof. induction 1; simpl; auto. rewrite (times_fin _ _ H). now rewrite IHForall2. Qed.
Lemma normalise_same l l' : Forall2 (times k) l l' -> same_weights (normalise l) (normalise l').
Proof.
  intros F. unfold normalise. pose proof (times_sum _ _ F) as S. revert S. generalize (fsumQ l) (fsumQ l'). intros a b S. induction F; simpl; constructor; auto.
  apply times_k with (k / k); [field; intros E; rewrite E in K; discriminate|]. apply times_div; auto.
Qed.
End Factor.

Lemma same_fin_val x y : times 1 x y -> fin_val y == fin_val x.
Proof. destruct x, y; simpl; try tauto; try reflexivity. intros E. rewrite E. ring. Qed.
Lemma multinomial_eq ws ws' u : Forall2 Qeq ws ws' -> forall l l' j, l == l' -> multinomial1 ws' l' u j = multinomial1 ws l u j.
Proof.
  induction 1 as [|p q ws ws' E F IH]; intros l l' j L; auto. destruct F as [|p' q' ws ws' E' F]; auto.
  change (multinomial1 (q :: q' :: ws') l' u j) with (if Qltb (u j) (q / l') then j else multinomial1 (q' :: ws') (l' - q) u (S j)).
  change (multinomial1 (p :: p' :: ws) l u j) with (if Qltb (u j) (p / l) then j else multinomial1 (p' :: ws) (l - p) u (S j)).
  rewrite (Qltb_eq (u j) (p / l) (u j) (q / l')) by (try reflexivity; now rewrite E, L).
  destruct (Qltb (u j) (p / l)); auto. apply IH. now rewrite E, L.
Qed.
Lemma argmin_scale c l l' : 0 < c -> Forall2 (fun a b => b == c * a) l l' -> forall best best' bi i, best' == c * best -> argmin_from l' best' bi i = argmin_from l best bi i.
Proof.
  intros C. induction 1 as [|a b l l' E F IH]; intros best best' bi i B; simpl; auto.
  rewrite (Qltb_scale c a best b best' C E B). destruct (Qltb a best); auto.
Qed.
Lemma argminQ_scale c l l' : 0 < c -> Forall2 (fun a b => b == c * a) l l' -> argminQ l' = argminQ l.
Proof. intros C F. destruct F; simpl; auto. apply (argmin_scale c); auto. Qed.
Lemma nth_scale c l l' i : Forall2 (fun a b => b == c * a) l l' -> nth i l' 0 == c * nth i l 0.
Proof. intros F. revert i. induction F; intros [|i]; simpl; auto; ring. Qed.
Lemma upd_rel {A B} (R : A -> B -> Prop) l l' i a b : Forall2 R l l' -> R a b -> Forall2 R (upd l i a) (upd l' i b).
Proof. intros F. revert i. induction F; intros [|i] H'; simpl; auto. Qed.
Lemma map_rel {A B C D} (R : A -> B -> Prop) (R' : C -> D -> Prop) f g l l' : (forall a b, R a b -> R' (f a) (g b)) -> Forall2 R l l' -> Forall2 R' (map f l) (map g l').
Proof. intros H. induction 1; simpl; constructor; auto. Qed.
Lemma map_same {A C D} (R' : C -> D -> Prop) (f : A -> C) (g : A -> D) l : (forall a, R' (f a) (g a)) -> Forall2 R' (map f l) (map g l).
Proof. intros H. induction l; simpl; constructor; auto. Qed.
Lemma app_rel {A B} (R : A -> B -> Prop) l l' m m' : Forall2 R l l' -> Forall2 R m m' -> Forall2 R (l ++ m) (l' ++ m').
Proof. induction 1; simpl; auto. Qed.

Lemma rel_length {A B} (R : A -> B -> Prop) l l' : Forall2 R l l' -> length l = length l'.
Proof. induction 1; simpl; auto. Qed.

(** Outcomes of the same kind whose states are related. *)
Definition outs {S : Type} (R : S -> S -> Prop) (o o' : outcome S) : Prop :=
  match o, o' with Done s, Done s' => R s s' | Running s, Running s' => R s s' | Failed e s, Failed e' s' => e = e' /\ R s s' | _, _ => False end.
