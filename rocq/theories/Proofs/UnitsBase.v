(** Vectors, boxes and models in other coordinates. *)
From Coq Require Import List Bool Arith Lia ZArith QArith Qpower Lqa.
Import ListNotations.
From Verif Require Import Prelude.Py Prelude.QBase Prelude.QFacts Model.Base Model.Population Model.Nested Spec.ScaleSpec Spec.UnitsSpec Proofs.ScaleBase.
Open Scope Q_scope.

Lemma power_pos a n : 0 < a -> 0 < a ^ Z.of_nat n.
Proof.
  intros A. induction n as [|n IH]; [reflexivity|]. rewrite Nat2Z.inj_succ, <- Z.add_1_r. rewrite Qpower_plus by (intros E; rewrite E in A; discriminate).
  assert (E : a ^ 1 == a) by (simpl; ring). rewrite E. now apply Qmult_lt_0_compat.
Qed.
Lemma redensity_const a b pi pi' : 0 < a -> redensity a b pi pi' -> exists c, 0 < c /\ forall x y, recoord a b x y -> pi' y == c * pi x.
Proof.
  intros A H. pose proof (power_pos a (length b) A) as P. exists (/ a ^ Z.of_nat (length b)). split; [now apply Qinv_lt_0_compat|].
  intros x y E. rewrite <- (H x y E). field. intros Z. rewrite Z in P. discriminate.
Qed.
(** The constant depends on the units only. *)
Lemma redensity_inv a b : 0 < a -> exists c, 0 < c /\ forall pi pi', redensity a b pi pi' -> forall x y, recoord a b x y -> pi' y == c * pi x.
Proof.
  intros A. pose proof (power_pos a (length b) A) as P. exists (/ a ^ Z.of_nat (length b)). split; [now apply Qinv_lt_0_compat|].
  intros pi pi' H x y E. rewrite <- (H x y E). field. intros Z. rewrite Z in P. discriminate.
Qed.

Section Vec.
Variables (a : Q).
Hypothesis A : 0 < a.
Lemma recoord_length b : forall x y, recoord a b x y -> length x = length b /\ length y = length b.
Proof. induction b as [|b0 b IH]; intros [|x0 x] [|y0 y]; simpl; try tauto. intros (_ & H). apply IH in H. lia. Qed.
Lemma recoord_add b : forall x y d e, recoord a b x y -> stretch a (length b) d e -> recoord a b (vadd x d) (vadd y e).
Proof.
  induction b as [|b0 b IH]; intros [|x0 x] [|y0 y] d e; simpl; try tauto. intros (E & H) (L & F). destruct F as [|d0 e0 d e E2 F]; [discriminate|]. simpl in *.
  split; [rewrite E, E2; ring|]. apply IH; auto. split; auto.
Qed.
Lemma recoord_add2 b : forall x y d e, recoord a b x y -> stretch a (length b) d e -> recoord a b (vadd d x) (vadd e y).
Proof.
  induction b as [|b0 b IH]; intros [|x0 x] [|y0 y] d e; simpl; try tauto; intros H (L & F).
  - destruct F; [exact I|discriminate].
  - destruct H as (E & H). destruct F as [|d0 e0 d e E2 F]; [discriminate|]. simpl in *.
  split; [rewrite E, E2; ring|]. apply IH; auto. split; auto.
Qed.
Lemma recoord_sub b : forall x y x' y', recoord a b x y -> recoord a b x' y' -> stretch a (length b) (vsub x x') (vsub y y').
Proof.
  induction b as [|b0 b IH]; intros [|x0 x] [|y0 y] [|x0' x'] [|y0' y']; simpl; try tauto; [repeat split; constructor|].
  intros (E & H) (E' & H'). destruct (IH _ _ _ _ H H') as (L & F). split; [simpl; unfold vsub in L; lia|]. constructor; [rewrite E, E'; ring|exact F].
Qed.
Lemma Qle_bool_affine b0 x x' y y' : y == a * x + b0 -> y' == a * x' + b0 -> Qle_bool y y' = Qle_bool x x'.
Proof.
  intros E E'. rewrite <- (Qle_bool_scale a x x' (a * x) (a * x')) by (auto; ring).
  destruct (Qle_bool (a * x) (a * x')) eqn:H.
  - apply Qle_bool_iff in H. apply Qle_bool_iff. rewrite E, E'. lra.
  - destruct (Qle_bool y y') eqn:G; auto. apply Qle_bool_iff in G. rewrite E, E' in G. assert (H' : a * x <= a * x') by lra. apply Qle_bool_iff in H'. congruence.
Qed.
Lemma recoord_clip b : forall x y lo lo' hi hi', recoord a b x y -> recoord a b lo lo' -> recoord a b hi hi' -> recoord a b (vclip x lo hi) (vclip y lo' hi').
Proof.
  induction b as [|b0 b IH]; intros [|x0 x] [|y0 y] [|l0 lo] [|l0' lo'] [|h0 hi] [|h0' hi']; simpl; try tauto. intros (E & H) (El & Hl) (Eh & Hh). split; [|now apply IH].
  unfold clip1, qmin, qmax. rewrite (Qle_bool_affine b0 x0 l0 y0 l0' E El). destruct (Qle_bool x0 l0).
  - rewrite (Qle_bool_affine b0 l0 h0 l0' h0' El Eh). destruct (Qle_bool l0 h0); auto.
  - rewrite (Qle_bool_affine b0 x0 h0 y0 h0' E Eh). destruct (Qle_bool x0 h0); auto.
Qed.
Lemma recoord_uniform b : forall lo lo' hi hi' u, recoord a b lo lo' -> recoord a b hi hi' -> length u = length b -> recoord a b (uniform_draw lo hi u) (uniform_draw lo' hi' u).
Proof.
  intros lo lo' hi hi' u L H U. apply recoord_add; auto. pose proof (recoord_sub b _ _ _ _ H L) as (E & F). revert u U. rewrite <- E. clear E.
  induction F as [|d e ds es E F IH]; intros [|u0 u] U; try discriminate; [split; constructor|]. simpl in *. destruct (IH u ltac:(lia)) as (G1 & G2). split; [simpl; auto|].
  constructor; [rewrite E; ring|exact G2].
Qed.
Lemma recoord_scale_box b lo lo' hi hi' u : recoord a b lo lo' -> recoord a b hi hi' -> length u = length b -> recoord a b (scale_to_box lo hi u) (scale_to_box lo' hi' u).
Proof.
  intros L H U. apply recoord_add2; auto. pose proof (recoord_sub b _ _ _ _ H L) as (E & F). revert u U. rewrite <- E. clear E.
  induction F as [|d e ds es E F IH]; intros [|u0 u] U; try discriminate; [split; constructor|]. simpl in *. destruct (IH u ltac:(lia)) as (G1 & G2). split; [simpl; auto|].
  constructor; [rewrite E; ring|exact G2].
Qed.
Lemma recoords_length b (xs ys : list vec) : recoords a b xs ys -> length ys = length xs.
Proof. intros F. symmetry. eapply rel_length; exact F. Qed.
Lemma recoords_nth b (xs ys : list vec) i : recoords a b xs ys -> (i < length xs)%nat -> recoord a b (nth i xs []) (nth i ys []).
Proof. intros F. revert i. induction F; intros [|i] L; simpl in *; auto; try lia. apply IHF. lia. Qed.
Lemma recoords_draws b (f g : nat -> vec) l : (forall i, recoord a b (f i) (g i)) -> recoords a b (map f l) (map g l).
Proof. intros H. now apply map_same. Qed.
Lemma recoords_units b lo lo' hi hi' us : recoord a b lo lo' -> recoord a b hi hi' -> Forall (fun u => length u = length b) us ->
  recoords a b (map (uniform_draw lo hi) us) (map (uniform_draw lo' hi') us).
Proof. intros L H F. induction F; constructor; auto. now apply recoord_uniform. Qed.
Lemma recoords_units2 b lo lo' hi hi' us : recoord a b lo lo' -> recoord a b hi hi' -> Forall (fun u => length u = length b) us ->
  recoords a b (map (scale_to_box lo hi) us) (map (scale_to_box lo' hi') us).
Proof. intros L H F. induction F; constructor; auto. now apply recoord_scale_box. Qed.
(** The kernel density model is made of the same samples. *)
Lemma update_model_units b n pick (xs ys : list vec) : recoords a b xs ys ->
  match update_model n pick xs, update_model n pick ys with Ok m, Ok m' => recoords a b m m' | Raise e, Raise e' => e = e' | _, _ => False end.
Proof.
  intros F. unfold update_model. destruct n; auto. destruct xs as [|x xs], ys as [|y ys]; auto; try (inversion F; fail). 
  assert (L : @length vec (y :: ys) = @length vec (x :: xs)) by exact (recoords_length b _ _ F). apply recoords_draws. intros i. cbv beta. rewrite L. apply recoords_nth; auto. apply Nat.mod_upper_bound. discriminate.
Qed.
End Vec.
