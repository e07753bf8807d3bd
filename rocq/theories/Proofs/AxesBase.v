(** Vectors, boxes and models with the axes in another order. *)
From Coq Require Import List Bool Arith Lia ZArith QArith Lqa.
Import ListNotations.
From Verif Require Import Prelude.Py Prelude.QBase Prelude.QFacts Model.Base Model.Population Model.Nested Spec.ScaleSpec Spec.AxesSpec Proofs.ScaleBase.
Open Scope Q_scope.

Lemma map2_nth {A B C : Type} (f : A -> B -> C) a0 b0 c0 : f a0 b0 = c0 -> forall l m i, length l = length m -> nth i (map2 f l m) c0 = f (nth i l a0) (nth i m b0).
Proof. intros E. induction l as [|x l IH]; intros [|y m] [|i] L; simpl in *; try discriminate; auto. Qed.
Lemma map2_len {A B C : Type} (f : A -> B -> C) : forall l m, length l = length m -> length (map2 f l m) = length l.
Proof. induction l as [|x l IH]; intros [|y m] L; simpl in *; try discriminate; auto. Qed.
Lemma vclip_len : forall x lo hi, length x = length lo -> length x = length hi -> length (vclip x lo hi) = length x.
Proof. induction x as [|a x IH]; intros [|l lo] [|h hi] L H; simpl in *; try discriminate; auto. Qed.
Lemma vclip_nth : forall x lo hi i, length x = length lo -> length x = length hi -> nth i (vclip x lo hi) 0 = clip1 (nth i x 0) (nth i lo 0) (nth i hi 0).
Proof. induction x as [|a x IH]; intros [|l lo] [|h hi] [|i] L H; simpl in *; try discriminate; auto. Qed.
Lemma Qle_bool_eq x x' y y' : y == x -> y' == x' -> Qle_bool y y' = Qle_bool x x'.
Proof.
  intros E E'. destruct (Qle_bool x x') eqn:H.
  - apply Qle_bool_iff in H. apply Qle_bool_iff. now rewrite E, E'.
  - destruct (Qle_bool y y') eqn:G; auto. apply Qle_bool_iff in G. rewrite E, E' in G. apply Qle_bool_iff in G. congruence.
Qed.
Lemma clip1_eq x x' l l' h h' : x' == x -> l' == l -> h' == h -> clip1 x' l' h' == clip1 x l h.
Proof.
  intros E El Eh. unfold clip1, qmin, qmax. rewrite (Qle_bool_eq _ _ _ _ E El). destruct (Qle_bool x l).
  - rewrite (Qle_bool_eq _ _ _ _ El Eh). destruct (Qle_bool l h); auto.
  - rewrite (Qle_bool_eq _ _ _ _ E Eh). destruct (Qle_bool x h); auto.
Qed.

Section Vec.
Variables (dm : nat) (sg : list nat).
Notation R := (relabel dm sg).
Lemma relabel_map2 f x y d e : f 0 0 == 0 -> (forall u u' v v', u' == u -> v' == v -> f u' v' == f u v) -> f 0 0 = 0 -> R x y -> R d e -> R (map2 f x d) (map2 f y e).
Proof.
  intros _ Pf Z (L & F) (L' & F'). split; [rewrite map2_len; lia|]. assert (N : forall i, nth i (map2 f x d) 0 = f (nth i x 0) (nth i d 0)) by (intros i; apply map2_nth; auto; lia).
  clear L L'. revert e F'. induction F as [|i v l m E F IH]; intros e F'; inversion F' as [|? v' ? m' E' G]; subst; [constructor|]. constructor; [rewrite N; now apply Pf|]. now apply IH.
Qed.
Lemma relabel_add x y d e : R x y -> R d e -> R (vadd x d) (vadd y e).
Proof. apply relabel_map2; try reflexivity. intros u u' v v' E E'. now rewrite E, E'. Qed.
Lemma relabel_sub x y d e : R x y -> R d e -> R (vsub x d) (vsub y e).
Proof. apply relabel_map2; try reflexivity. intros u u' v v' E E'. now rewrite E, E'. Qed.
Lemma relabel_mul x y d e : R x y -> R d e -> R (map2 Qmult x d) (map2 Qmult y e).
Proof. apply relabel_map2; try reflexivity. intros u u' v v' E E'. now rewrite E, E'. Qed.
Lemma relabel_clip x y lo lo' hi hi' : R x y -> R lo lo' -> R hi hi' -> R (vclip x lo hi) (vclip y lo' hi').
Proof.
  intros (L & F) (Ll & Fl) (Lh & Fh). split; [rewrite vclip_len; lia|]. assert (N : forall i, nth i (vclip x lo hi) 0 = clip1 (nth i x 0) (nth i lo 0) (nth i hi 0)) by (intros i; apply vclip_nth; lia).
  clear L Ll Lh. revert lo' hi' Fl Fh. induction F as [|i v l m E F IH]; intros lo' hi' Fl Fh; inversion Fl as [|? vl ? ml El Gl]; inversion Fh as [|? vh ? mh Eh Gh]; subst; [constructor|].
  cbn [vclip]. constructor; [rewrite N; now apply clip1_eq|]. now apply IH.
Qed.
Lemma relabel_uniform lo lo' hi hi' u u' : R lo lo' -> R hi hi' -> R u u' -> R (uniform_draw lo hi u) (uniform_draw lo' hi' u').
Proof. intros L H U. unfold uniform_draw. repeat first [apply relabel_add|apply relabel_mul|apply relabel_sub]; auto. Qed.
Lemma relabel_scale_box lo lo' hi hi' u u' : R lo lo' -> R hi hi' -> R u u' -> R (scale_to_box lo hi u) (scale_to_box lo' hi' u').
Proof. intros L H U. unfold scale_to_box. repeat first [apply relabel_add|apply relabel_mul|apply relabel_sub]; auto. Qed.
Lemma relabels_length (xs ys : list vec) : relabels dm sg xs ys -> length ys = length xs.
Proof. intros F. symmetry. eapply rel_length; exact F. Qed.
Lemma relabels_nth (xs ys : list vec) i : relabels dm sg xs ys -> (i < length xs)%nat -> R (nth i xs []) (nth i ys []).
Proof. intros F. revert i. induction F; intros [|i] L; simpl in *; auto; try lia. apply IHF. lia. Qed.
Lemma relabels_draws (f g : nat -> vec) l : (forall i, R (f i) (g i)) -> relabels dm sg (map f l) (map g l).
Proof. intros H. now apply map_same. Qed.
Lemma relabels_units lo lo' hi hi' us us' : R lo lo' -> R hi hi' -> Forall2 R us us' -> relabels dm sg (map (uniform_draw lo hi) us) (map (uniform_draw lo' hi') us').
Proof. intros L H F. induction F; constructor; auto. now apply relabel_uniform. Qed.
Lemma relabels_units2 lo lo' hi hi' us us' : R lo lo' -> R hi hi' -> Forall2 R us us' -> relabels dm sg (map (scale_to_box lo hi) us) (map (scale_to_box lo' hi') us').
Proof. intros L H F. induction F; constructor; auto. now apply relabel_scale_box. Qed.
Lemma update_model_axes n pick (xs ys : list vec) : relabels dm sg xs ys ->
  match update_model n pick xs, update_model n pick ys with Ok m, Ok m' => relabels dm sg m m' | Raise e, Raise e' => e = e' | _, _ => False end.
Proof.
  intros F. unfold update_model. destruct n; auto. destruct xs as [|x xs], ys as [|y ys]; auto; try (inversion F; fail). 
  assert (L : @length vec (y :: ys) = @length vec (x :: xs)) by exact (relabels_length _ _ F). apply relabels_draws. intros i. cbv beta. rewrite L. apply relabels_nth; auto. apply Nat.mod_upper_bound. discriminate.
Qed.
End Vec.
