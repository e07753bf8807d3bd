(** Means and mean squares over independent draws. *)
From Coq Require Import List Bool Arith Lia Reals Lra.
Import ListNotations.
From Verif Require Import Spec.DivergenceSpec Spec.DrawMeanSpec.
Open Scope R_scope.

Lemma total_ext {X} (f g : X -> R) l : (forall x, In x l -> f x = g x) -> total (map f l) = total (map g l).
Proof. induction l; simpl; intros H; auto. rewrite H, IHl; auto. Qed.
Lemma total_plus {X} (f g : X -> R) l : total (map (fun x => f x + g x) l) = total (map f l) + total (map g l).
Proof. induction l; simpl; [ring|]. rewrite IHl. ring. Qed.
Lemma total_scale {X} k (f : X -> R) l : total (map (fun x => k * f x) l) = k * total (map f l).
Proof. induction l; simpl; [ring|]. rewrite IHl. ring. Qed.
Lemma total_const {X} k (l : list X) : total (map (fun _ => k) l) = INR (length l) * k.
Proof. induction l as [|a l IH]; [simpl; ring|]. cbn [map length total fold_right]. fold (total (map (fun _ : X => k) l)). rewrite IH, S_INR. ring. Qed.
Lemma total_le {X} (f g : X -> R) l : (forall x, In x l -> f x <= g x) -> total (map f l) <= total (map g l).
Proof. induction l as [|a l IH]; simpl; intros H; [lra|]. pose proof (H a (or_introl eq_refl)). specialize (IH (fun x I => H x (or_intror I))). lra. Qed.

Section Over.
Context {X : Type}.
Variable pts : list X.
Hypothesis Ne : pts <> [].
Lemma len_pos : 0 < INR (length pts).
Proof. apply lt_0_INR. destruct pts; [congruence|simpl; lia]. Qed.
Lemma over_ext f g : (forall x, In x pts -> f x = g x) -> mean_over pts f = mean_over pts g.
Proof. intros H. unfold mean_over. now rewrite (total_ext f g). Qed.
Lemma over_plus f g : mean_over pts (fun x => f x + g x) = mean_over pts f + mean_over pts g.
Proof. unfold mean_over. rewrite total_plus. unfold Rdiv. ring. Qed.
Lemma over_scal k f : mean_over pts (fun x => k * f x) = k * mean_over pts f.
Proof. unfold mean_over. rewrite total_scale. unfold Rdiv. ring. Qed.
Lemma over_const k : mean_over pts (fun _ => k) = k.
Proof. pose proof len_pos. unfold mean_over. rewrite total_const. field. lra. Qed.
Lemma over_le f g : (forall x, In x pts -> f x <= g x) -> mean_over pts f <= mean_over pts g.
Proof. intros H. pose proof len_pos. unfold mean_over. apply Rmult_le_compat_r; [left; now apply Rinv_0_lt_compat|now apply total_le]. Qed.
Lemma over_bounds lo hi f : (forall x, In x pts -> lo <= f x <= hi) -> lo <= mean_over pts f <= hi.
Proof. intros H. split; [rewrite <- (over_const lo)|rewrite <- (over_const hi)]; apply over_le; intros x I; apply H, I. Qed.

Lemma draws_ext n : forall f g, (forall xs, length xs = n -> (forall x, In x xs -> In x pts) -> f xs = g xs) -> mean_draws pts n f = mean_draws pts n g.
Proof.
  induction n as [|n IH]; intros f g H; simpl; [apply H; [reflexivity|intros x []]|].
  apply over_ext. intros x I. apply IH. intros xs L M. apply H; [simpl; auto|]. intros y [<-|J]; auto.
Qed.
Lemma draws_plus n : forall f g, mean_draws pts n (fun xs => f xs + g xs) = mean_draws pts n f + mean_draws pts n g.
Proof.
  induction n as [|n IH]; intros f g; simpl; [reflexivity|]. rewrite <- over_plus. apply over_ext. intros x I. apply IH.
Qed.
Lemma draws_scal n : forall k f, mean_draws pts n (fun xs => k * f xs) = k * mean_draws pts n f.
Proof.
  induction n as [|n IH]; intros k f; simpl; [reflexivity|]. rewrite <- over_scal. apply over_ext. intros x I. apply IH.
Qed.
Lemma draws_const n : forall k, mean_draws pts n (fun _ => k) = k.
Proof. induction n as [|n IH]; intros k; simpl; [reflexivity|]. rewrite (over_ext _ (fun _ => k)); [apply over_const|]. intros x I. apply IH. Qed.
Lemma draws_le n : forall f g, (forall xs, length xs = n -> (forall x, In x xs -> In x pts) -> f xs <= g xs) -> mean_draws pts n f <= mean_draws pts n g.
Proof.
  induction n as [|n IH]; intros f g H; simpl; [apply H; [reflexivity|intros x []]|].
  apply over_le. intros x I. apply IH. intros xs L M. apply H; [simpl; auto|]. intros y [<-|J]; auto.
Qed.

Section Dev.
Variable g : X -> R.
Let mu := mean_over pts g.
Let dev xs := total (map (fun x => g x - mu) xs).
Lemma over_dev : mean_over pts (fun x => g x - mu) = 0.
Proof. unfold Rminus. rewrite over_plus, over_const. fold mu. ring. Qed.
Lemma draws_dev n : mean_draws pts n dev = 0.
Proof.
  induction n as [|n IH]; [reflexivity|]. cbn [mean_draws].
  rewrite (over_ext _ (fun x => (g x - mu))); [apply over_dev|]. intros x I.
  unfold dev. cbn [map total fold_right]. rewrite (draws_plus n (fun _ => g x - mu)), draws_const.
  change (mean_draws pts n (fun xs => fold_right Rplus 0 (map (fun x => g x - mu) xs))) with (mean_draws pts n dev). rewrite IH. ring.
Qed.
Lemma draws_dev_square n : mean_draws pts n (fun xs => square (dev xs)) = INR n * mean_over pts (fun x => square (g x - mu)).
Proof.
  induction n as [|n IH]; [unfold dev, square; simpl; ring|]. cbn [mean_draws]. rewrite S_INR.
  rewrite (over_ext _ (fun x => square (g x - mu) + INR n * mean_over pts (fun x => square (g x - mu)))).
  - rewrite over_plus, over_const. ring.
  - intros x I. rewrite <- IH.
    rewrite (draws_ext n _ (fun xs => square (g x - mu) + (2 * (g x - mu) * dev xs + square (dev xs)))).
    + rewrite (draws_plus n (fun _ => square (g x - mu))), draws_const, draws_plus, draws_scal, draws_dev. ring.
    + intros xs _ _. unfold dev, square. cbn [map total fold_right]. fold (total (map (fun x => g x - mu) xs)). ring.
Qed.
(** The mean over n draws is within B / sqrt n of the true mean, in mean square. *)
Lemma sample_mean_square n B : (0 < n)%nat -> (forall x, In x pts -> Rabs (g x) <= B) ->
  mean_draws pts n (fun xs => square (mean_over xs g - mu)) <= B * B / INR n.
Proof.
  intros Np H. assert (Nr : 0 < INR n) by now apply lt_0_INR.
  rewrite (draws_ext n _ (fun xs => / (INR n * INR n) * square (dev xs))).
  - rewrite draws_scal, draws_dev_square.
    assert (V : mean_over pts (fun x => square (g x - mu)) <= B * B).
    { rewrite (over_ext _ (fun x => square (g x) + ((- 2 * mu) * g x + mu * mu))) by (intros; unfold square; ring).
      rewrite over_plus, over_plus, over_const, over_scal. fold mu.
      assert (S : mean_over pts (fun x => square (g x)) <= B * B).
      { rewrite <- (over_const (B * B)). apply over_le. intros x I. specialize (H x I). unfold square.
        replace (g x * g x) with (Rabs (g x) * Rabs (g x)) by (rewrite <- Rabs_mult; apply Rabs_right, Rle_ge, Rle_0_sqr).
        pose proof (Rabs_pos (g x)). nra. }
      pose proof (Rle_0_sqr mu) as M. unfold Rsqr in M. lra. }
    apply Rle_trans with (/ (INR n * INR n) * (INR n * (B * B))).
    + apply Rmult_le_compat_l; [left; apply Rinv_0_lt_compat; nra|]. apply Rmult_le_compat_l; lra.
    + right. field. lra.
  - intros xs L _. unfold mean_over at 1, dev. rewrite L.
    assert (E : total (map (fun x => g x - mu) xs) = total (map g xs) - INR n * mu).
    { unfold Rminus at 1. rewrite total_plus, total_const, L. ring. }
    rewrite E. unfold square. field. lra.
Qed.
End Dev.
End Over.
