(** One step of expectation maximisation for the weights and the components of a mixture. *)
From Coq Require Import List Reals Lra.
Import ListNotations.
From Verif Require Import Proofs.DivergenceProofs.
Open Scope R_scope.

Fixpoint rsum {X : Type} (f : X -> R) (l : list X) : R := match l with [] => 0 | x :: r => f x + rsum f r end.
Lemma rsum_ext {X} (f g : X -> R) l : (forall x, In x l -> f x = g x) -> rsum f l = rsum g l.
Proof. induction l as [|x l IH]; simpl; intros H; auto. rewrite (H x) by auto. rewrite IH; auto. Qed.
Lemma rsum_le {X} (f g : X -> R) l : (forall x, In x l -> f x <= g x) -> rsum f l <= rsum g l.
Proof. induction l as [|x l IH]; simpl; intros H; [lra|]. pose proof (H x (or_introl eq_refl)). specialize (IH ltac:(auto)). lra. Qed.
Lemma rsum_plus {X} (f g : X -> R) l : rsum (fun x => f x + g x) l = rsum f l + rsum g l.
Proof. induction l as [|x l IH]; simpl; [lra|]. rewrite IH. lra. Qed.
Lemma rsum_minus {X} (f g : X -> R) l : rsum (fun x => f x - g x) l = rsum f l - rsum g l.
Proof. induction l as [|x l IH]; simpl; [lra|]. rewrite IH. lra. Qed.
Lemma rsum_scal {X} c (f : X -> R) l : rsum (fun x => c * f x) l = c * rsum f l.
Proof. induction l as [|x l IH]; simpl; [lra|]. rewrite IH. lra. Qed.
Lemma rsum_zero {X} (l : list X) : rsum (fun _ => 0) l = 0.
Proof. induction l; simpl; lra. Qed.
Lemma rsum_swap {X Y} (f : X -> Y -> R) l m : rsum (fun x => rsum (f x) m) l = rsum (fun y => rsum (fun x => f x y) l) m.
Proof. induction l as [|x l IH]; simpl; [symmetry; apply rsum_zero|]. rewrite IH, <- rsum_plus. reflexivity. Qed.
Lemma rsum_nonneg {X} (f : X -> R) l : (forall x, In x l -> 0 <= f x) -> 0 <= rsum f l.
Proof. intros H. rewrite <- (rsum_zero l). apply rsum_le. exact H. Qed.
Lemma rsum_pos {X} (f : X -> R) l : l <> [] -> (forall x, In x l -> 0 < f x) -> 0 < rsum f l.
Proof.
  destruct l as [|x l]; [congruence|]. intros _ H. simpl. pose proof (H x (or_introl eq_refl)).
  pose proof (rsum_nonneg f l ltac:(intros y Hy; left; apply H; right; exact Hy)). lra.
Qed.

Lemma lnd a b : 0 < a -> 0 < b -> ln (a / b) = ln a - ln b.
Proof. intros A B. unfold Rdiv. rewrite ln_mult, ln_Rinv; auto. apply Rinv_0_lt_compat; auto. Qed.
(** Jensen's inequality for the logarithm. *)
Lemma jensen {X} (p z : X -> R) l : (forall x, In x l -> 0 < p x /\ 0 < z x) -> rsum p l = 1 ->
  rsum (fun x => p x * ln (z x)) l <= ln (rsum (fun x => p x * z x) l).
Proof.
  intros H S. assert (Ne : l <> []) by (intros ->; simpl in S; lra).
  assert (M : 0 < rsum (fun x => p x * z x) l) by (apply rsum_pos; auto; intros x Hx; destruct (H x Hx); nra).
  set (m := rsum (fun x => p x * z x) l) in *.
  assert (T : rsum (fun x => p x * ln (z x)) l <= rsum (fun x => p x * ln m + (p x * z x / m - p x)) l).
  { apply rsum_le. intros x Hx. destruct (H x Hx) as (P & Z). pose proof (ln_le_sub (z x / m) ltac:(apply Rdiv_lt_0_compat; auto)) as L.
    rewrite lnd in L by auto. assert (E : p x * z x / m = p x * (z x / m)) by (unfold Rdiv; ring). rewrite E. nra. }
  rewrite rsum_plus, rsum_minus in T.
  rewrite (rsum_ext (fun x => p x * ln m) (fun x => ln m * p x)) in T by (intros; ring).
  rewrite (rsum_ext (fun x => p x * z x / m) (fun x => / m * (p x * z x))) in T by (intros; unfold Rdiv; ring).
  rewrite !rsum_scal, S in T. fold m in T. rewrite Rinv_l in T by lra. lra.
Qed.

Section Step.
Context {X : Type}.
Variables (xs : list X) (ds : list nat) (w : X -> R) (a a' : nat -> R) (f f' : nat -> X -> R).
Let mix x := rsum (fun d => a d * f d x) ds.
Let mix' x := rsum (fun d => a' d * f' d x) ds.
Let rho d x := a d * f d x / mix x.
Hypotheses (Wn : forall x, 0 <= w x) (Wp : 0 < rsum w xs) (Ap : forall d, In d ds -> 0 < a d) (Ap' : forall d, In d ds -> 0 < a' d)
  (Fp : forall d x, In d ds -> 0 < f d x) (Fp' : forall d x, In d ds -> 0 < f' d x) (Ne : ds <> []) (S1 : rsum a ds = 1)
  (New : forall d, In d ds -> a' d * rsum w xs = rsum (fun x => w x * rho d x) xs)
  (Better : forall d, In d ds -> rsum (fun x => w x * rho d x * ln (f d x)) xs <= rsum (fun x => w x * rho d x * ln (f' d x)) xs).

Lemma mixp x : 0 < mix x.
Proof. apply rsum_pos; auto. intros d D. specialize (Ap d D). specialize (Fp d x D). nra. Qed.
Lemma mixp' x : 0 < mix' x.
Proof. apply rsum_pos; auto. intros d D. specialize (Ap' d D). specialize (Fp' d x D). nra. Qed.
Lemma rhop d x : In d ds -> 0 < rho d x.
Proof. intros D. apply Rdiv_lt_0_compat; [|apply mixp]. specialize (Ap d D). specialize (Fp d x D). nra. Qed.
Lemma rho1 x : rsum (fun d => rho d x) ds = 1.
Proof.
  unfold rho. rewrite (rsum_ext _ (fun d => / mix x * (a d * f d x))) by (intros; unfold Rdiv; ring). rewrite rsum_scal. fold (mix x).
  apply Rinv_l. pose proof (mixp x). lra.
Qed.
Lemma new1 : rsum a' ds = 1.
Proof.
  apply Rmult_eq_reg_r with (rsum w xs); [|lra]. rewrite Rmult_comm, <- rsum_scal.
  rewrite (rsum_ext _ (fun d => rsum (fun x => w x * rho d x) xs)) by (intros d D; rewrite <- New; auto; ring).
  rewrite <- rsum_swap. rewrite Rmult_1_l. apply rsum_ext. intros x _. rewrite rsum_scal, rho1. ring.
Qed.
Lemma one_point x : rsum (fun d => rho d x * (ln (a' d) - ln (a d) + (ln (f' d x) - ln (f d x)))) ds <= ln (mix' x) - ln (mix x).
Proof.
  pose proof (mixp x) as M. pose proof (mixp' x) as M'.
  rewrite <- lnd by auto.
  assert (E : rsum (fun d => rho d x * (a' d * f' d x / (a d * f d x))) ds = mix' x / mix x).
  { rewrite (rsum_ext _ (fun d => / mix x * (a' d * f' d x))).
    - rewrite rsum_scal. fold (mix' x). unfold Rdiv. ring.
    - intros d D. unfold rho. specialize (Ap d D). specialize (Fp d x D). field. repeat split; lra. }
  rewrite <- E.
  rewrite (rsum_ext _ (fun d => rho d x * ln (a' d * f' d x / (a d * f d x)))).
  - apply jensen; [|apply rho1]. intros d D. split; [apply rhop; auto|]. specialize (Ap d D). specialize (Fp d x D). specialize (Ap' d D). specialize (Fp' d x D).
    apply Rdiv_lt_0_compat; nra.
  - intros d D. specialize (Ap d D). specialize (Fp d x D). specialize (Ap' d D). specialize (Fp' d x D).
    rewrite lnd by nra. rewrite !ln_mult by auto. ring.
Qed.
Theorem em_step : rsum (fun x => w x * ln (mix x)) xs <= rsum (fun x => w x * ln (mix' x)) xs.
Proof.
  assert (H : 0 <= rsum (fun x => w x * (ln (mix' x) - ln (mix x))) xs).
  { apply Rle_trans with (rsum (fun x => w x * rsum (fun d => rho d x * (ln (a' d) - ln (a d) + (ln (f' d x) - ln (f d x)))) ds) xs).
    2:{ apply rsum_le. intros x _. apply Rmult_le_compat_l; auto. apply one_point. }
    rewrite (rsum_ext _ (fun x => rsum (fun d => w x * (rho d x * (ln (a' d) - ln (a d) + (ln (f' d x) - ln (f d x))))) ds)) by (intros; rewrite rsum_scal; auto).
    rewrite rsum_swap.
    apply Rle_trans with (rsum (fun d => rsum w xs * (a' d - a d)) ds).
    { rewrite rsum_scal, rsum_minus, new1, S1. lra. }
    apply rsum_le. intros d D.
    apply Rle_trans with (rsum (fun x => (ln (a' d) - ln (a d)) * (w x * rho d x) + (w x * rho d x * ln (f' d x) - w x * rho d x * ln (f d x))) xs);
      [|right; apply rsum_ext; intros x _; ring].
    rewrite rsum_plus, rsum_minus, rsum_scal, <- New by auto. pose proof (Better d D) as B.
    pose proof (proj1 (entropy_term (a' d) (a d) (Ap' d D) (Ap d D))) as G. rewrite lnd in G by auto. nra. }
  rewrite (rsum_ext _ (fun x => w x * ln (mix' x) - w x * ln (mix x))) in H by (intros; ring). rewrite rsum_minus in H. lra.
Qed.
End Step.
