(** The weighted mean maximises the weighted log likelihood of a Gaussian of fixed covariance. *)
From Coq Require Import List Arith Lia Reals Lra.
Import ListNotations.
From Verif Require Import Prelude.Py Prelude.RBase Model.Normal Spec.NormalSpec Spec.EmSpec Proofs.NormalProofs Proofs.EmStep.
Open Scope R_scope.

Lemma st_ext d f g : (forall i, (i < d)%nat -> f i = g i) -> sum_to d f = sum_to d g.
Proof. induction d as [|d IH]; simpl; intros H; auto. rewrite IH by auto. rewrite H by auto. reflexivity. Qed.
Lemma st_plus d f g : sum_to d (fun i => f i + g i) = sum_to d f + sum_to d g.
Proof. induction d as [|d IH]; simpl; [ring|]. rewrite IH. ring. Qed.
Lemma st_scal d c f : sum_to d (fun i => c * f i) = c * sum_to d f.
Proof. induction d as [|d IH]; simpl; [ring|]. rewrite IH. ring. Qed.
Lemma st_zero d f : (forall i, (i < d)%nat -> f i = 0) -> sum_to d f = 0.
Proof. induction d as [|d IH]; simpl; intros H; auto. rewrite IH, H by auto. ring. Qed.

Definition bil (d : nat) (M : rmat) (u v : rvec) : R := sum_to d (fun i => sum_to d (fun j => u i * M i j * v j)).
Lemma bil_quad d M u : quad_form d M u = bil d M u u. Proof. reflexivity. Qed.
Lemma bil_plus_l d M u u' v : bil d M (fun i => u i + u' i) v = bil d M u v + bil d M u' v.
Proof.
  unfold bil. rewrite <- st_plus. apply st_ext. intros i _. rewrite <- st_plus. apply st_ext. intros j _. ring.
Qed.
Lemma bil_plus_r d M u v v' : bil d M u (fun i => v i + v' i) = bil d M u v + bil d M u v'.
Proof.
  unfold bil. rewrite <- st_plus. apply st_ext. intros i _. rewrite <- st_plus. apply st_ext. intros j _. ring.
Qed.
Lemma bil_scal_l d M c u v : bil d M (fun i => c * u i) v = c * bil d M u v.
Proof. unfold bil. rewrite <- st_scal. apply st_ext. intros i _. rewrite <- st_scal. apply st_ext. intros j _. ring. Qed.
Lemma bil_scal_r d M c u v : bil d M u (fun i => c * v i) = c * bil d M u v.
Proof. unfold bil. rewrite <- st_scal. apply st_ext. intros i _. rewrite <- st_scal. apply st_ext. intros j _. ring. Qed.
Lemma bil_zero_r d M u v : (forall i, (i < d)%nat -> v i = 0) -> bil d M u v = 0.
Proof. intros H. unfold bil. apply st_zero. intros i _. apply st_zero. intros j J. rewrite H by auto. ring. Qed.
Lemma bil_zero_l d M u v : (forall i, (i < d)%nat -> u i = 0) -> bil d M u v = 0.
Proof. intros H. unfold bil. apply st_zero. intros i I. apply st_zero. intros j _. rewrite H by auto. ring. Qed.
Lemma bil_sum_r {X} d M u (w : X -> R) (v : X -> rvec) xs : rsum (fun x => w x * bil d M u (v x)) xs = bil d M u (fun i => rsum (fun x => w x * v x i) xs).
Proof. induction xs as [|x xs IH]; simpl; [symmetry; apply bil_zero_r; auto|]. rewrite IH, bil_plus_r, bil_scal_r. reflexivity. Qed.
Lemma bil_sum_l {X} d M u (w : X -> R) (v : X -> rvec) xs : rsum (fun x => w x * bil d M (v x) u) xs = bil d M (fun i => rsum (fun x => w x * v x i) xs) u.
Proof. induction xs as [|x xs IH]; simpl; [symmetry; apply bil_zero_l; auto|]. rewrite IH, bil_plus_l, bil_scal_l. reflexivity. Qed.

Lemma weighted_R_rsum {X} (w q : X -> R) xs : weighted_R w q xs = rsum (fun x => w x * q x) xs.
Proof. induction xs; simpl; congruence. Qed.

Lemma spread_at_mean d M (w : rvec -> R) (mu m : rvec) xs : (forall i, (i < d)%nat -> rsum w xs * mu i = rsum (fun x => w x * x i) xs) ->
  rsum (fun x => w x * quad_form d M (fun i => m i - x i)) xs =
  rsum (fun x => w x * quad_form d M (fun i => mu i - x i)) xs + rsum w xs * quad_form d M (fun i => m i - mu i).
Proof.
  intros H.
  assert (E : forall x, quad_form d M (fun i => m i - x i) = quad_form d M (fun i => mu i - x i) + (quad_form d M (fun i => m i - mu i) +
     (bil d M (fun i => m i - mu i) (fun i => mu i - x i) + bil d M (fun i => mu i - x i) (fun i => m i - mu i)))).
  { intros x. rewrite !bil_quad.
    transitivity (bil d M (fun i => (m i - mu i) + (mu i - x i)) (fun i => (m i - mu i) + (mu i - x i))).
    - unfold bil. apply st_ext. intros i _. apply st_ext. intros j _. ring.
    - rewrite bil_plus_l, !bil_plus_r. ring. }
  assert (Z : forall i, (i < d)%nat -> rsum (fun x => w x * (mu i - x i)) xs = 0).
  { intros i I. rewrite (rsum_ext _ (fun x => mu i * w x - w x * x i)) by (intros; ring). rewrite rsum_minus, rsum_scal, <- (H i I). ring. }
  rewrite (rsum_ext _ (fun x => w x * quad_form d M (fun i => mu i - x i) + (quad_form d M (fun i => m i - mu i) * w x +
     (w x * bil d M (fun i => m i - mu i) (fun i => mu i - x i) + w x * bil d M (fun i => mu i - x i) (fun i => m i - mu i)))))
    by (intros x _; rewrite E; ring).
  rewrite !rsum_plus, rsum_scal, bil_sum_r, bil_sum_l. rewrite bil_zero_r by exact Z. rewrite bil_zero_l by exact Z. ring.
Qed.
