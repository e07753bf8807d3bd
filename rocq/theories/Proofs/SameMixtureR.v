(** Densities of equivalent mixtures. *)
From Coq Require Import List Bool Arith Lia QArith Reals Qreals Lra Permutation.
Import ListNotations.
From Verif Require Import Prelude.Py Prelude.QBase Prelude.QFacts Model.Mixture Spec.WeightSpec Spec.DensitySpec Spec.SameMixtureSpec
  Proofs.MixtureProofs Proofs.MixtureDensity Proofs.SameMixture.
Open Scope R_scope.

Definition totR {X} (F : component X -> R) (d : list (fl Q * component X)) : R :=
  fold_right (fun wc r => Q2R (clean (fst wc)) * F (snd wc) + r) 0 d.

Lemma totR_app {X} (F : component X -> R) d e : totR F (d ++ e) = totR F d + totR F e.
Proof. induction d as [|a d IH]; simpl; [ring|]. rewrite IH. ring. Qed.
Lemma totR_perm {X} (F : component X -> R) d e : Permutation d e -> totR F d = totR F e.
Proof. induction 1; simpl; try lra. Qed.
Lemma totR_scale {X} (F : component X -> R) c d : (0 < c)%Q -> totR F (map (fun wc => (scale_weight c (fst wc), snd wc)) d) = Q2R c * totR F d.
Proof.
  intros C. induction d as [|a d IH]; simpl; [ring|]. rewrite IH. rewrite (Qeq_eqR _ _ (clean_scale c (fst a) C)), Q2R_mult. ring.
Qed.
Lemma totR_inner {X} (F : component X -> R) a inner : (0 <= a)%Q -> Forall (fun w => (0 <= w)%Q) (map fst inner) ->
  totR F (map (fun wc => (Fin (a * fst wc)%Q, snd wc)) inner) = Q2R a * weighted_sum (map fst inner) (map (fun wc => F (snd wc)) inner).
Proof.
  intros A H. induction inner as [|(w, c) r IH]; [simpl; ring|]. inversion H as [|? ? H1 H2]; subst. cbn [map fst snd totR fold_right weighted_sum].
  fold (totR F (map (fun wc => (Fin (a * fst wc)%Q, snd wc)) r)). rewrite (IH H2).
  assert (P : (0 <= a * w)%Q) by (apply Qmult_le_0_compat; auto). rewrite (Qeq_eqR _ _ (clean_fin _ P)), Q2R_mult. ring.
Qed.

Lemma density_log l d : log_of l d -> density_of l = d.
Proof. intros [(P & ->)|(-> & ->)]; simpl; auto. now rewrite exp_ln. Qed.

Lemma same_density_factor {X} (d d' : list (fl Q * component X)) : same_mixture d d' ->
  exists k, (0 < k)%Q /\ (weight_total d' == k * weight_total d)%Q /\
    forall x, totR (fun c => density_of (c_log c x)) d' = Q2R k * totR (fun c => density_of (c_log c x)) d.
Proof.
  induction 1 as [d d' P|c d C|w c d U NP|a b c d A B|a m inner d A (N & D & L)|d d' _ (k & K & W & M)|d d' d'' _ (k & K & W & M) _ (j & J & W' & M')].
  - exists 1%Q. split; [reflexivity|]. split; [rewrite Qmult_1_l; symmetry; now apply tot_perm|]. intros x. rewrite RMicromega.Q2R_1, Rmult_1_l. symmetry. now apply totR_perm.
  - exists c. split; auto. split; [now apply tot_scale|]. intros x. now apply totR_scale.
  - exists 1%Q. split; [reflexivity|]. assert (Z := clean_unused _ U). split; [unfold weight_total, tot; cbn [map Qsum fst snd]; rewrite Z; ring|].
    intros x. simpl. rewrite (Qeq_eqR _ _ Z), RMicromega.Q2R_0, RMicromega.Q2R_1. ring.
  - exists 1%Q. split; [reflexivity|]. assert (S : (0 <= a + b)%Q) by (rewrite <- (Qplus_0_l 0); now apply Qplus_le_compat).
    split; [unfold weight_total, tot; cbn [map Qsum fst snd]; rewrite (clean_fin a A), (clean_fin b B), (clean_fin (a + b) S); ring|].
    intros x. cbn [totR fold_right fst snd]. rewrite (Qeq_eqR _ _ (clean_fin a A)), (Qeq_eqR _ _ (clean_fin b B)), (Qeq_eqR _ _ (clean_fin (a + b) S)), Q2R_plus, RMicromega.Q2R_1. ring.
  - exists 1%Q. split; [reflexivity|]. split.
    + unfold weight_total. rewrite tot_app, tot_inner by (auto; apply N). rewrite (inner_ones _ N). unfold tot at 2. cbn [map Qsum fst snd]. rewrite (clean_fin a A). unfold tot. ring.
    + intros x. rewrite totR_app, totR_inner by (auto; apply N). cbn [totR fold_right fst snd]. rewrite (density_log _ _ (D x)), (Qeq_eqR _ _ (clean_fin a A)), RMicromega.Q2R_1. unfold totR. ring.
  - exists (/ k)%Q. assert (Kn : ~ (k == 0)%Q) by (intros E; rewrite E in K; discriminate). split; [now apply Qinv_lt_0_compat|]. split; [rewrite W; field; auto|].
    intros x. rewrite M, Q2R_inv by auto. field. intros E. apply Kn. apply eqR_Qeq. now rewrite E, RMicromega.Q2R_0.
  - exists (j * k)%Q. split; [now apply Qmult_lt_0_compat|]. split; [rewrite W', W; ring|]. intros x. rewrite M', M, Q2R_mult. ring.
Qed.

Lemma stored_density {X} s (F : component X -> R) (d : list (fl Q * component X)) : (0 < s)%Q ->
  weighted_sum (map (fun w => (clean w / s)%Q) (map fst d)) (map (fun wc => F (snd wc)) d) = totR F d / Q2R s.
Proof.
  intros S. assert (N : ~ (s == 0)%Q) by (intros E; rewrite E in S; discriminate).
  assert (N' : Q2R s <> 0) by (intros E; apply N; apply eqR_Qeq; now rewrite E, RMicromega.Q2R_0).
  induction d as [|a d IH]; simpl; [field; auto|]. rewrite IH, Q2R_div by auto. field. auto.
Qed.
