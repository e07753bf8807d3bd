(** Totals of equivalent mixtures. *)
From Coq Require Import List Bool Arith Lia QArith Qreals Lqa Permutation.
Import ListNotations.
From Verif Require Import Prelude.Py Prelude.QBase Prelude.QFacts Model.Mixture Spec.WeightSpec Spec.DensitySpec Spec.SameMixtureSpec Proofs.MixtureProofs Proofs.PopulationUnbiased.
Open Scope Q_scope.

(** Total of a function of the components, with the usable weights. *)
Definition tot {X} (F : component X -> Q) (d : list (fl Q * component X)) : Q := Qsum (map (fun wc => clean (fst wc) * F (snd wc)) d).

Lemma clean_fin a : 0 <= a -> clean (Fin a) == a.
Proof. intros H. simpl. destruct (Qle_bool_spec a 0); lra. Qed.
Lemma clean_unused w : ~ usable w -> clean w == 0.
Proof. intros H. pose proof (clean_nonneg w). destruct (Qlt_le_dec 0 (clean w)) as [P|P]; [exfalso; apply H; now apply clean_usable|lra]. Qed.

Lemma tot_app {X} (F : component X -> Q) d e : tot F (d ++ e) == tot F d + tot F e.
Proof. unfold tot. induction d as [|a d IH]; simpl; [ring|]. rewrite IH. ring. Qed.
Lemma tot_perm {X} (F : component X -> Q) d e : Permutation d e -> tot F d == tot F e.
Proof. unfold tot. induction 1; simpl; try lra. Qed.
Lemma tot_scale {X} (F : component X -> Q) c d : 0 < c -> tot F (map (fun wc => (scale_weight c (fst wc), snd wc)) d) == c * tot F d.
Proof. intros C. unfold tot. induction d as [|a d IH]; [simpl; ring|]. cbn [map Qsum fst snd]. rewrite (clean_scale c (fst a) C), IH. ring. Qed.
Lemma tot_inner {X} (F : component X -> Q) a inner : 0 <= a -> Forall (fun w => 0 <= w) (map fst inner) ->
  tot F (map (fun wc => (Fin (a * fst wc), snd wc)) inner) == a * Qsum (map (fun wc => fst wc * F (snd wc)) inner).
Proof.
  intros A H. unfold tot. induction inner as [|(w, c) r IH]; [simpl; ring|]. inversion H as [|? ? H1 H2]; subst. cbn [map Qsum fst snd].
  rewrite (IH H2). rewrite clean_fin by (simpl in H1; apply Qmult_le_0_compat; auto). ring.
Qed.

Definition weight_total {X} (d : list (fl Q * component X)) : Q := tot (fun _ => 1) d.
Lemma weight_total_clean {X} (d : list (fl Q * component X)) : weight_total d == Qsum (map clean (map fst d)).
Proof. unfold weight_total, tot. rewrite map_map. apply Qsum_ext. intros; ring. Qed.
Lemma inner_ones {X} (inner : list (Q * component X)) : is_normalised (map fst inner) -> Qsum (map (fun wc => fst wc * 1) inner) == 1.
Proof. intros (_ & H). rewrite total_Qsum in H. rewrite <- H. apply Qsum_ext. intros; ring. Qed.

(** One factor for the weights and for all mean values. *)
Lemma same_law_factor {X} (d d' : list (fl Q * component X)) : same_mixture d d' ->
  exists k, 0 < k /\ weight_total d' == k * weight_total d /\ forall f, tot (fun c => mean_of (c_law c) f) d' == k * tot (fun c => mean_of (c_law c) f) d.
Proof.
  induction 1 as [d d' P|c d C|w c d U NP|a b c d A B|a m inner d A (N & _ & L)|d d' _ (k & K & W & M)|d d' d'' _ (k & K & W & M) _ (j & J & W' & M')].
  - exists 1. split; [lra|]. split; [|intros f]; rewrite Qmult_1_l; symmetry; now apply tot_perm.
  - exists c. split; auto. split; [|intros f]; now apply tot_scale.
  - exists 1. split; [lra|]. assert (Z := clean_unused _ U). split; [unfold weight_total|intros f]; unfold tot; cbn [map Qsum fst snd]; rewrite Z; ring.
  - exists 1. split; [lra|]. assert (S : 0 <= a + b) by lra.
    split; [unfold weight_total|intros f]; unfold tot; cbn [map Qsum fst snd]; rewrite (clean_fin a A), (clean_fin b B), (clean_fin (a + b) S); ring.
  - exists 1. split; [lra|]. split; [unfold weight_total|intros f]; rewrite tot_app, tot_inner by (auto; apply N).
    + rewrite (inner_ones _ N). unfold tot at 2. cbn [map Qsum fst snd]. rewrite (clean_fin a A). unfold tot. ring.
    + unfold tot at 2. cbn [map Qsum fst snd]. rewrite (clean_fin a A), (L f). unfold tot. ring.
  - exists (/ k). assert (0 < / k) by now apply Qinv_lt_0_compat. split; auto. split; [rewrite W|intros f; rewrite M]; field; lra.
  - exists (j * k). split; [nra|]. split; [rewrite W', W|intros f; rewrite M', M]; ring.
Qed.
Lemma same_weights_factor {X} (d d' : list (fl Q * component X)) : same_mixture d d' -> exists k, 0 < k /\ weight_total d' == k * weight_total d.
Proof. intros H. destruct (same_law_factor _ _ H) as (k & K & W & _). eauto. Qed.
