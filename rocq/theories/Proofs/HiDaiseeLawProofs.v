(** Draws from the model of HiDaisee fall into each leaf with the leaf's weight. *)
From Coq Require Import List Bool Arith QArith Lia Lqa.
Import ListNotations.
From Verif Require Import Prelude.Py Prelude.QBase Prelude.QFacts Model.Base Model.Mixture Model.Uniform Model.HiDaisee Model.Population Model.MixtureLaw Model.HiDaiseeLaw
  Spec.UnbiasedSpec Spec.WalkSpec Spec.UniformSpec Spec.SplitSpec Spec.WeightSpec Spec.MixtureLawSpec Spec.HdLawSpec
  Proofs.MixtureProofs Proofs.PopulationUnbiased Proofs.PopulationProofs Proofs.IndepLaw Proofs.MixtureSelect Proofs.MixtureTree
  Proofs.UniformProofs Proofs.HiDaiseeBox Proofs.HiDaiseeProofs Proofs.HiDaiseeDensity.
Open Scope Q_scope.

Lemma in_half_true lo : forall hi x, in_half lo hi x = true <-> half_open lo hi x.
Proof.
  induction lo as [|l lo IH]; intros [|h hi] [|a x]; simpl; try tauto; try (split; [discriminate|tauto]).
  rewrite !andb_true_iff, Qltb_true, Qle_bool_iff, IH. tauto.
Qed.
Lemma row_open lo hi u : corners lo hi -> forall j, (forall k, (k < length lo)%nat -> 0 < u (j + k)%nat < 1) -> half_open lo hi (uniform_row lo hi u j).
Proof.
  intros C. induction C as [|l h lo hi H C IH]; intros j U; simpl; auto. pose proof (U 0%nat ltac:(simpl; lia)) as U0. rewrite Nat.add_0_r in U0.
  split; [nra|]. split; [nra|]. apply IH. intros k Hk. replace (S j + k)%nat with (j + S k)%nat by lia. apply U. simpl. lia.
Qed.

Lemma row_shift lo : forall hi u v j k, (forall i, u (j + i)%nat = v (k + i)%nat) -> uniform_row lo hi u j = uniform_row lo hi v k.
Proof.
  induction lo as [|l lo IH]; intros [|h hi] u v j k H; simpl; auto. pose proof (H 0%nat) as H0. rewrite !Nat.add_0_r in H0. rewrite H0. f_equal. apply IH.
  intros i. specialize (H (S i)). rewrite !Nat.add_succ_r in H. exact H.
Qed.
Lemma row_place lo : forall hi u, length lo = length hi -> length u = length lo -> uniform_row lo hi (fun j => nth j u 0) 0 = place lo hi u.
Proof.
  induction lo as [|l lo IH]; intros [|h hi] [|a u] L U; try discriminate; simpl; auto. f_equal. rewrite <- (IH hi u) by (simpl in *; lia).
  apply row_shift. intros i. reflexivity.
Qed.

Section Boxes.
Variables (d : nat) (ul : list (Q * Q)) (dl : list (Q * vec)) (s : hd) (ws : list Q).
Hypothesis W : snd (hs_model s) = map Fin ws.
Hypothesis V : prob_vec ws.
Hypothesis Fa : fair_choice ul ws.
Hypothesis Ln : length (fst (hs_model s)) = length ws.
Hypothesis Ud : unit_law d dl.
Let boxes := fst (hs_model s).
Let b0 := mkUnif 0 [] [] 0.
Hypothesis Cd : forall b, In b boxes -> length (u_lo b) = d /\ corners (u_lo b) (u_hi b).
Hypothesis Sp : forall i j x, (i < length boxes)%nat -> (j < length boxes)%nat ->
  half_open (u_lo (nth i boxes b0)) (u_hi (nth i boxes b0)) x -> half_open (u_lo (nth j boxes b0)) (u_hi (nth j boxes b0)) x -> i = j.
Let draw (b : uniform) (u : vec) : vec := uniform_row (u_lo b) (u_hi b) (fun j => nth j u 0) 0.

Lemma boxes_joint n F : hd_sample_mean s ul dl n F ==
  expect_each (repeat (mixture_law ws (map (fun b => moved (draw b) dl) boxes)) n) (fun xs => F (Ok xs)).
Proof.
  unfold hd_sample_mean, hd_points. rewrite W.
  assert (forallb is_fin (map Fin ws) = true) as -> by (apply forallb_forall; intros w Hw; apply in_map_iff in Hw; destruct Hw as (? & <- & _); reflexivity).
  rewrite map_map. simpl. rewrite map_id. fold boxes.
  apply (joint_mean [] ul ws (repeat dl (length boxes)) (fun i u => draw (nth i boxes b0) u) n F V Fa).
  - now rewrite repeat_length.
  - intros l Hl. apply repeat_spec in Hl. subst. apply Ud.
  - now rewrite map_length.
  - intros i Hi. rewrite <- Ln in Hi. rewrite (nth_indep _ [] (moved (draw b0) dl)) by (rewrite map_length; auto).
    rewrite (map_nth (fun c => moved (draw c) dl)). f_equal. fold boxes in Hi.
    clear -Hi. revert i Hi. induction (length boxes) as [|k IH]; intros [|i] Hi; simpl; auto; try lia. apply IH. lia.
Qed.

Lemma boxes_law n F : hd_sample_mean s ul dl n F ==
  expect_each (repeat (mixture_law ws (map (fun b => placed_law dl (u_lo b, u_hi b)) boxes)) n) (fun xs => F (Ok xs)).
Proof.
  rewrite boxes_joint. assert (map (fun b => moved (draw b) dl) boxes = map (fun b => placed_law dl (u_lo b, u_hi b)) boxes) as ->; [|reflexivity].
  apply map_ext_in. intros b Hb. destruct (Cd b Hb) as (D & C). apply map_ext_in. intros wu Hu. cbn [fst snd]. destruct Ud as (_ & H). destruct (H _ Hu) as (Lu & _).
  f_equal. unfold draw. apply row_place; [apply corners_length; auto|congruence].
Qed.
Lemma boxes_count n k : (k < length boxes)%nat ->
  hd_sample_mean s ul dl n (fun o => match o with Ok xs => count_in (u_lo (nth k boxes b0), u_hi (nth k boxes b0)) xs | Raise _ => - (1) end) == Qnat n * nth k ws 0.
Proof.
  intros Hk. rewrite boxes_joint. cbn beta iota. unfold count_in. cbn [fst snd].
  assert (Lm : is_law (mixture_law ws (map (fun c => moved (draw c) dl) boxes))).
  { apply mass_mixture; auto; [now rewrite map_length|]. intros l Hl. apply in_map_iff in Hl. destruct Hl as (c & <- & _).
    destruct Ud as ((A & B) & _). split.
    - rewrite <- A. unfold moved. rewrite map_map. reflexivity.
    - intros wx Hx. apply in_map_iff in Hx. destruct Hx as (mx & <- & Hx). apply (B mx Hx). }
  rewrite expect_total by (intros l Hl; apply repeat_spec in Hl; subst; apply is_law_mass; auto).
  rewrite Qsum_repeat. apply Qmult_comp; [reflexivity|].
  change (mean1 (mixture_law ws (map (fun c => moved (draw c) dl) boxes)) (fun x => if in_half (u_lo (nth k boxes b0)) (u_hi (nth k boxes b0)) x then 1 else 0) == nth k ws 0).
  rewrite mixture_law_mean by now rewrite map_length.
  assert (Dn : forall i, (i < length boxes)%nat -> nth i (map (fun c => moved (draw c) dl) boxes) [] = moved (draw (nth i boxes b0)) dl).
  { intros i Hi. rewrite (nth_indep _ [] (moved (draw b0) dl)) by (rewrite map_length; auto). apply (map_nth (fun c => moved (draw c) dl)). }
  assert (Op : forall i m u, (i < length boxes)%nat -> In (m, u) dl -> half_open (u_lo (nth i boxes b0)) (u_hi (nth i boxes b0)) (draw (nth i boxes b0) u)).
  { intros i m u Hi Hu. destruct (Cd (nth i boxes b0) (nth_In _ _ Hi)) as (D & C). destruct Ud as (_ & H). destruct (H _ Hu) as (Lu & Fu). simpl in Lu, Fu.
    apply row_open; auto. intros j Hj. simpl. rewrite Forall_forall in Fu. apply Fu. apply nth_In. rewrite Lu. rewrite D in Hj. exact Hj. }
  apply selection_one; [| |rewrite <- Ln; exact Hk].
  - rewrite Dn, mean1_moved by auto. rewrite (mean1_ext _ _ (fun _ => 1)); [apply mean1_const, is_law_mass, Ud|].
    intros m u Hu. assert (in_half (u_lo (nth k boxes b0)) (u_hi (nth k boxes b0)) (draw (nth k boxes b0) u) = true) as -> by (apply in_half_true; eauto). reflexivity.
  - intros j Hj Nj. rewrite <- Ln in Hj. rewrite Dn, mean1_moved by auto. rewrite (mean1_ext _ _ (fun _ => 0)); [apply mean1_const, is_law_mass, Ud|].
    intros m u Hu. destruct (in_half (u_lo (nth k boxes b0)) (u_hi (nth k boxes b0)) (draw (nth j boxes b0) u)) eqn:E; [|reflexivity].
    exfalso. apply Nj. apply in_half_true in E. apply (Sp j k (draw (nth j boxes b0) u)); eauto.
Qed.
End Boxes.

(** The weights of the model, when some leaf has a positive mean weight. *)
Lemma model_weights d w pis t : hinv d w pis t -> 0 < sum_over (leaf_share t) (ht_leaves t) ->
  exists c, snd (hd_model t) = map Fin (map c (ht_leaves t)) /\ prob_vec (map c (ht_leaves t)) /\
    forall i, In i (ht_leaves t) -> c i * sum_over (leaf_share t) (ht_leaves t) == leaf_share t i.
Proof.
  intros I Mp. set (M := sum_over (leaf_share t) (ht_leaves t)) in *. set (L := ht_leaves t) in *. set (ws := map mean_weight (map (nd t) L)).
  assert (El : leaf_nodes t = map (nd t) L) by (apply leaf_nodes_map; apply (hi_leaf _ _ _ _ I)).
  assert (NP : ~ In PInf ws).
  { unfold ws. rewrite map_map. intros H. apply in_map_iff in H. destruct H as (i & E & _). apply (proj2 (mean_clean (nd t i))). auto. }
  assert (Cl : forall i, In i L -> clean (mean_weight (nd t i)) == leaf_share t i).
  { intros i Hi. rewrite (proj1 (mean_clean (nd t i))). unfold leaf_share, rows_at. rewrite (nd_nth t i (hi_leaf _ _ _ _ I i Hi)). reflexivity. }
  assert (Sc : Qsum (map clean ws) == M).
  { unfold M. rewrite sum_over_Qsum. unfold ws. rewrite !map_map. rewrite <- !sum_over_Qsum. apply sum_over_ext. auto. }
  assert (Ex : Exists usable ws).
  { assert (X : 0 < Qsum (map clean ws)) by (rewrite Sc; auto). clear - X. induction ws as [|z l IH]; simpl in X; [lra|].
    destruct (Qlt_le_dec 0 (clean z)) as [H|H]; [left; apply clean_usable; auto|right; apply IH; lra]. }
  destruct (set_weights_stored ws NP Ex) as (sm & _ & Es & Sp & E). exists (fun i => clean (mean_weight (nd t i)) / sm).
  assert (C1 : forall i, In i L -> clean (mean_weight (nd t i)) / sm * M == leaf_share t i) by (intros i Hi; rewrite Cl by auto; rewrite <- Sc, <- Es; field; lra).
  split; [|split; auto].
  - unfold hd_model. simpl. rewrite El. fold ws. replace (length (map (nd t) L)) with (length ws) by (unfold ws; rewrite map_length; auto). rewrite E. unfold ws. rewrite !map_map. reflexivity.
  - split.
    + rewrite Forall_map. apply Forall_forall. intros i Hi. apply Qle_shift_div_l; auto. rewrite Qmult_0_l. apply clean_nonneg.
    + assert (X : Qsum (map (fun i => clean (mean_weight (nd t i)) / sm) L) * M == M).
      { unfold M at 2. rewrite sum_over_Qsum. clear - C1. clearbody L M. induction L as [|i l IH]; simpl; [ring|].
        rewrite <- IH by (intros; apply C1; right; auto). rewrite <- (C1 i (or_introl eq_refl)). ring. }
      apply (Qmult_inj_r _ _ M); lra.
Qed.
