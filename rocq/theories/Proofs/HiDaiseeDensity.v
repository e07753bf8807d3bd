(** The density HiDaisee reports after a call. *)
From Coq Require Import List Bool Arith Lia QArith Lqa Permutation.
Import ListNotations.
From Verif Require Import Prelude.Py Prelude.QBase Prelude.QFacts Prelude.ListFacts Model.Uniform Model.Mixture Model.Tree Model.HiDaisee Spec.UniformSpec Spec.SplitSpec Spec.WeightSpec
  Proofs.UniformProofs Proofs.MixtureProofs Proofs.HiDaiseeBox Proofs.HiDaiseeProofs Proofs.HiDaiseeHistory.
From Verif Require Proofs.PopulationProofs.
Open Scope Q_scope.

Definition nd (t : htree) (i : nat) : hnode := nth i (ht_nodes t) (hnode_new [] [] NaN).
Lemma nd_nth t i : (i < length (ht_nodes t))%nat -> nth_error (ht_nodes t) i = Some (nd t i).
Proof. intros H. unfold nd. apply nth_error_nth'. auto. Qed.
Lemma leaf_nodes_map t : (forall i, In i (ht_leaves t) -> (i < length (ht_nodes t))%nat) -> leaf_nodes t = map (nd t) (ht_leaves t).
Proof.
  unfold leaf_nodes. induction (ht_leaves t) as [|i l IH]; simpl; intros H; auto. rewrite (nd_nth t i), IH by auto. reflexivity.
Qed.
Lemma map2_maps {A B C D} (f : B -> C -> D) (g : A -> B) (h : A -> C) l : map2 f (map g l) (map h l) = map (fun a => f (g a) (h a)) l.
Proof. induction l; simpl; auto. f_equal. auto. Qed.

(** The positive part of the mean of a list of weights; 0 for none. *)
Definition mean_part (ws : list Q) : Q := match ws with [] => 0 | _ => let m := Qsum ws / Qnat (length ws) in if Qle_bool m 0 then 0 else m end.
Lemma mean_clean n : clean (mean_weight n) == mean_part (map snd (h_rows n)) /\ mean_weight n <> PInf.
Proof.
  unfold mean_weight. destruct (h_rows n) as [|r l]; simpl map.
  - simpl. split; [reflexivity|discriminate].
  - unfold fdivQ. replace (length (r :: l)) with (length (snd r :: map snd l)) by (simpl; rewrite map_length; auto).
    destruct (Qeq_bool_spec (Qnat (length (snd r :: map snd l))) 0) as [E|E].
    + exfalso. pose proof (Qnat_pos (length (snd r :: map snd l)) ltac:(simpl; lia)). lra.
    + split; [reflexivity|discriminate].
Qed.
Definition leaf_share (t : htree) (i : nat) : Q := mean_part (map snd (rows_at t i)).
Lemma share_nonneg t i : 0 <= leaf_share t i.
Proof.
  unfold leaf_share, mean_part. destruct (map snd (rows_at t i)) as [|w l]; [lra|]. cbv zeta. destruct (Qle_bool_spec (Qsum (w :: l) / Qnat (length (w :: l))) 0); lra.
Qed.

Lemma sum_single {I} (f : I -> Q) l i : NoDup l -> In i l -> (forall j, In j l -> j <> i -> f j == 0) -> Qsum (map f l) == f i.
Proof.
  induction l as [|a l IH]; intros N H Z; [destruct H|]. inversion N; subst. simpl. destruct H as [->|H].
  - rewrite (PopulationProofs.Qsum_all_zero (map f l)); [ring|]. apply Forall_forall. intros y Hy. apply in_map_iff in Hy. destruct Hy as (j & <- & Hj). apply Z; [right; auto|]. intros ->. contradiction.
  - rewrite IH; auto; [|intros; apply Z; auto; right; auto]. rewrite (Z a (or_introl eq_refl)); [ring|]. intros ->. contradiction.
Qed.
Lemma sum_over_Qsum {I} (f : I -> Q) l : sum_over f l == Qsum (map f l).
Proof. unfold sum_over. induction l; simpl; [reflexivity|]. rewrite IHl. reflexivity. Qed.

Section Dens.
Variables (d : nat) (w : list Q * list Q) (pis : (vec -> Q) -> Prop).
Lemma box_prob t i x : hinv d w pis t -> In i (ht_leaves t) -> length x = d ->
  (inside (bx t i) x -> node_prob (nd t i) x * box_volume (bx t i) == 1) /\ (~ inside (bx t i) x -> node_prob (nd t i) x == 0) /\ 0 < box_volume (bx t i).
Proof.
  intros I Hi Lx. pose proof (nd_nth t i (hi_leaf _ _ _ _ I i Hi)) as E. destruct (hi_node _ _ _ _ I i _ E) as (Dn & Rn). unfold bx. rewrite E.
  split; [|split].
  - intros H. apply (node_prob_inside _ _ Rn H).
  - intros H. apply node_prob_outside; auto. congruence.
  - apply vol_positive; auto.
Qed.

Lemma model_density t s : hinv d w pis t -> hs_model s = hd_model t ->
  let M := sum_over (leaf_share t) (ht_leaves t) in
  (forall i x, In i (ht_leaves t) -> inside (bx t i) x -> exists v, hd_prob s x = Fin v /\ v * box_volume (bx t i) * M == leaf_share t i) /\
  (forall x, length x = d -> ~ inside w x -> exists v, hd_prob s x = Fin v /\ v == 0) /\
  (M == 0 -> forall x, exists v, hd_prob s x = Fin v /\ v == 0).
Proof.
  intros I Em. cbv zeta. set (M := sum_over (leaf_share t) (ht_leaves t)). set (L := ht_leaves t) in *.
  set (ws := map mean_weight (map (nd t) L)).
  assert (El : leaf_nodes t = map (nd t) L) by (apply leaf_nodes_map; apply (hi_leaf _ _ _ _ I)).
  assert (NP : ~ In PInf ws).
  { unfold ws. rewrite map_map. intros H. apply in_map_iff in H. destruct H as (i & E & _). apply (proj2 (mean_clean (nd t i))). auto. }
  assert (Cl : forall i, In i L -> clean (mean_weight (nd t i)) == leaf_share t i).
  { intros i Hi. rewrite (proj1 (mean_clean (nd t i))). unfold leaf_share, rows_at. rewrite (nd_nth t i (hi_leaf _ _ _ _ I i Hi)). reflexivity. }
  assert (Sc : Qsum (map clean ws) == M).
  { unfold M. rewrite sum_over_Qsum. unfold ws. rewrite !map_map. rewrite <- !sum_over_Qsum. apply sum_over_ext. auto. }
  assert (M0 : 0 <= M).
  { rewrite <- Sc. apply Qsum_nonneg. apply Forall_forall. intros y Hy. apply in_map_iff in Hy. destruct Hy as (? & <- & _). apply clean_nonneg. }
  (* the stored weights *)
  assert (St : exists c, snd (hd_model t) = map Fin (map (fun i => c i) L) /\ (forall i, In i L -> c i * M == leaf_share t i) /\ (M == 0 -> forall i, In i L -> c i == 0)).
  { unfold hd_model. simpl. rewrite El. fold ws. replace (length (map (nd t) L)) with (length ws) by (unfold ws; rewrite map_length; auto).
    destruct (Qlt_le_dec 0 M) as [Mp|Mz].
    - assert (Ex : Exists usable ws).
      { assert (X : 0 < Qsum (map clean ws)) by (rewrite Sc; auto). clear - X. induction ws as [|z l IH]; simpl in X; [lra|].
        destruct (Qlt_le_dec 0 (clean z)) as [H|H]; [left; apply clean_usable; auto|right; apply IH; lra]. }
      destruct (set_weights_stored ws NP Ex) as (sm & _ & Es & Sp & ->). exists (fun i => clean (mean_weight (nd t i)) / sm). split; [|split].
      + unfold ws. rewrite !map_map. reflexivity.
      + intros i Hi. rewrite Cl by auto. rewrite <- Sc, <- Es. field. lra.
      + lra.
    - assert (Mz' : M == 0) by lra. assert (Fz : Forall (fun x => ~ usable x) ws).
      { apply Forall_forall. intros z Hz U. apply clean_usable in U. 
        assert (Qsum (map clean ws) == 0) as Z by lra. apply PopulationProofs.Qsum_zero_all in Z.
        - rewrite Forall_forall in Z. specialize (Z (clean z) (in_map _ _ _ Hz)). lra.
        - apply Forall_forall. intros y Hy. apply in_map_iff in Hy. destruct Hy as (? & <- & _). apply clean_nonneg. }
      destruct (unusable_zero ws Fz NP) as (-> & Z). exists (fun i => clean (mean_weight (nd t i))). rewrite Forall_forall in Z.
      assert (Zi : forall i, In i L -> clean (mean_weight (nd t i)) == 0) by (intros i Hi; apply Z; unfold ws; rewrite map_map; apply (in_map (fun i => mean_weight (nd t i))); auto).
      split; [unfold ws; rewrite !map_map; reflexivity|]. split; auto. intros i Hi. rewrite <- Cl, Zi by auto. lra. }
  destruct St as (c & Ec & C1 & C2).
  assert (Pr : forall x, hd_prob s x = Fin (Qsum (map (fun i => node_prob (nd t i) x * c i) L))).
  { intros x. unfold hd_prob. rewrite Em. rewrite Ec. unfold hd_model. cbn [fst]. rewrite El, map_map, map_map, map2_maps, <- PopulationProofs.fsumQ_fin, map_map. f_equal. apply map_ext. intros i.
    unfold node_prob. destruct (inlier _ _ x); simpl; auto. }
  split; [|split].
  - intros i x Hi Hx. destruct (hi_cut _ _ _ _ I) as (N & _ & U & _). eexists. split; [apply Pr|].
    pose proof (nd_nth t i (hi_leaf _ _ _ _ I i Hi)) as E. destruct (hi_node _ _ _ _ I i _ E) as (Dn & Rn).
    assert (Lx : length x = d).
    { unfold bx in Hx. rewrite E in Hx. apply inside_length in Hx; [congruence|]. apply radii_length; auto. }
    rewrite (sum_single _ L i N Hi).
    + destruct (box_prob t i x I Hi Lx) as (B & _). specialize (B Hx). rewrite <- (C1 i Hi). 
      setoid_replace (node_prob (nd t i) x * c i * box_volume (bx t i) * M) with (node_prob (nd t i) x * box_volume (bx t i) * (c i * M)) by ring. rewrite B. ring.
    + intros j Hj Nj. destruct (box_prob t j x I Hj Lx) as (_ & B & _). rewrite B; [ring|]. intros Hx'. apply Nj. apply (U j i x); auto.
  - intros x Lx Hx. eexists. split; [apply Pr|]. apply PopulationProofs.Qsum_all_zero. apply Forall_forall. intros y Hy. apply in_map_iff in Hy. destruct Hy as (j & <- & Hj).
    destruct (box_prob t j x I Hj Lx) as (_ & B & _). rewrite B; [ring|]. intros H. apply Hx. apply (hi_cut _ _ _ _ I). eauto.
  - intros Mz x. eexists. split; [apply Pr|]. apply PopulationProofs.Qsum_all_zero. apply Forall_forall. intros y Hy. apply in_map_iff in Hy. destruct Hy as (j & <- & Hj). rewrite (C2 Mz j Hj). ring.
Qed.
End Dens.
