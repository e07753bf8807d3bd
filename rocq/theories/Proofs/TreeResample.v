(** The weights that leaf resampling gives to the leaves. *)
From Coq Require Import List Bool Arith Lia QArith Lqa Permutation.
Import ListNotations.
From Verif Require Import Prelude.Py Prelude.QBase Prelude.QFacts Model.Population Model.Tree Model.TreeSampler Spec.TreeSpec
  Proofs.TreeProofs Proofs.TreeMask Proofs.TreeSamplerTree Proofs.TreeSamplerInv Proofs.PopulationProofs.
Open Scope Q_scope.

Lemma combine_nth {A B : Type} (l : list A) (m : list B) q : nth_error (combine l m) q =
  match nth_error l q, nth_error m q with Some a, Some b => Some (a, b) | _, _ => None end.
Proof.
  revert m q. induction l as [|a l IH]; intros [|b m] [|q]; simpl; auto.
  - destruct (nth_error l q); auto.
Qed.
Lemma map_fst_combine {A B : Type} (l : list A) (m : list B) : length l = length m -> map fst (combine l m) = l.
Proof. revert m. induction l as [|a l IH]; intros [|b m] L; simpl in *; try discriminate; auto. f_equal. auto. Qed.
Lemma map_snd_combine {A B : Type} (l : list A) (m : list B) : length l = length m -> map snd (combine l m) = m.
Proof. revert m. induction l as [|a l IH]; intros [|b m] L; simpl in *; try discriminate; auto. f_equal. auto. Qed.
Lemma Qsum_zero_member l : Forall (fun q => 0 <= q) l -> Qsum l <= 0 -> forall q, In q l -> q == 0.
Proof.
  induction 1 as [|a l A F IH]; simpl; intros S q []; pose proof (Qsum_nonneg l F).
  - subst. lra.
  - apply IH; auto. lra.
Qed.

Section Shares.
Variables (P : tp_params) (pi : vec -> Q) (r : tp_round) (t : tree) (d : nat) (whole : cell) (k : nat) (sc : vec * Q * vec -> Q).
Hypothesis I : tree_inv d whole k t.
Let rows := resample_rows P r (combine (masked (t_mask t) (t_centers t)) (masked (t_mask t) (t_radii t))).
Let t' := resample_tree P pi r t.
Hypothesis raw : forall c rad z, In (c, rad, z) rows ->
  fdivflQ (Fin (pi (re_sample c rad z))) (re_density P rad z) = Fin (sc (c, rad, z)) /\ 0 <= sc (c, rad, z).

Lemma resample_shares : exists held : list (nat * (vec * Q * vec)),
  Permutation (map fst held) (t_leaves t) /\ t_leaves t' = t_leaves t /\
  (forall i c rad z, In (i, (c, rad, z)) held -> exists n w q,
     nth_error (t_nodes t') i = Some n /\ n_center n = c /\ n_radius n = rad /\ z = re_unit P (rd_re r q) /\
     nth_error (t_samples t') i = Some (re_sample c rad z) /\ nth_error (t_weights t') i = Some (Fin w) /\ n_weight n = Fin w /\
     (0 < Qsum (map sc (map snd held)) -> w * Qsum (map sc (map snd held)) == sc (c, rad, z)) /\
     (Qsum (map sc (map snd held)) <= 0 -> w == 0)) /\
  masked (t_mask t') (t_weights t') =
    (if Qltb 0 (Qsum (map sc (map snd held))) then map (fun cz => Fin (sc cz / Qsum (map sc (map snd held)))) (map snd held)
     else map (fun cz => Fin (sc cz)) (map snd held)) /\
  (forall q i c rad z, nth_error held q = Some (i, (c, rad, z)) -> z = re_unit P (rd_re r q)).
Proof.
  pose proof (mask_length _ _ _ _ I) as ML.
  assert (LC : length (combine (masked (t_mask t) (t_centers t)) (masked (t_mask t) (t_radii t))) = count_true (t_mask t)).
  { rewrite combine_length, !masked_length, Nat.min_id; auto; rewrite ML, ?(ti_radii _ _ _ _ I), ?(ti_centers _ _ _ _ I), map_length; auto. }
  assert (LR : length rows = count_true (t_mask t)).
  { unfold rows, resample_rows. rewrite map_length, combine_length, seq_length, Nat.min_id. exact LC. }
  assert (LM : length (masked_refs t) = length rows).
  { unfold masked_refs. rewrite masked_length, LR; auto. rewrite seq_length. auto. }
  set (ws := map (fun '(c, rad, z) => fdivflQ (Fin (pi (re_sample c rad z))) (re_density P rad z)) rows).
  set (xs := map (fun '(c, rad, z) => re_sample c rad z) rows).
  assert (Ews : ws = map Fin (map sc rows)).
  { unfold ws. rewrite map_map. apply map_ext_in. intros ((c, rad), z) H. apply (raw _ _ _ H). }
  assert (Pos : Forall (fun q => 0 <= q) (map sc rows)).
  { apply Forall_forall. intros q H. apply in_map_iff in H. destruct H as (((c, rad), z) & <- & H). apply (raw _ _ _ H). }
  exists (combine (masked_refs t) rows). rewrite (map_fst_combine _ _ LM), (map_snd_combine _ _ LM).
  set (S := Qsum (map sc rows)).
  set (t0 := put_cache t (put_masked (t_mask t) (t_samples t) xs) (put_masked (t_mask t) (t_weights t) ws)).
  set (t1 := self_normalize t0).
  assert (MW : masked (t_mask t) (put_masked (t_mask t) (t_weights t) ws) = ws).
  { apply masked_put; [rewrite (ti_weights _ _ _ _ I), ML; auto|unfold ws; rewrite map_length; auto]. }
  assert (Ew1 : t_weights t1 = put_masked (t_mask t) (put_masked (t_mask t) (t_weights t) ws) (if Qltb 0 S then map (fun cz => Fin (sc cz / S)) rows else ws)).
  { unfold t1, self_normalize. change (t_mask t0) with (t_mask t). change (t_weights t0) with (put_masked (t_mask t) (t_weights t) ws). rewrite MW.
    assert (Es : fsumQ ws = Fin S) by (rewrite Ews; apply fsumQ_fin). rewrite Es. simpl fgtQ. destruct (Qltb_spec 0 S) as [L|L].
    - simpl. f_equal. rewrite Ews, map_map, map_map. apply map_ext. intros cz. simpl. unfold fdivQ. destruct (Qeq_bool_spec S 0); [lra|reflexivity].
    - simpl. set (l := put_masked (t_mask t) (t_weights t) ws) in *. rewrite <- MW.
      assert (G : forall A m (l : list A), put_masked m l (masked m l) = l).
      { clear. intros A m. induction m as [|b m IH]; intros [|a l]; simpl; auto. destruct b; simpl; f_equal; auto. }
      symmetry. apply G. }
  assert (En1 : t_nodes t1 = t_nodes t /\ t_leaves t1 = t_leaves t /\ t_mask t1 = t_mask t /\ t_samples t1 = put_masked (t_mask t) (t_samples t) xs).
  { unfold t1, self_normalize. destruct (fgtQ _ 0); repeat split. }
  destruct En1 as (En1 & El1 & Em1 & Es1).
  assert (I1 : tree_inv d whole k t1).
  { unfold t1, self_normalize. assert (tree_inv d whole k t0) by (apply cache_inv; auto; apply put_masked_length).
    destruct (fgtQ _ 0); auto. apply cache_inv; auto. apply put_masked_length. }
  destruct (refresh_fold (t_leaves t1) t1 (leaves_nodup _ _ _ _ I1)) as (f1 & f2 & f3 & f4 & f5 & f6 & fn).
  change (fold_left refresh_leaf (t_leaves t1) t1) with t' in *.
  assert (LV : length (if Qltb 0 S then map (fun cz => Fin (sc cz / S)) rows else ws) = count_true (t_mask t)).
  { destruct (Qltb 0 S); unfold ws; rewrite map_length; auto. }
  split; [eapply masked_refs_perm; eauto|]. split; [congruence|]. split.
  - intros i c rad z H. apply In_nth_error in H. destruct H as (q & E). rewrite combine_nth in E.
    destruct (nth_error (masked_refs t) q) as [i'|] eqn:Ei; [|discriminate]. destruct (nth_error rows q) as [row|] eqn:Er; [|discriminate].
    inversion E; subst i' row. clear E. unfold masked_refs in Ei. apply masked_in in Ei; [|rewrite seq_length; auto].
    destruct Ei as (a & Rk & M & Sa). rewrite nth_error_seq in Sa. destruct (Nat.ltb_spec a (length (t_nodes t))) as [La|La]; [|discriminate].
    simpl in Sa. inversion Sa; subst a. clear Sa.
    destruct (nth_error (t_nodes t) i) as [n|] eqn:En; [|apply nth_error_None in En; lia].
    assert (Ln : is_leaf n = true) by (rewrite (mask_leaf _ _ _ _ _ _ I En) in M; congruence).
    assert (existsb (Nat.eqb i) (t_leaves t1) = true) as X.
    { apply existsb_in. rewrite El1. apply (leaf_in _ _ _ _ _ _ I En). auto. }
    pose proof (fn i) as Fi. rewrite En1, En, X in Fi.
    assert (Row : n_center n = c /\ n_radius n = rad /\ z = re_unit P (rd_re r q)).
    { unfold rows in Er. rewrite resample_rows_nth in Er. rewrite <- masked_combine in Er by (rewrite (ti_centers _ _ _ _ I), (ti_radii _ _ _ _ I), !map_length; auto).
      rewrite <- Rk in Er at 1. rewrite masked_rank in Er; auto; [|rewrite combine_length, ML, (ti_centers _ _ _ _ I), (ti_radii _ _ _ _ I), !map_length; apply Nat.min_id].
      rewrite combine_nth, (ti_centers _ _ _ _ I), (ti_radii _ _ _ _ I), !nth_error_map, En in Er. simpl in Er. inversion Er. auto. }
    destruct Row as (Ec & Erad & Ez). destruct (ti_node _ _ _ _ I _ _ En) as (Ii & _).
    assert (Ex : nth_error (t_samples t1) i = Some (re_sample c rad z)).
    { rewrite Es1, put_rank; auto; [|rewrite (ti_samples _ _ _ _ I), ML; auto|unfold xs; rewrite !map_length; auto].
      rewrite Rk. unfold xs. rewrite nth_error_map, Er. reflexivity. }
    assert (Ew : exists w, nth_error (t_weights t1) i = Some (Fin w) /\ (0 < S -> w * S == sc (c, rad, z)) /\ (S <= 0 -> w == 0)).
    { rewrite Ew1, put_rank; auto; [|rewrite put_masked_length, (ti_weights _ _ _ _ I), ML; auto]. rewrite Rk. destruct (Qltb_spec 0 S) as [L|L].
      - rewrite nth_error_map, Er. eexists. split; [reflexivity|]. split; [intros _; field; lra|lra].
      - rewrite Ews, !nth_error_map, Er. eexists. split; [reflexivity|]. split; [lra|]. intros Z.
        apply (Qsum_zero_member (map sc rows)); auto. apply in_map. eapply nth_error_In; eauto. }
    destruct Ew as (w & Ew & W1 & W2). eexists _, w, q. split; [exact Fi|]. unfold refreshed. simpl. repeat split; auto; try congruence.
    rewrite Ii. rewrite (nth_error_nth _ _ NaN Ew). reflexivity.
  - split.
    + rewrite f5, f6, Em1, Ew1. rewrite masked_put; auto; [|rewrite put_masked_length, (ti_weights _ _ _ _ I), ML; auto].
      destruct (Qltb 0 S); auto. rewrite Ews, map_map. reflexivity.
    + intros q i c rad z E. rewrite combine_nth in E. destruct (nth_error (masked_refs t) q); [|discriminate].
      unfold rows in E. rewrite resample_rows_nth in E.
      destruct (nth_error (combine _ _) q) as [(c0, r0)|]; [|discriminate]. simpl in E. congruence.
Qed.
End Shares.
