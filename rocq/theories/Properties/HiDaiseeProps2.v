(** Properties C76 and C77: the density HiDaisee reports and what it counts. *)
From Coq Require Import List Bool Arith Lia QArith Lqa Permutation.
Import ListNotations.
From Verif Require Import Prelude.Py Prelude.QBase Prelude.QFacts Prelude.ListFacts Model.Uniform Model.HiDaisee Spec.UniformSpec Spec.SplitSpec
  Proofs.UniformProofs Proofs.HiDaiseeBox Proofs.HiDaiseeProofs Proofs.HiDaiseeHistory Proofs.HiDaiseeDensity Properties.HiDaiseeProps.
From Verif Require Proofs.PopulationProofs.
Open Scope Q_scope.

Definition leaf_box (t : htree) (i : nat) : list Q * list Q :=
  match nth_error (ht_nodes t) i with
  | Some n => (map2 Qminus (h_center n) (h_radius n), map2 Qplus (h_center n) (h_radius n)) | None => ([], []) end.
Definition leaf_rows (t : htree) (i : nat) : list (vec * Q) := match nth_error (ht_nodes t) i with Some n => h_rows n | None => [] end.
(** Mean weight of a leaf, 0 for a leaf without samples. *)
Definition leaf_mean (t : htree) (i : nat) : Q :=
  fold_right (fun xw v => snd xw + v) 0 (leaf_rows t i) / inject_Z (Z.of_nat (length (leaf_rows t i))).

Lemma mean_agree t i : (forall x w, In (x, w) (leaf_rows t i) -> 0 <= w) -> leaf_share t i == leaf_mean t i.
Proof.
  unfold leaf_share, leaf_mean, leaf_rows. fold (rows_at t i). intros H. destruct (rows_at t i) as [|(x, w) l] eqn:E; [reflexivity|].
  set (r := (x, w) :: l) in *. assert (Es : Qsum (map snd r) == fold_right (fun xw v => snd xw + v) 0 r).
  { clear. induction r as [|(y, v) r IH]; simpl; [reflexivity|]. rewrite IH. reflexivity. }
  assert (N : 0 <= Qsum (map snd r)) by (apply Qsum_nonneg, Forall_forall; intros y Hy; apply in_map_iff in Hy; destruct Hy as ((a, b) & <- & Hb); eapply H; eauto).
  pose proof (Qnat_pos (length r) ltac:(simpl; lia)) as L.
  unfold mean_part. destruct (map snd r) as [|y m] eqn:M; [discriminate|]. rewrite <- M in *. cbv zeta. rewrite map_length.
  assert (N' : 0 <= Qsum (map snd r) / Qnat (length r)) by (apply Qle_shift_div_l; lra).
  rewrite <- Es. change (inject_Z (Z.of_nat (length r))) with (Qnat (length r)). destruct (Qle_bool_spec (Qsum (map snd r) / Qnat (length r)) 0); lra.
Qed.

(** C76 (full statement: after a call that returned, with non-negative targets, the reported density is constant on every leaf, with total mass one
    divided among the leaves in proportion to the mean weight of their samples, and zero outside the space). True when some returned weight is positive. *)
Theorem C76_density_partial :
  forall P ops s pi n rds s', corners (hp_lo P) (hp_hi P) -> hd_reachable P ops s -> dims_ok (length (hp_lo P)) ops -> dim_ok (length (hp_lo P)) rds ->
  hd_call P pi n rds s = Done s' -> (forall f, f = pi \/ called_with ops f -> forall x, 0 <= f x) ->
  (exists x w, In (x, w) (hs_samples s') /\ 0 < w) ->
  let t := hs_tree s' in
  exists dens : nat -> Q,
    (forall i, In i (ht_leaves t) -> 0 <= dens i) /\
    sum_over (fun i => dens i * box_volume (leaf_box t i)) (ht_leaves t) == 1 /\
    (forall i j, In i (ht_leaves t) -> In j (ht_leaves t) ->
       dens i * box_volume (leaf_box t i) * leaf_mean t j == dens j * box_volume (leaf_box t j) * leaf_mean t i) /\
    (forall i x, In i (ht_leaves t) -> inside (leaf_box t i) x -> exists v, hd_prob s' x = Fin v /\ v == dens i) /\
    (forall x, length x = length (hp_lo P) -> ~ inside (hp_lo P, hp_hi P) x -> exists v, hd_prob s' x = Fin v /\ v == 0).
Proof.
  intros P ops s pi n rds s' C R D Hd E Nn Pos. pose proof (reach_inv P C ops s R D) as I.
  set (pis := fun f => f = pi \/ called_with ops f). assert (I0 : hinv (length (hp_lo P)) (hp_lo P, hp_hi P) pis (hs_tree s)) by (eapply hinv_weaken; [|exact I]; intros f Hf; right; exact Hf).
  unfold hd_call in E.
  destruct (turns_spec P pi rds pis (or_introl eq_refl) Hd (n - length (hs_samples s)) (length (hs_samples s)) s I0) as [(s1 & xs & E1 & I1 & _)|(e & s1 & xs & E1 & _)]; rewrite E1 in E; [|discriminate].
  injection E as <-. cbn [hs_tree hs_samples] in *. set (t := hs_tree s1) in *. cbv zeta.
  set (s' := mkHD t (hd_rows t) (hs_pi s1) (hs_q s1) (hs_draws s1) (hd_model t)).
  destruct (model_density _ _ _ t s' I1 eq_refl) as (A1 & A2 & _). set (M := sum_over (leaf_share t) (ht_leaves t)) in *.
  assert (W : forall i x w, In i (ht_leaves t) -> In (x, w) (leaf_rows t i) -> 0 <= w).
  { intros i x w Hi Hx. unfold leaf_rows in Hx. destruct (nth_error (ht_nodes t) i) as [m|] eqn:Em; [|destruct Hx].
    destruct (hi_rows _ _ _ _ I1 i m x w Hi Em Hx) as (_ & f & Hf & ->). destruct (hi_node _ _ _ _ I1 i m Em) as (_ & Rm). pose proof (vol_positive _ _ Rm). pose proof (Nn f Hf x). unfold nbox. nra. }
  assert (Sh : forall i, In i (ht_leaves t) -> leaf_share t i == leaf_mean t i) by (intros i Hi; apply mean_agree; intros x w; apply W; auto).
  assert (Mp : 0 < M).
  { destruct Pos as (x & w & Hx & Hw). rewrite hd_rows_at in Hx. apply in_flat_map in Hx. destruct Hx as (i & Hi & Hx).
    assert (Si : 0 < leaf_share t i).
    { rewrite Sh by auto. unfold leaf_mean. fold (rows_at t i) in *. change (leaf_rows t i) with (rows_at t i). 
      assert (0 < fold_right (fun xw v => snd xw + v) 0 (rows_at t i)).
      { assert (Wi : forall x w, In (x, w) (rows_at t i) -> 0 <= w) by (intros y v; apply (W i y v Hi)). revert Hx Wi. generalize (rows_at t i). clear - Hw. intros l. induction l as [|(y, v) l IH]; intros H Wi; [destruct H|]. simpl.
        assert (Z : 0 <= fold_right (fun (xw : vec * Q) v => snd xw + v) 0 l).
        { assert (Wl : forall x w, In (x, w) l -> 0 <= w) by (intros; eapply Wi; right; eauto). clear - Wl. induction l as [|(a, b) l IH]; simpl; [lra|]. pose proof (Wl a b (or_introl eq_refl)). assert (0 <= fold_right (fun (xw : vec * Q) v => snd xw + v) 0 l) by (apply IH; intros; eapply Wl; right; eauto). lra. }
        destruct H as [H|H]; [inversion H; subst; lra|]. pose proof (Wi y v (or_introl eq_refl)). specialize (IH H ltac:(intros; eapply Wi; right; eauto)). lra. }
      assert (0 < Qnat (length (rows_at t i))) by (apply Qnat_pos; destruct (rows_at t i); [destruct Hx|simpl; lia]).
      apply Qlt_shift_div_l; auto. }
    unfold M. rewrite sum_over_Qsum. eapply (PopulationProofs.Qsum_pos_in _ (leaf_share t i)); auto.
    - apply Forall_forall. intros y Hy. apply in_map_iff in Hy. destruct Hy as (j & <- & _). apply share_nonneg.
    - apply in_map; auto. }
  assert (V : forall i, In i (ht_leaves t) -> 0 < box_volume (leaf_box t i)).
  { intros i Hi. unfold leaf_box. pose proof (hi_leaf _ _ _ _ I1 i Hi) as L. destruct (nth_error (ht_nodes t) i) as [m|] eqn:Em; [|apply nth_error_None in Em; lia].
    destruct (hi_node _ _ _ _ I1 i m Em) as (_ & Rm). apply (vol_positive _ _ Rm). }
  exists (fun i => leaf_share t i / M / box_volume (leaf_box t i)). split; [|split; [|split; [|split]]].
  - intros i Hi. pose proof (V i Hi). pose proof (share_nonneg t i). apply Qle_shift_div_l; auto. rewrite Qmult_0_l. apply Qle_shift_div_l; auto. rewrite Qmult_0_l. auto.
  - rewrite (sum_over_ext _ (fun i => leaf_share t i / M)) by (intros i Hi; pose proof (V i Hi); field; lra).
    transitivity (M / M); [|field; lra]. unfold M at 2. rewrite !sum_over_Qsum. clear. generalize (ht_leaves t). intros l. set (N := M). clearbody N.
    induction l as [|i l IH]; simpl; [unfold Qdiv; ring|]. rewrite IH. unfold Qdiv. ring.
  - intros i j Hi Hj. pose proof (V i Hi). pose proof (V j Hj). rewrite <- !Sh by auto. field. lra.
  - intros i x Hi Hx. destruct (A1 i x Hi) as (v & Ev & Hv); [exact Hx|]. exists v. split; auto. rewrite <- Hv. pose proof (V i Hi) as Vi.
    change (bx t i) with (leaf_box t i). field. lra.
  - intros x Lx Hx. apply A2; auto.
Qed.
Print Assumptions C76_density_partial.
Example C76_density_example :
  hd_reachable line_hd [(HdCall bump 2 left_rounds, true)] (line_after 2) /\ (forall x, 0 <= bump x) /\
  exists s' x w, hd_call line_hd bump 4 left_rounds (line_after 2) = Done s' /\ In (x, w) (hs_samples s') /\ 0 < w.
Proof.
  split; [apply line_reachable; lia|]. split; [intros [|a [|b x]]; simpl; try lra; destruct (_ && _); lra|].
  eexists. eexists. eexists. split; [vm_compute; reflexivity|]. split; [left; reflexivity|reflexivity].
Qed.

(** When all returned weights are zero the reported density is zero everywhere. *)
Theorem C76_zero_weights :
  forall P ops s pi n rds s', corners (hp_lo P) (hp_hi P) -> hd_reachable P ops s -> dims_ok (length (hp_lo P)) ops -> dim_ok (length (hp_lo P)) rds ->
  hd_call P pi n rds s = Done s' -> (forall x w, In (x, w) (hs_samples s') -> w == 0) -> forall x, exists v, hd_prob s' x = Fin v /\ v == 0.
Proof.
  intros P ops s pi n rds s' C R D Hd E Z. pose proof (reach_inv P C ops s R D) as I.
  assert (I0 : hinv (length (hp_lo P)) (hp_lo P, hp_hi P) (fun _ => True) (hs_tree s)) by (eapply hinv_weaken; [|exact I]; auto).
  unfold hd_call in E.
  destruct (turns_spec P pi rds _ Logic.I Hd (n - length (hs_samples s)) (length (hs_samples s)) s I0) as [(s1 & xs & E1 & I1 & _)|(e & s1 & xs & E1 & _)]; rewrite E1 in E; [|discriminate].
  injection E as <-. cbn [hs_tree hs_samples] in *. set (t := hs_tree s1) in *.
  destruct (model_density _ _ _ t (mkHD t (hd_rows t) (hs_pi s1) (hs_q s1) (hs_draws s1) (hd_model t)) I1 eq_refl) as (_ & _ & A). apply A.
  rewrite sum_over_Qsum. apply PopulationProofs.Qsum_all_zero, Forall_forall. intros y Hy. apply in_map_iff in Hy. destruct Hy as (i & <- & Hi).
  assert (Wz : forall x w, In (x, w) (leaf_rows t i) -> w == 0) by (intros x w Hx; apply (Z x w); rewrite hd_rows_at; apply in_flat_map; exists i; auto).
  rewrite mean_agree by (intros x w Hx; rewrite (Wz x w Hx); lra). unfold leaf_mean.
  assert (S0 : fold_right (fun (xw : vec * Q) v => snd xw + v) 0 (leaf_rows t i) == 0).
  { revert Wz. generalize (leaf_rows t i). intros l. induction l as [|(a, b) l IH]; intros H; simpl; [reflexivity|]. rewrite (H a b (or_introl eq_refl)), IH; [ring|]. intros; eapply H; right; eauto. }
  rewrite S0. unfold Qdiv. ring.
Qed.
Print Assumptions C76_zero_weights.
Theorem C76_total_refuted :
  exists P pi n rds s', corners (hp_lo P) (hp_hi P) /\ dim_ok (length (hp_lo P)) rds /\ hd_call P pi n rds (hd_new P) = Done s' /\ (forall x, 0 <= pi x) /\
    forall x, exists v, hd_prob s' x = Fin v /\ v == 0.
Proof.
  set (s' := out_state (hd_call line_hd (fun _ => 0) 1 left_rounds (hd_new line_hd))).
  assert (E : hd_call line_hd (fun _ => 0) 1 left_rounds (hd_new line_hd) = Done s') by (vm_compute; reflexivity).
  exists line_hd, (fun _ => 0), 1%nat, left_rounds, s'. split; [apply line_corners|]. split; [intros t; simpl; lia|]. split; [exact E|].
  split; [intros; lra|]. apply (C76_zero_weights line_hd [] (hd_new line_hd) (fun _ => 0) 1 left_rounds s'); auto; [apply line_corners|constructor|intros ? ? ? ? []|intros t; simpl; lia|].
  vm_compute. intros x w [H|[]]. inversion H. reflexivity.
Qed.
Print Assumptions C76_total_refuted.
(** Before the first call, and after a reset, the density is the uniform one. *)
Theorem C76_initial_density :
  forall P x, corners (hp_lo P) (hp_hi P) -> length x = length (hp_lo P) ->
  exists v, hd_prob (hd_new P) x = Fin v /\ (inside (hp_lo P, hp_hi P) x -> v * box_volume (hp_lo P, hp_hi P) == 1) /\ (~ inside (hp_lo P, hp_hi P) x -> v == 0).
Proof.
  intros P x C Lx. set (root := hnode_new (map2 (fun h l => (h + l) / 2) (hp_hi P) (hp_lo P)) (map2 (fun h l => (h - l) / 2) (hp_hi P) (hp_lo P)) (Fin 0)).
  pose proof (corners_length _ _ C) as L. exists (node_prob root x * 1 + 0). split; [|split].
  - unfold hd_prob, hd_new. cbn [hs_model fst snd]. fold root. unfold node_prob. cbn [map2]. destruct (inlier _ _ x); reflexivity.
  - intros H. assert (Hx : inside (nbox root) x) by (apply new_box; auto). destruct (node_prob_inside root x (new_radii _ _ C) Hx) as (_ & B).
    unfold nbox in B. simpl h_center in B. simpl h_radius in B. rewrite (new_volume _ _ L) in B. rewrite Qplus_0_r, Qmult_1_r. exact B.
  - intros H. rewrite (node_prob_outside root x); [ring|apply new_radii; auto|simpl; rewrite map2_length; lia|]. intros Hx. apply H. exact (proj1 (new_box (hp_lo P) (hp_hi P) x L) Hx).
Qed.
Print Assumptions C76_initial_density.
Example C76_initial_example : corners [0; 0] [1; 2] /\ inside ([0; 0], [1; 2]) [1 # 2; 1] /\ box_volume ([0; 0], [1; 2]) == 2.
Proof. repeat constructor; try reflexivity; unfold inside; simpl; repeat split; reflexivity || discriminate. Qed.

(** ** Counters *)
Lemma turns_evals P pi rds : forall k t s,
  (hs_pi (out_state (hd_turns P pi rds t k s)) = hs_q (out_state (hd_turns P pi rds t k s)) <-> hs_pi s = hs_q s) /\
  (hs_pi s <= hs_pi (out_state (hd_turns P pi rds t k s)))%nat /\
  (forall s', hd_turns P pi rds t k s = Done s' -> hs_pi s + k <= hs_pi s')%nat.
Proof.
  induction k as [|k IH]; intros t s; simpl.
  - split; [reflexivity|]. split; auto. intros s' E. inversion E. lia.
  - pose proof (turn_counters P pi t (rds t) s) as A. pose proof (turn_evals P pi t (rds t) s) as (B & _).
    assert (B' : forall s1, hd_turn P pi t (rds t) s = Done s1 -> (S (hs_pi s) <= hs_pi s1)%nat).
    { unfold hd_turn. destruct (descend _ _ _ _ _) as [(p, i)|]; [|discriminate]. destruct (nth_error _ i) as [n|]; [|discriminate]. cbv zeta.
      destruct (Qle_bool _ 0); [discriminate|]. destruct (_ && _).
      - destruct (split _ _ _ _) as (t3, ok). destruct ok; intros s1 E; inversion E; subst; simpl; lia.
      - intros s1 E. inversion E; subst. simpl. lia. }
    destruct (hd_turn P pi t (rds t) s) as [s1|s1|e s1]; simpl in *; try (split; [auto|]; split; [auto|discriminate]).
    destruct (IH (S t) s1) as (C1 & C2 & C3). specialize (B' s1 eq_refl). split; [rewrite C1; auto|]. split; [lia|]. intros s' E. apply C3 in E. lia.
Qed.

(** C77. In every history the numbers of target and proposal evaluations are equal; when no call failed since the last reset, the number of proposal
    samples is the number of samples held plus those asked for by sample(), and there was at least one evaluation for each sample held. *)
Theorem C77_counters :
  forall P ops s, corners (hp_lo P) (hp_hi P) -> hd_reachable P ops s -> dims_ok (length (hp_lo P)) ops ->
  hs_pi s = hs_q s /\
  (intact ops -> hs_draws s = (length (hs_samples s) + sampled ops)%nat /\ (length (hs_samples s) <= hs_pi s)%nat).
Proof.
  intros P ops s C R D. split; [|intros F; split; [apply (reach_draws P C ops s R D F)|]].
  - clear D. induction R as [|ops s pi n rds s' R IH E|ops s pi n rds e s' R IH E|ops s n R IH|ops s R IH]; auto.
    + unfold hd_call in E. destruct (turns_evals P pi rds (n - length (hs_samples s)) (length (hs_samples s)) s) as (A & _).
      destruct (hd_turns _ _ _ _ _ _) eqn:Et; inversion E; subst; simpl in *. apply A; auto.
    + unfold hd_call in E. destruct (turns_evals P pi rds (n - length (hs_samples s)) (length (hs_samples s)) s) as (A & _).
      destruct (hd_turns _ _ _ _ _ _) eqn:Et; inversion E; subst; simpl in *. apply A; auto.
  - induction R as [|ops s pi n rds s' R IH E|ops s pi n rds e s' R IH E|ops s n R IH|ops s R IH]; simpl in *; auto.
    + assert (D' : dims_ok (length (hp_lo P)) ops) by (intros ? ? ? ? H; eapply D; right; eauto). destruct F as (_ & F). specialize (IH D' F).
      pose proof (C53_keeps_samples_partial P ops s pi n rds s' C R D' F (D _ _ _ _ (or_introl eq_refl)) E) as (L & _).
      unfold hd_call in E. destruct (turns_evals P pi rds (n - length (hs_samples s)) (length (hs_samples s)) s) as (_ & _ & A).
      destruct (hd_turns _ _ _ _ _ _) as [s1| |] eqn:Et; inversion E; subst s'. cbn [hs_pi]. specialize (A s1 eq_refl). rewrite L. lia.
    + destruct F; discriminate.
    + apply IH; auto. intros ? ? ? ? H; eapply D; right; eauto.
Qed.
Print Assumptions C77_counters.
Example C77_counters_example :
  hd_reachable line_hd [(HdSample 3, true); (HdCall bump 4 left_rounds, true)] (hd_drawn 3 (line_after 4)) /\
  hs_draws (hd_drawn 3 (line_after 4)) = 7%nat /\ hs_pi (line_after 4) = 8%nat.
Proof. split; [apply hd_sampled, line_reachable; lia|]. split; vm_compute; reflexivity. Qed.
