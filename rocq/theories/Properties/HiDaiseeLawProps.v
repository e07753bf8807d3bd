(** C108 for HiDaisee: draws of sample() follow prob(). *)
From Coq Require Import List Bool Arith Lia QArith Lqa.
Import ListNotations.
From Verif Require Import Prelude.Py Prelude.QBase Prelude.QFacts Model.Base Model.Mixture Model.Uniform Model.HiDaisee Model.Population Model.MixtureLaw Model.HiDaiseeLaw
  Spec.UnbiasedSpec Spec.WalkSpec Spec.UniformSpec Spec.SplitSpec Spec.MixtureLawSpec Spec.HdLawSpec
  Proofs.UniformProofs Proofs.HiDaiseeBox Proofs.HiDaiseeProofs Proofs.HiDaiseeHistory Proofs.HiDaiseeDensity Proofs.MixtureSelect Proofs.MixtureDraws Proofs.HiDaiseeLawProofs
  Properties.HiDaiseeProps Properties.HiDaiseeProps2.
Open Scope Q_scope.

(** C108. HiDaisee, after a call that returned and with a sample of positive weight: sample(m) makes m
    independent draws of the mixture of the leaves, so that the expected number inside a leaf is m times the mass that prob() puts there. *)
Theorem C108_hidaisee :
  forall P ops s pi n rds s', corners (hp_lo P) (hp_hi P) -> hd_reachable P ops s -> dims_ok (length (hp_lo P)) ops -> dim_ok (length (hp_lo P)) rds ->
  hd_call P pi n rds s = Done s' -> (forall f, f = pi \/ called_with ops f -> forall x, 0 <= f x) ->
  (exists x w, In (x, w) (hs_samples s') /\ 0 < w) ->
  let t := hs_tree s' in
  exists ws, snd (hs_model s') = map Fin ws /\ prob_vec ws /\
  (forall ul dl m F, fair_choice ul ws -> unit_law (length (hp_lo P)) dl ->
     hd_sample_mean s' ul dl m F == expect_each (repeat (mixture_law ws (map (fun i => placed_law dl (leaf_box t i)) (ht_leaves t))) m) (fun xs => F (Ok xs))) /\
  forall i, In i (ht_leaves t) ->
  exists p, (forall x, inside (leaf_box t i) x -> exists v, hd_prob s' x = Fin v /\ v == p) /\
    forall ul dl m, fair_choice ul ws -> unit_law (length (hp_lo P)) dl ->
      hd_sample_mean s' ul dl m (fun o => match o with Ok xs => count_in (leaf_box t i) xs | Raise _ => - (1) end) == Qnat m * (p * box_volume (leaf_box t i)).
Proof.
  intros P ops s pi n rds s' C R D Hd E Nn Pos t.
  destruct (C76_density_partial P ops s pi n rds s' C R D Hd E Nn Pos) as (dens & _ & Sum & _ & Dn & _). fold t in Sum, Dn.
  pose proof (reach_inv P C ops s R D) as I0.
  assert (I1 : hinv (length (hp_lo P)) (hp_lo P, hp_hi P) (fun _ => True) (hs_tree s)) by (eapply hinv_weaken; [|exact I0]; auto).
  assert (J : hinv (length (hp_lo P)) (hp_lo P, hp_hi P) (fun _ => True) t /\ hs_model s' = hd_model t).
  { unfold hd_call in E.
    destruct (turns_spec P pi rds _ Logic.I Hd (n - length (hs_samples s)) (length (hs_samples s)) s I1) as [(s1 & xs & E1 & I2 & _)|(e & s1 & xs & E1 & _)]; rewrite E1 in E; [|discriminate].
    unfold t. injection E as <-. cbn [hs_tree hs_model]. auto. }
  destruct J as (J & Em).
  assert (Bx : forall i, leaf_box t i = bx t i) by reflexivity.
  destruct (hi_cut _ _ _ _ J) as (Nd & _ & Un & Co & _).
  assert (In1 : forall i, In i (ht_leaves t) -> exists x, inside (bx t i) x).
  { intros i Hi. exists (uniform_row (fst (bx t i)) (snd (bx t i)) (fun _ => 1 # 2) 0). apply row_open; [auto|]. intros; lra. }
  assert (Mp : 0 < sum_over (leaf_share t) (ht_leaves t)).
  { destruct (Qlt_le_dec 0 (sum_over (leaf_share t) (ht_leaves t))) as [|Z]; auto. exfalso.
    assert (0 <= sum_over (leaf_share t) (ht_leaves t)).
    { rewrite sum_over_Qsum. apply Qsum_nonneg. rewrite Forall_map. apply Forall_forall. intros i _. apply share_nonneg. }
    destruct (model_density _ _ _ t s' J Em) as (_ & _ & A). assert (S0 : sum_over (leaf_share t) (ht_leaves t) == 0) by lra.
    assert (Zs : sum_over (fun i => dens i * box_volume (leaf_box t i)) (ht_leaves t) == 0); [|lra].
    rewrite sum_over_Qsum. apply PopulationProofs.Qsum_all_zero. rewrite Forall_map. apply Forall_forall. intros i Hi.
    destruct (In1 i Hi) as (x & Hx). destruct (Dn i x Hi Hx) as (v & Ev & Hv). destruct (A S0 x) as (v' & Ev' & Hv'). rewrite Ev in Ev'. injection Ev' as <-. rewrite <- Hv, Hv'. ring. }
  destruct (model_weights _ _ _ t J Mp) as (c & Ws & Pv & Cs). exists (map c (ht_leaves t)). rewrite Em. split; [exact Ws|]. split; [exact Pv|].
  assert (Fb : fst (hs_model s') = map (fun i => node_box (nd t i)) (ht_leaves t)).
  { rewrite Em. unfold hd_model. cbn [fst]. rewrite (leaf_nodes_map t (hi_leaf _ _ _ _ J)). now rewrite map_map. }
  assert (Bb : forall i, In i (ht_leaves t) -> (u_lo (node_box (nd t i)), u_hi (node_box (nd t i))) = bx t i).
  { intros j Hj. unfold bx. rewrite (nd_nth t j (hi_leaf _ _ _ _ J j Hj)). reflexivity. }
  assert (Nb : forall j, (j < length (ht_leaves t))%nat -> nth j (map (fun i => node_box (nd t i)) (ht_leaves t)) (mkUnif 0 [] [] 0) = node_box (nd t (nth j (ht_leaves t) 0%nat))).
  { intros j Hj. rewrite (nth_indep _ _ (node_box (nd t 0%nat))) by (rewrite map_length; auto). apply (map_nth (fun i => node_box (nd t i))). }
  assert (Cd : forall b, In b (map (fun i => node_box (nd t i)) (ht_leaves t)) -> length (u_lo b) = length (hp_lo P) /\ corners (u_lo b) (u_hi b)).
  { intros b Hb. apply in_map_iff in Hb. destruct Hb as (j & <- & Hj). pose proof (Co j Hj) as K. rewrite <- (Bb j Hj) in K. split; auto.
    destruct (hi_node _ _ _ _ J j _ (nd_nth t j (hi_leaf _ _ _ _ J j Hj))) as (L & Rn). simpl. unfold vsub. rewrite map2_length by (apply radii_length; auto). exact L. }
  split.
  { intros ul dl m F Fa Ud. pose proof (boxes_law (length (hp_lo P)) ul dl s' (map c (ht_leaves t))) as B. rewrite Fb, Em in B. specialize (B Ws Pv Fa). rewrite !map_length in B.
    specialize (B eq_refl Ud Cd m F). rewrite B. rewrite map_map.
    assert (map (fun x => placed_law dl (u_lo (node_box (nd t x)), u_hi (node_box (nd t x)))) (ht_leaves t) = map (fun i => placed_law dl (leaf_box t i)) (ht_leaves t)) as ->; [|reflexivity].
    apply map_ext_in. intros j Hj. now rewrite (Bb j Hj). }
  intros i Hi. exists (dens i). split; [intros x; apply Dn; auto|]. intros ul dl m Fa Ud.
  destruct (In_nth _ _ 0%nat Hi) as (k & Hk & Ek).
  pose proof (boxes_count (length (hp_lo P)) ul dl s' (map c (ht_leaves t))) as B. rewrite Fb, Em in B. specialize (B Ws Pv Fa). rewrite !map_length in B. specialize (B eq_refl Ud).
  specialize (B Cd). 
  assert (Sp : forall a b x, (a < length (ht_leaves t))%nat -> (b < length (ht_leaves t))%nat ->
    half_open (u_lo (nth a (map (fun i => node_box (nd t i)) (ht_leaves t)) (mkUnif 0 [] [] 0))) (u_hi (nth a (map (fun i => node_box (nd t i)) (ht_leaves t)) (mkUnif 0 [] [] 0))) x ->
    half_open (u_lo (nth b (map (fun i => node_box (nd t i)) (ht_leaves t)) (mkUnif 0 [] [] 0))) (u_hi (nth b (map (fun i => node_box (nd t i)) (ht_leaves t)) (mkUnif 0 [] [] 0))) x -> a = b).
  { intros a b x Ha Hb A1 A2. rewrite !Nb in * by auto. pose proof (nth_In _ 0%nat Ha) as Ia. pose proof (nth_In _ 0%nat Hb) as Ib.
    apply (NoDup_nth (ht_leaves t) 0%nat); auto. apply (Un _ _ x); auto; unfold inside; rewrite <- Bb by auto; auto. }
  specialize (B Sp m k Hk). rewrite (Nb k Hk), Ek in B. rewrite (Bb i Hi) in B. rewrite Bx. rewrite B. apply Qmult_comp; [reflexivity|].
  rewrite (nth_indep _ 0 (c 0%nat)) by (rewrite map_length; auto). rewrite (map_nth c), Ek.
  destruct (In1 i Hi) as (x & Hx). destruct (Dn i x Hi Hx) as (v & Ev & Hv). destruct (model_density _ _ _ t s' J Em) as (A & _). destruct (A i x Hi Hx) as (v' & Ev' & Hv').
  rewrite Ev in Ev'. injection Ev' as <-. rewrite <- Hv. apply (Qmult_inj_r _ _ (sum_over (leaf_share t) (ht_leaves t))); [lra|]. rewrite (Cs i Hi). symmetry. exact Hv'.
Qed.
Print Assumptions C108_hidaisee.
Example C108_hidaisee_example :
  hd_reachable line_hd [(HdCall bump 2 left_rounds, true)] (line_after 2) /\ (forall x, 0 <= bump x) /\
  (exists s' x w, hd_call line_hd bump 4 left_rounds (line_after 2) = Done s' /\ In (x, w) (hs_samples s') /\ 0 < w) /\
  unit_law 1 [(1 # 2, [1 # 4]); (1 # 2, [3 # 4])] /\ forall ws, prob_vec ws -> exists ul, fair_choice ul ws.
Proof.
  destruct C76_density_example as (A & B & G). split; [exact A|]. split; [exact B|]. split; [exact G|]. split; [|exact fair_exists].
  split; [split; [reflexivity|]|].
  - intros wx [<-|[<-|[]]]; simpl; lra.
  - intros wx [<-|[<-|[]]]; simpl; (split; [reflexivity|]); repeat constructor; simpl; lra.
Qed.
