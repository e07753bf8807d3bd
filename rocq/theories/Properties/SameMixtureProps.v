(** C121: mixtures written in different ways. *)
From Coq Require Import List Bool Arith Lia QArith Qabs Reals Qreals Lqa Permutation.
Import ListNotations.
From Verif Require Import Prelude.Py Prelude.QBase Prelude.RBase Prelude.QFacts Model.Shape Model.Mixture Model.MixtureLaw Model.Delta
  Spec.WeightSpec Spec.DensitySpec Spec.UnbiasedSpec Spec.WalkSpec Spec.MixtureLawSpec Spec.SameMixtureSpec
  Proofs.MixtureProofs Proofs.MixtureDensity Proofs.PopulationUnbiased Proofs.IndepLaw Proofs.MixtureSelect Proofs.SameMixture Proofs.SameMixtureR
  Properties.MixtureLawProps.
Open Scope Q_scope.

Lemma log_of_same l l' d : log_of l d -> log_of l' d -> l = l'.
Proof. intros [(A & ->)|(A & ->)] [(B & ->)|(B & ->)]; auto; subst; exfalso; eapply Rlt_irrefl; eauto. Qed.
Lemma stored_nonneg s ws : 0 < s -> Forall (fun w => 0 <= w) (map (fun w => clean w / s) ws).
Proof. intros S. rewrite Forall_map. apply Forall_forall. intros w _. pose proof (clean_nonneg w). apply Qle_shift_div_l; lra. Qed.

(** C121: two descriptions of the same mixture report the same densities and log densities, for every batch of points. *)
Theorem C121_same_density_partial :
  forall (X : Type) (d d' : list (fl Q * component X)) rows, same_mixture d d' -> proper_mixture d -> proper_mixture d' ->
  exists ws ws', set_weights (length d) (map fst d) = Ok (map Fin ws) /\ set_weights (length d') (map fst d') = Ok (map Fin ws') /\
    mixture_prob_batch (map (fun wc => c_log (snd wc)) d) ws rows = mixture_prob_batch (map (fun wc => c_log (snd wc)) d') ws' rows /\
    mixture_log_prob_batch (map (fun wc => c_log (snd wc)) d) ws rows = mixture_log_prob_batch (map (fun wc => c_log (snd wc)) d') ws' rows.
Proof.
  intros X d d' rows H (NP & U & LV) (NP' & U' & LV').
  destruct (set_weights_stored _ NP U) as (s & _ & Es & S0 & E). destruct (set_weights_stored _ NP' U') as (s' & _ & Es' & S0' & E').
  rewrite map_length in E, E'. eexists _, _. split; [exact E|]. split; [exact E'|].
  destruct (same_density_factor d d' H) as (k & K & W & D). rewrite !weight_total_clean, <- Es, <- Es' in W.
  assert (SR : forall x, weighted_sum (map (fun w => clean w / s) (map fst d)) (map (fun wc => density_of (c_log (snd wc) x)) d) =
    weighted_sum (map (fun w => clean w / s') (map fst d')) (map (fun wc => density_of (c_log (snd wc) x)) d')).
  { intros x. pose proof (stored_density s (fun c => density_of (c_log c x)) d S0) as A. pose proof (stored_density s' (fun c => density_of (c_log c x)) d' S0') as B.
    cbv beta in A, B. rewrite A, B, D. apply Qeq_eqR in W. rewrite W, Q2R_mult.
    assert (P : forall q, 0 < q -> Q2R q <> 0%R). { intros q Q0 E0. replace 0%R with (Q2R 0) in E0 by apply RMicromega.Q2R_0. apply eqR_Qeq in E0. lra. }
    field. split; apply P; auto. }
  assert (F : forall x, Forall log_value (map (fun m => m x) (map (fun wc : fl Q * component X => c_log (snd wc)) d))).
  { intros x. rewrite map_map, Forall_map. apply Forall_forall. intros wc I. now apply LV. }
  assert (F' : forall x, Forall log_value (map (fun m => m x) (map (fun wc : fl Q * component X => c_log (snd wc)) d'))).
  { intros x. rewrite map_map, Forall_map. apply Forall_forall. intros wc I. now apply LV'. }
  assert (MM : forall (e : list (fl Q * component X)) x, map density_of (map (fun m => m x) (map (fun wc => c_log (snd wc)) e)) = map (fun wc => density_of (c_log (snd wc) x)) e).
  { intros e x. now rewrite !map_map. }
  unfold mixture_prob_batch, mixture_log_prob_batch. split; apply map_ext; intros x.
  - rewrite !mixture_prob_spec by (auto; now apply stored_nonneg). rewrite !MM. f_equal. apply SR.
  - pose proof (mixture_log_spec _ _ (F x) (stored_nonneg s (map fst d) S0)) as A. pose proof (mixture_log_spec _ _ (F' x) (stored_nonneg s' (map fst d') S0')) as B.
    rewrite MM in A, B. rewrite SR in A. exact (log_of_same _ _ _ A B).
Qed.
Print Assumptions C121_same_density_partial.

(** Mean values under the stored weights. *)
Lemma mean_mixture_law {X} s (f : X -> Q) (d : list (fl Q * component X)) : 0 < s ->
  mean_of (mixture_law (map (fun w => clean w / s) (map fst d)) (map (fun wc => c_law (snd wc)) d)) f == tot (fun c => mean_of (c_law c) f) d / s.
Proof.
  intros S. unfold mixture_law, mean_of, tot. induction d as [|(w, c) d IH]; [simpl; field; lra|]. simpl map. simpl concat. rewrite map_app, Qsum_app.
  etransitivity; [apply Qplus_comp; [|exact IH]; reflexivity|]. cbn [Qsum fst snd]. rewrite map_map. cbn [fst snd].
  rewrite (Qsum_ext _ (fun mx => clean w / s * (fst mx * f (snd mx)))) by (intros; ring).
  rewrite (Qsum_scal (clean w / s)). field. lra.
Qed.
Lemma expect_same {X} (l l' : list (Q * X)) : (forall f, mean_of l f == mean_of l' f) -> forall n F, expect_each (repeat l n) F == expect_each (repeat l' n) F.
Proof.
  intros H. induction n as [|n IH]; intros F; simpl; [reflexivity|]. etransitivity; [apply (H (fun x => expect_each (repeat l n) (fun xs => F (x :: xs))))|].
  unfold mean_of. apply Qsum_ext. intros mx _. now rewrite IH.
Qed.

(** C121: their draws have the same joint law: every function of what sample(n) returns has the same expected value. *)
Theorem C121_same_draws :
  forall (X : Type) (x0 : X) (d d' : list (fl Q * component X)) ws ws' ul ul' n F, same_mixture d d' -> proper_mixture d -> proper_mixture d' ->
  (forall wc, In wc d -> is_law (c_law (snd wc))) -> (forall wc, In wc d' -> is_law (c_law (snd wc))) ->
  set_weights (length d) (map fst d) = Ok (map Fin ws) -> set_weights (length d') (map fst d') = Ok (map Fin ws') -> fair_choice ul ws -> fair_choice ul' ws' ->
  sample_mean x0 ul ws (map (fun wc => c_law (snd wc)) d) n F == sample_mean x0 ul' ws' (map (fun wc => c_law (snd wc)) d') n F.
Proof.
  intros X x0 d d' ws ws' ul ul' n F H (NP & U & _) (NP' & U' & _) Law Law' Ew Ew' Fc Fc'.
  destruct (set_weights_stored _ NP U) as (s & _ & Es & S0 & E). destruct (set_weights_stored _ NP' U') as (s' & _ & Es' & S0' & E').
  rewrite map_length in E, E'. rewrite E in Ew. rewrite E' in Ew'.
  assert (Inj : forall a b : list Q, map Fin a = map Fin b -> a = b).
  { induction a as [|x a IH]; intros [|y b] HH; try discriminate; auto. injection HH as -> HH. f_equal. auto. }
  injection Ew as Ew. apply Inj in Ew. injection Ew' as Ew'. apply Inj in Ew'. subst ws ws'.
  destruct (same_law_factor d d' H) as (k & K & W & M). rewrite !weight_total_clean, <- Es, <- Es' in W.
  assert (PV : forall q l, 0 < q -> q == Qsum (map clean l) -> prob_vec (map (fun w => clean w / q) l)).
  { intros q l Q0 Eq. split; [now apply stored_nonneg|]. rewrite Qsum_div_const, <- Eq. field. lra. }
  rewrite (C108_joint X x0 ul _ _ n F (PV _ _ S0 Es) Fc); [|now rewrite !map_length|intros l Hl; apply in_map_iff in Hl; destruct Hl as (wc & <- & Hw); auto].
  rewrite (C108_joint X x0 ul' _ _ n F (PV _ _ S0' Es') Fc'); [|now rewrite !map_length|intros l Hl; apply in_map_iff in Hl; destruct Hl as (wc & <- & Hw); auto].
  apply expect_same. intros f. rewrite !mean_mixture_law by auto. rewrite (M f), W. field. split; lra.
Qed.
Print Assumptions C121_same_draws.

(** C121: a mixture object used as a component is a mixture of its own components: the step that resolves nesting applies to it. *)
Theorem C121_nested_objects :
  forall (X : Type) (inner : list (Q * component X)), is_normalised (map fst inner) -> (forall wc x, In wc inner -> log_value (c_log (snd wc) x)) ->
  mixture_of inner (mkComponent (fun x => mixture_log_prob (map (fun wc => c_log (snd wc) x) inner) (map fst inner))
    (mixture_law (map fst inner) (map (fun wc => c_law (snd wc)) inner))).
Proof.
  intros X inner N LV. split; auto. split.
  - intros x. cbn [c_log]. rewrite <- (map_map (fun wc => c_log (snd wc) x) density_of). apply mixture_log_spec; [|apply N]. rewrite Forall_map. apply Forall_forall. auto.
  - intros f. cbn [c_law]. clear N LV. unfold mixture_law, mean_of. induction inner as [|(w, c) r IH]; [reflexivity|]. simpl map. simpl concat. rewrite map_app, Qsum_app.
    etransitivity; [apply Qplus_comp; [|exact IH]; reflexivity|]. cbn [Qsum fst snd]. rewrite map_map. cbn [fst snd].
    rewrite (Qsum_ext _ (fun mx => w * (fst mx * f (snd mx)))) by (intros; ring). rewrite (Qsum_scal w). reflexivity.
Qed.
Print Assumptions C121_nested_objects.

(** C121 (full statement: also for components with infinite density) is false: a point mass that has no weight makes the density of the
    mixture NaN at its location, where the mixture without it has a positive finite density; the log density is not affected. *)
Definition log_real (l : fl Q) : fl R := match l with Fin a => Fin (Q2R a) | PInf => PInf | NInf => NInf | NaN => NaN end.
Lemma all_close_self loc : all_close loc loc = true.
Proof.
  induction loc as [|c r IH]; simpl; auto. rewrite IH, andb_true_r. unfold isclose. destruct (Qle_bool_spec (Qabs (c - c)) ((1 # 100000000) + (1 # 100000) * Qabs c)); auto.
  exfalso. assert (Z : Qabs (c - c) == 0) by (setoid_replace (c - c) with 0 by ring; reflexivity). pose proof (Qabs_nonneg c). lra.
Qed.
Theorem C121_unused_point_refuted :
  forall loc l, exists ws v, set_weights 2 [Fin 1; Fin 0] = Ok (map Fin ws) /\ delta_log_prob loc (Arr1 loc) = Ok [v] /\
    mixture_prob [Fin l; log_real v] ws = NaN /\ mixture_log_prob [Fin l; log_real v] ws = Fin l /\
    exists ws1, set_weights 1 [Fin 1] = Ok (map Fin ws1) /\ mixture_prob [Fin l] ws1 = Fin (exp l) /\ mixture_log_prob [Fin l] ws1 = Fin l.
Proof.
  intros loc l. exists [1 / (1 + (0 + 0)); 0 / (1 + (0 + 0))], PInf. split; [reflexivity|]. split.
  { unfold delta_log_prob, check_shape. rewrite Nat.eqb_refl. simpl. now rewrite all_close_self. }
  assert (O : forall q, q == 1 -> Q2R q = 1%R) by (intros q Hq; apply Qeq_eqR in Hq; rewrite Hq; apply RMicromega.Q2R_1).
  assert (Z : forall q, q == 0 -> Q2R q = 0%R) by (intros q Hq; apply Qeq_eqR in Hq; rewrite Hq; apply RMicromega.Q2R_0).
  assert (L : forall ls ws, Forall log_value ls -> Forall (fun w => 0 <= w) ws -> weighted_sum ws (map density_of ls) = exp l -> mixture_log_prob ls ws = Fin l).
  { intros ls ws A B C. destruct (mixture_log_spec ls ws A B) as [(_ & D)|(D & _)]; rewrite C in D; [now rewrite ln_exp in D|]. pose proof (exp_pos l) as P. rewrite D in P. exfalso. eapply Rlt_irrefl; eauto. }
  split.
  { unfold mixture_prob. simpl. unfold fscale_inf. rewrite (Z (0 / _)) by reflexivity. unfold Rltb. destruct (Rlt_dec 0 0) as [H|_]; [exfalso; eapply Rlt_irrefl; eauto|]. reflexivity. }
  split.
  { change (mixture_log_prob [Fin l; NInf] [1 / (1 + (0 + 0)); 0 / (1 + (0 + 0))] = Fin l). apply L; [repeat constructor|repeat constructor; vm_compute; discriminate|].
    simpl. rewrite (O (1 / _)), (Z (0 / _)) by reflexivity. ring. }
  exists [1 / (1 + 0)]. split; [reflexivity|]. split.
  - rewrite mixture_prob_spec; [|repeat constructor|repeat constructor; vm_compute; discriminate]. simpl. rewrite (O (1 / _)) by reflexivity. f_equal. ring.
  - apply L; [repeat constructor|repeat constructor; vm_compute; discriminate|]. simpl. rewrite (O (1 / _)) by reflexivity. ring.
Qed.
Print Assumptions C121_unused_point_refuted.

(** Examples: two components, the first of them used twice with half of its weight, one component without a weight, in other units. *)
Definition part_a : component bool := mkComponent (fun b : bool => if b then Fin 0%R else NInf) [(1, true)].
Definition part_b : component bool := mkComponent (fun b : bool => Fin 1%R) [(1 # 2, true); (1 # 2, false)].
Definition short_mixture : list (fl Q * component bool) := [(Fin (4 # 12), part_a); (Fin (2 # 3), part_b)].
Definition long_mixture : list (fl Q * component bool) := [(NaN, part_b); (Fin 2, part_b); (Fin (1 # 2), part_a); (Fin (1 # 2), part_a)].
Example C121_same_density_partial_example : same_mixture short_mixture long_mixture /\ proper_mixture short_mixture /\ proper_mixture long_mixture.
Proof.
  assert (NU : ~ usable (@NaN Q)) by (intros (a & E & _); discriminate).
  split.
  - apply sm_sym. eapply sm_trans; [apply sm_unused; [exact NU|discriminate]|].
    eapply sm_trans; [apply (sm_order _ ([(Fin (1 # 2), part_a); (Fin (1 # 2), part_a); (Fin 2, part_b)]))|].
    { apply Permutation_sym. apply (Permutation_app_comm [(Fin (1 # 2), part_a); (Fin (1 # 2), part_a)] [(Fin 2, part_b)]). }
    eapply sm_trans; [apply sm_together; vm_compute; discriminate|]. exact (sm_units (1 # 3) _ eq_refl).
  - split; (split; [simpl; intuition discriminate|]); (split; [|intros wc x; simpl; intros I; repeat (destruct I as [<-|I]; [destruct x; exact Logic.I|]); destruct I]).
    + left. exists (4 # 12). split; reflexivity.
    + right. left. exists 2. split; reflexivity.
Qed.
Example C121_same_draws_example : (forall wc, In wc short_mixture -> is_law (c_law (snd wc))) /\ (forall wc, In wc long_mixture -> is_law (c_law (snd wc))) /\
  exists ws ws' ul ul', set_weights 2 (map fst short_mixture) = Ok (map Fin ws) /\ set_weights 4 (map fst long_mixture) = Ok (map Fin ws') /\ fair_choice ul ws /\ fair_choice ul' ws'.
Proof.
  assert (A : is_law (c_law part_a)) by (split; [reflexivity|intros wx [<-|[]]; vm_compute; discriminate]).
  assert (B : is_law (c_law part_b)) by (split; [reflexivity|intros wx [<-|[<-|[]]]; vm_compute; discriminate]).
  split; [intros wc [<-|[<-|[]]]; auto|]. split; [intros wc [<-|[<-|[<-|[<-|[]]]]]; auto|].
  destruct C121_same_density_partial_example as (_ & (N & U & _) & (N' & U' & _)).
  destruct (set_weights_spec _ N U) as (o & E & (V & T) & _). destruct (set_weights_spec _ N' U') as (o' & E' & (V' & T') & _). rewrite total_Qsum in T, T'.
  destruct (C108_fair_laws o) as (ul & Fu); [split; auto|]. destruct (C108_fair_laws o') as (ul' & Fu'); [split; auto|]. exists o, o', ul, ul'. auto.
Qed.
Example C121_nested_objects_example : is_normalised (map fst [(1 # 3, part_a); (2 # 3, part_b)]) /\ (forall wc x, In wc [(1 # 3, part_a); (2 # 3, part_b)] -> log_value (c_log (snd wc) x)).
Proof. split; [split; [repeat constructor; vm_compute; discriminate|reflexivity]|]. intros wc x [<-|[<-|[]]]; destruct x; exact I. Qed.
