(** Property C108: the density of a mixture is the density its draws have. *)
From Coq Require Import List Bool Arith Lia QArith Reals Qreals.
Import ListNotations.
From Verif Require Import Prelude.Py Prelude.QBase Prelude.QFacts Model.Base Model.Mixture Model.MixtureLaw
  Spec.UnbiasedSpec Spec.WalkSpec Spec.MixtureLawSpec Spec.DensitySpec Proofs.PopulationUnbiased Proofs.IndepLaw Proofs.MixtureSelect
  Proofs.MixtureDensity Proofs.MixtureDraws Properties.MixtureLawProps.
Open Scope Q_scope.

Lemma mean1_cells {X} v (pts : list X) d f : mean1 (cell_law v pts d) f == integral v pts (fun x => f x * d x).
Proof. unfold mean1, cell_law, integral. rewrite map_map. apply Qsum_ext. intros; simpl; ring. Qed.
Lemma selection_cells {X} v (pts : list X) f ws : forall ds, length ds = length ws ->
  selection ws (fun i => mean1 (nth i (map (cell_law v pts) ds) []) f) == integral v pts (fun x => f x * mix_density ws ds x).
Proof.
  induction ws as [|w ws IH]; intros [|d ds] L; try discriminate; simpl.
  - unfold integral. rewrite (Qsum_ext _ (fun _ => 0)), Qsum_const; [ring|]. intros; unfold mix_density; simpl; ring.
  - rewrite IH by (simpl in L; lia). rewrite mean1_cells. unfold integral. rewrite <- Qsum_scal, <- Qsum_plus. apply Qsum_ext.
    intros x _. unfold mix_density. simpl. ring.
Qed.

(** The density that prob() of the mixture reports, as a function g, is the density of the draws of sample(): the expected total of
    any f over n draws is n times the integral of f g. Components are densities on finitely many cells of volume v, given to the
    mixture by their logarithms. *)
Theorem C108_reported :
  forall (X : Type) (x0 : X) ul ws (models : list (X -> fl R)) (ds : list (X -> Q)) v pts n f,
  prob_vec ws -> fair_choice ul ws -> length ds = length ws ->
  Forall2 (fun (m : X -> fl R) d => forall x, log_of (m x) (Q2R (d x))) models ds ->
  0 <= v -> (forall d, In d ds -> (forall x, 0 <= d x) /\ integral v pts d == 1) ->
  exists g, (forall x, mixture_prob (map (fun m => m x) models) ws = Fin (Q2R (g x))) /\
    sample_mean x0 ul ws (map (cell_law v pts) ds) n (fun o => match o with Ok xs => Qsum (map f xs) | Raise _ => - (1) end)
    == Qnat n * integral v pts (fun x => f x * g x).
Proof.
  intros X x0 ul ws models ds v pts n f V Fa L Fm Hv Hd. exists (mix_density ws ds). split.
  - intros x. rewrite mixture_prob_spec.
    + f_equal. clear V Fa Hd. revert ws L. unfold mix_density. induction Fm as [|m d ms ds H _ IH]; intros [|w ws] L; try discriminate; simpl.
      * symmetry. apply RMicromega.Q2R_0.
      * rewrite Q2R_plus, Q2R_mult, <- IH by (simpl in L; lia). f_equal. f_equal.
        destruct (H x) as [(P & ->)|(Z & ->)]; simpl; [apply exp_ln; auto|auto].
    + rewrite Forall_map. clear -Fm. induction Fm as [|m d ms ds H _ IH]; constructor; auto. destruct (H x) as [(_ & ->)|(_ & ->)]; exact I.
    + apply V.
  - assert (La : forall l, In l (map (cell_law v pts) ds) -> is_law l).
    { intros l Hl. apply in_map_iff in Hl. destruct Hl as (d & <- & Hl). destruct (Hd d Hl) as (A & B). split.
      - rewrite <- B. unfold cell_law, integral. rewrite map_map. reflexivity.
      - intros wx Hx. apply in_map_iff in Hx. destruct Hx as (x & <- & _). simpl. apply Qmult_le_0_compat; auto. }
    assert (Le : length (map (cell_law v pts) ds) = length ws) by now rewrite map_length.
    rewrite C108_joint; auto. cbn beta iota.
    rewrite expect_total by (intros l Hl; apply repeat_spec in Hl; subst; apply is_law_mass, mass_mixture; auto).
    rewrite Qsum_repeat. apply Qmult_comp; [reflexivity|].
    change (mean1 (mixture_law ws (map (cell_law v pts) ds)) f == integral v pts (fun x => f x * mix_density ws ds x)).
    rewrite mixture_law_mean by auto. apply selection_cells. auto.
Qed.
Print Assumptions C108_reported.

Definition half_dens (b x : bool) : Q := if Bool.eqb b x then 1 else 0.
Definition half_log (b x : bool) : fl R := if Bool.eqb b x then Fin (ln (Q2R 1)) else NInf.
Example C108_reported_example :
  prob_vec third_ws /\ fair_choice (grid 3) third_ws /\
  Forall2 (fun (m : bool -> fl R) d => forall x, log_of (m x) (Q2R (d x))) [half_log true; half_log false] [half_dens true; half_dens false] /\
  (forall d, In d [half_dens true; half_dens false] -> (forall x, 0 <= d x) /\ integral 1 [true; false] d == 1) /\
  sample_mean true (grid 3) third_ws (map (cell_law 1 [true; false]) [half_dens true; half_dens false]) 2
    (fun o => match o with Ok xs => Qsum (map (fun b : bool => if b then 1 else 0) xs) | Raise _ => - (1) end) == 2 # 3.
Proof.
  split; [exact third_probs|]. split; [exact third_fair|]. split.
  { assert (A : forall b x, log_of (half_log b x) (Q2R (half_dens b x))).
    { intros b x. unfold half_log, half_dens. destruct (Bool.eqb b x); [left|right]; (split; [|reflexivity]).
      - rewrite RMicromega.Q2R_1. apply Rlt_0_1.
      - apply RMicromega.Q2R_0. }
    constructor; [exact (A true)|constructor; [exact (A false)|constructor]]. }
  split; [intros d [<-|[<-|[]]]; (split; [intros []; unfold half_dens; simpl; discriminate|vm_compute; reflexivity])|vm_compute; reflexivity].
Qed.
