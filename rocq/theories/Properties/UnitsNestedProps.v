(** Property C109 for nested and multi-nested sampling. *)
From Coq Require Import List Bool Arith Lia QArith Qreals Reals Lqa.
Import ListNotations.
From Verif Require Import Prelude.Py Prelude.QBase Model.Base Model.Nested Spec.ScaleSpec Spec.UnitsSpec Spec.UnitsOps Proofs.ScaleBase Proofs.ScaleSimple Proofs.ScaleR Proofs.UnitsBase
  Proofs.NestedWitness Proofs.UnitsNested Properties.UnitsProps.
Open Scope Q_scope.

Lemma nested_run_units a b c P P' o o' s s' : 0 < a -> 0 < c -> (forall pi pi', redensity a b pi pi' -> forall x y, recoord a b x y -> pi' y == c * pi x) -> ns_space a b P P' ->
  ns_units a b o o' -> ns_rel a b c s s' -> outs (ns_rel a b c) (nested_run P o s) (nested_run P' o' s').
Proof.
  intros A C Hc Sp H L. destruct o, o'; simpl in H; try contradiction.
  - destruct H as (D & -> & -> & F & ->). apply nested_call_units; auto.
  - destruct H as (-> & ->). now apply ns_sample_units.
  - subst. now apply ns_query_units.
  - destruct H as (-> & U). now apply ns_reset_units.
Qed.
Theorem C109_nested a b P P' us ops ops' s : 0 < a -> ns_space a b P P' -> unit_draws b us -> nested_reachable P us ops s -> Forall2 (ns_units a b) ops ops' ->
  exists s', nested_reachable P' us ops' s' /\ recoords a b (ns_samples s) (ns_samples s') /\ recoords a b (ns_live s) (ns_live s') /\ recoords_opt a b (ns_model s) (ns_model s') /\
    (forall N, nested_weights N (map Q2R (ns_L s')) = nested_weights N (map Q2R (ns_L s))) /\ ns_q_samples s' = ns_q_samples s /\ ns_pi_evals s' = ns_pi_evals s.
Proof.
  intros A Sp U R F. destruct (redensity_inv a b A) as (c & C & Hc). assert (G : exists s', nested_reachable P' us ops' s' /\ ns_rel a b c s s').
  { revert ops' F. induction R as [|o ops s s1 R IH E]; intros ops' F; inversion F as [|? o' ? l' Ho Hl]; subst; [exists (ns_new P' us); split; [constructor|now apply ns_new_units]|].
    destruct (IH l' Hl) as (s' & R' & L). pose proof (nested_run_units a b c P P' o o' s s' A C Hc Sp Ho L) as H. destruct E as [E|(e & E)]; rewrite E in H; destruct (nested_run P' o' s') as [s2|s2|e2 s2] eqn:E2; simpl in H; try contradiction.
    - exists s2. split; [|exact H]. eapply nested_next; eauto.
    - destruct H as (<- & H). exists s2. split; [|exact H]. eapply nested_next; eauto. }
  destruct G as (s' & R' & L). exists s'. pose proof (ns_rel_samples _ _ _ _ _ L) as Sm. destruct L as (H1 & H2 & H3 & H4 & H5 & H6 & H7 & H8 & _). repeat (split; auto). intros N. now apply (nested_weights_scale c).
Qed.
Print Assumptions C109_nested.
Definition u_nP : ns_params := mkNsP [3] [5] 1 2 0.
Definition u_npi (y : vec) : Q := match y with [t] => npi [(t - 3) / 2] / 2 | _ => 0 end.
Definition u_rep1 : repl := mkRepl 1 [-(1 # 4)] [].
Definition u_rep2 : repl := mkRepl 1 [-(1)] [([4], 1); ([1 # 4], 2)].
Lemma npi_eq x y : x == y -> npi [x] == npi [y].
Proof. intros E. simpl. rewrite (Qleb_comp 0 0 (Qeq_refl 0) x y E), (Qleb_comp x y E 1 1 (Qeq_refl 1)). destruct (Qle_bool 0 y && Qle_bool y 1); [exact E|reflexivity]. Qed.
Lemma u_npi_re : redensity 2 [3] npi u_npi.
Proof.
  intros x y H. destruct x as [|x0 [|? ?]], y as [|y0 [|? ?]]; simpl in H; try tauto. destruct H as (E & _). unfold u_npi. rewrite (npi_eq ((y0 - 3) / 2) x0) by (rewrite E; field).
  change (2 ^ Z.of_nat (length [3])) with 2. field.
Qed.
Example C109_nested_example : nested_reachable nP nus [ncall] ns1 /\ length (ns_samples ns1) = 2%nat /\ ns_space 2 [3] nP u_nP /\ unit_draws [3] nus /\
  Forall2 (ns_units 2 [3]) [ncall] [NsCall u_npi 2 60 [u_rep1; u_rep2] (fun i => i)].
Proof.
  split; [apply n_reach|]. split; [reflexivity|]. split; [|split; [repeat constructor|constructor; [|constructor]]].
  - split; [apply one_pt; reflexivity|]. split; [apply one_pt; reflexivity|reflexivity].
  - simpl. split; [apply u_npi_re|]. split; [reflexivity|]. split; [reflexivity|]. split; [|reflexivity].
    constructor; [|constructor; [|constructor]]; (split; [reflexivity|]); (split; [apply one_disp; reflexivity|]); [constructor|].
    constructor; [|constructor; [|constructor]]; (split; [apply one_disp; reflexivity|reflexivity]).
Qed.

(** * Multi-nested sampling: the origin. Volumes and distances are the same. *)
Lemma ns_live_finish P pick s : length (ns_live (out_state (ns_query P pick s))) = length (ns_live s).
Proof. unfold ns_query. destruct (ns_model s); [reflexivity|]. destruct (update_model _ _ _); reflexivity. Qed.
Lemma ns_live_sample P pick m s : length (ns_live (out_state (ns_sample P pick m s))) = length (ns_live s).
Proof. unfold ns_sample. destruct (ns_model s); [reflexivity|]. destruct (update_model _ _ _); reflexivity. Qed.
Lemma multi_run_units b c P P' N o o' s s' : 0 < c -> (forall pi pi', redensity 1 b pi pi' -> forall x y, recoord 1 b x y -> pi' y == c * pi x) -> ns_space 1 b P P' -> ns_radius P' == ns_radius P ->
  length (ns_live s) = N -> mn_units 1 b N 1 1 o o' -> ns_rel 1 b c s s' -> outs (ns_rel 1 b c) (multi_run P o s) (multi_run P' o' s') /\ length (ns_live (out_state (multi_run P o s))) = N.
Proof.
  intros C Hc Sp Ra Ln H L. destruct o, o'; simpl in H; try contradiction.
  - destruct H as (O & Lb & D & -> & -> & F & ->). split; [|cbn [multi_run]; rewrite multi_call_len; exact Ln]. apply (multi_call_units 1 b eq_refl c C 1); auto; [reflexivity|rewrite Ra; ring|congruence].
  - destruct H as (-> & ->). split; [now apply ns_sample_units|]. cbn [multi_run]. now rewrite ns_live_sample.
  - subst. split; [now apply ns_query_units|]. cbn [multi_run]. apply ns_live_finish.
  - destruct H as (-> & U & Lu). split; [now apply ns_reset_units|]. cbn. now rewrite map_length.
Qed.
Theorem C109_multi_nested_partial b P P' us ops ops' s : ns_space 1 b P P' -> ns_radius P' == ns_radius P -> unit_draws b us -> multi_reachable P us ops s -> Forall2 (mn_units 1 b (length us) 1 1) ops ops' ->
  exists s', multi_reachable P' us ops' s' /\ recoords 1 b (ns_samples s) (ns_samples s') /\ recoords 1 b (ns_live s) (ns_live s') /\ recoords_opt 1 b (ns_model s) (ns_model s') /\
    (forall N, nested_weights N (map Q2R (ns_L s')) = nested_weights N (map Q2R (ns_L s))) /\ ns_q_samples s' = ns_q_samples s /\ ns_pi_evals s' = ns_pi_evals s.
Proof.
  intros Sp Ra U R F. destruct (redensity_inv 1 b eq_refl) as (c & C & Hc). assert (G : exists s', multi_reachable P' us ops' s' /\ ns_rel 1 b c s s' /\ length (ns_live s) = length us).
  { revert ops' F. induction R as [|o ops s s1 R IH E]; intros ops' F; inversion F as [|? o' ? l' Ho Hl]; subst; [exists (ns_new P' us); split; [constructor|split; [now apply ns_new_units|apply map_length]]|].
    destruct (IH l' Hl) as (s' & R' & L & Ln). pose proof (multi_run_units b c P P' (length us) o o' s s' C Hc Sp Ra Ln Ho L) as (H & Lm).
    destruct E as [E|(e & E)]; rewrite E in H, Lm; destruct (multi_run P' o' s') as [s2|s2|e2 s2] eqn:E2; simpl in H; try contradiction.
    - exists s2. split; [|split; [exact H|exact Lm]]. eapply multi_next; eauto.
    - destruct H as (<- & H). exists s2. split; [|split; [exact H|exact Lm]]. eapply multi_next; eauto. }
  destruct G as (s' & R' & L & _). exists s'. pose proof (ns_rel_samples _ _ _ _ _ L) as Sm. destruct L as (H1 & H2 & H3 & H4 & H5 & H6 & H7 & H8 & _). repeat (split; auto). intros N. now apply (nested_weights_scale c).
Qed.
Print Assumptions C109_multi_nested_partial.
Definition u_mP : ns_params := mkNsP [3] [4] 1 4 0.
Definition u_mpi (y : vec) : Q := match y with [t] => npi [t - 3] | _ => 0 end.
Definition u_mrep : repl := mkRepl 0 [79 # 20] [].
Example C109_multi_nested_example : multi_reachable mP mus [mcall] ms1 /\ ns_samples ms1 <> [] /\ ns_space 1 [3] mP u_mP /\ ns_radius u_mP == ns_radius mP /\ unit_draws [3] mus /\
  Forall2 (mn_units 1 [3] (length mus) 1 1) [mcall] [MnCall moc u_mpi 5 60 [u_mrep; u_mrep; u_mrep; u_mrep] (fun i => i)].
Proof.
  split; [apply m_reach|]. split; [discriminate|]. split; [|split; [reflexivity|split; [repeat constructor|constructor; [|constructor]]]].
  - split; [apply one_pt; reflexivity|]. split; [apply one_pt; reflexivity|reflexivity].
  - simpl. split; [split; [reflexivity|split; intros; ring]|]. split; [intros [|[|[|[|k]]]]; reflexivity|]. split.
    + intros x y H. destruct x as [|x0 [|? ?]], y as [|y0 [|? ?]]; simpl in H; try tauto. destruct H as (E & _). unfold u_mpi. rewrite (npi_eq (y0 - 3) x0) by (rewrite E; ring).
      change (1 ^ Z.of_nat (length [3])) with 1. ring.
    + split; [reflexivity|]. split; [reflexivity|]. split; [|reflexivity]. repeat (constructor; [split; [reflexivity|split; [apply one_pt; reflexivity|constructor]]|]). constructor.
Qed.
(** Units: two groups of live points are told apart when they are more than 1/5 apart, in whatever unit. Here every length is
    a quarter as long, so that the volumes (in one dimension) and the distances are as well, and other samples come out. *)
Theorem C109_multi_nested_refuted : exists P P' us oc oc' pi pi' tape tape' s s',
  ns_space (1 # 4) [0] P P' /\ ns_radius P' == (1 # 4) * ns_radius P /\ unit_draws [0] us /\
  mn_units (1 # 4) [0] (length us) (1 # 4) (1 # 4) (MnCall oc pi 5 60 tape (fun i => i)) (MnCall oc' pi' 5 60 tape' (fun i => i)) /\
  multi_call P oc pi 5 60 tape (fun i => i) (ns_new P us) = Done s /\ multi_call P' oc' pi' 5 60 tape' (fun i => i) (ns_new P' us) = Done s' /\
  ~ recoords (1 # 4) [0] (ns_samples s) (ns_samples s').
Proof.
  exists mP, (mkNsP [0] [1 # 4] 1 4 0), mus, moc, (mkOracle (o_labels moc) (fun m => (1 # 4) * o_volume moc m) (fun m m' => (1 # 4) * o_dist moc m m')), npi,
    (fun y => match y with [t] => 4 * npi [4 * t] | _ => 0 end), (repeat mrep 5), (repeat (mkRepl 0 [19 # 80] []) 5).
  do 2 eexists. split; [split; [apply one_pt; reflexivity|split; [apply one_pt; reflexivity|reflexivity]]|]. split; [reflexivity|]. split; [repeat constructor|].
  split; [|split; [vm_compute; reflexivity|split; [vm_compute; reflexivity|]]].
  - simpl. split; [split; [reflexivity|split; intros; reflexivity]|]. split; [intros [|[|[|[|k]]]]; reflexivity|]. split.
    + intros x y H. destruct x as [|x0 [|? ?]], y as [|y0 [|? ?]]; simpl in H; try tauto. destruct H as (E & _). rewrite (npi_eq (4 * y0) x0) by (rewrite E; field).
      change ((1 # 4) ^ Z.of_nat (length [0])) with (1 # 4). field.
    + split; [reflexivity|]. split; [reflexivity|]. split; [|reflexivity]. repeat (constructor; [split; [reflexivity|split; [apply one_pt; reflexivity|constructor]]|]). constructor.
  - simpl. intros F. repeat match goal with H : recoords _ _ _ _ |- _ => inversion H; clear H; subst | H : Forall2 _ _ _ |- _ => inversion H; clear H; subst end;
    repeat match goal with H : recoord _ _ _ _ |- _ => destruct H as (H & _) end; try discriminate.
Qed.
Print Assumptions C109_multi_nested_refuted.
