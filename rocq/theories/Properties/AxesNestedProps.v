(** Property C113 for nested and multi-nested sampling. *)
From Coq Require Import List Bool Arith Lia QArith Qreals Reals Lqa.
Import ListNotations.
From Verif Require Import Prelude.Py Prelude.QBase Model.Base Model.Nested Spec.ScaleSpec Spec.AxesSpec Spec.AxesOps Proofs.ScaleBase Proofs.ScaleSimple Proofs.ScaleR Proofs.AxesBase
  Proofs.NestedWitness Proofs.AxesNested Properties.AxesProps.
From Verif Require Proofs.UnitsNested Properties.UnitsNestedProps.
Open Scope Q_scope.

Lemma dens_one dm sg (pi pi' : vec -> Q) : same_density dm sg pi pi' -> forall x y, relabel dm sg x y -> pi' y == 1 * pi x.
Proof. intros D x y H. rewrite (D x y H). ring. Qed.
Lemma nested_run_axes dm sg P P' o o' s s' : ns_space dm sg P P' -> ns_axes dm sg o o' -> ns_rel dm sg s s' -> outs (ns_rel dm sg) (nested_run P o s) (nested_run P' o' s').
Proof.
  intros Sp H L. destruct o, o'; simpl in H; try contradiction.
  - destruct H as (D & -> & -> & F & ->). apply nested_call_axes; auto. now apply dens_one.
  - destruct H as (-> & ->). now apply ns_sample_axes.
  - subst. now apply ns_query_axes.
  - now apply ns_reset_axes.
Qed.
Theorem C113_nested dm sg P P' us us' ops ops' s : ns_space dm sg P P' -> relabels dm sg us us' -> nested_reachable P us ops s -> Forall2 (ns_axes dm sg) ops ops' ->
  exists s', nested_reachable P' us' ops' s' /\ relabels dm sg (ns_samples s) (ns_samples s') /\ relabels dm sg (ns_live s) (ns_live s') /\ relabels_opt dm sg (ns_model s) (ns_model s') /\
    (forall N, nested_weights N (map Q2R (ns_L s')) = nested_weights N (map Q2R (ns_L s))) /\ ns_q_samples s' = ns_q_samples s /\ ns_pi_evals s' = ns_pi_evals s.
Proof.
  intros Sp U R F. assert (G : exists s', nested_reachable P' us' ops' s' /\ ns_rel dm sg s s').
  { revert ops' F. induction R as [|o ops s s1 R IH E]; intros ops' F; inversion F as [|? o' ? l' Ho Hl]; subst; [exists (ns_new P' us'); split; [constructor|now apply ns_new_axes]|].
    destruct (IH l' Hl) as (s' & R' & L). pose proof (nested_run_axes dm sg P P' o o' s s' Sp Ho L) as H. destruct E as [E|(e & E)]; rewrite E in H; destruct (nested_run P' o' s') as [s2|s2|e2 s2] eqn:E2; simpl in H; try contradiction.
    - exists s2. split; [|exact H]. eapply nested_next; eauto.
    - destruct H as (<- & H). exists s2. split; [|exact H]. eapply nested_next; eauto. }
  destruct G as (s' & R' & L). exists s'. pose proof (ns_rel_samples _ _ _ _ L) as Sm. destruct L as (H1 & H2 & H3 & H4 & H5 & H6 & H7 & H8 & _). repeat (split; auto). intros N. now apply (nested_weights_scale 1).
Qed.
Print Assumptions C113_nested.
Definition ax_nP (f : Q -> Q -> vec) : ns_params := mkNsP (f 0 1) (f 1 2) 1 2 0.
Definition ax_nop (pi : vec -> Q) (f : Q -> Q -> vec) : ns_op :=
  NsCall pi 2 60 [mkRepl 1 (f (-(1 # 8)) (1 # 2)) []; mkRepl 1 (f (-(1 # 2)) 0) [(f (-(1 # 4)) 0, 1); (f (1 # 8) 0, 2)]] (fun i => i).
Example C113_nested_example : exists s, nested_reachable (ax_nP keep) (ax_us keep) [ax_nop ax_tilt keep] s /\ length (ns_samples s) = 2%nat /\ ns_space 2 swap (ax_nP keep) (ax_nP flip) /\
  relabels 2 swap (ax_us keep) (ax_us flip) /\ Forall2 (ns_axes 2 swap) [ax_nop ax_tilt keep] [ax_nop ax_tilt' flip].
Proof.
  destruct (nested_run (ax_nP keep) (ax_nop ax_tilt keep) (ns_new (ax_nP keep) (ax_us keep))) as [s|s|e s] eqn:E; try (exfalso; vm_compute in E; discriminate).
  exists s. split; [apply (nested_next _ _ _ [] (ns_new (ax_nP keep) (ax_us keep))); [constructor|left; exact E]|]. split; [vm_compute in E; injection E as <-; reflexivity|].
  split; [|split; [|constructor; [|constructor]]].
  - split; [apply swap_pt; reflexivity|]. split; [apply swap_pt; reflexivity|reflexivity].
  - repeat (constructor; [apply swap_pt; reflexivity|]). constructor.
  - simpl. split; [intros x y X; destruct (swap_inv _ _ X) as (_ & N); unfold ax_tilt, ax_tilt'; now rewrite N|]. split; [reflexivity|]. split; [reflexivity|]. split; [|reflexivity].
    constructor; [|constructor; [|constructor]]; (split; [reflexivity|]); (split; [apply swap_pt; reflexivity|]); [constructor|].
    constructor; [|constructor; [|constructor]]; (split; [apply swap_pt; reflexivity|reflexivity]).
Qed.

(** * Multi-nested sampling: the number of axes decides how large a cluster must be, so none is dropped. *)
Lemma multi_run_axes dm sg P P' N o o' s s' : length sg = dm -> ns_space dm sg P P' -> ns_radius P' == ns_radius P -> length (ns_live s) = N -> mn_axes dm sg N o o' -> ns_rel dm sg s s' ->
  outs (ns_rel dm sg) (multi_run P o s) (multi_run P' o' s') /\ length (ns_live (out_state (multi_run P o s))) = N.
Proof.
  intros Lg Sp Ra Ln H L. destruct o, o'; simpl in H; try contradiction.
  - destruct H as (O & Lb & D & -> & -> & F & ->). split; [|cbn [multi_run]; rewrite UnitsNested.multi_call_len; exact Ln]. apply multi_call_axes; auto; [now apply dens_one|congruence].
  - destruct H as (-> & ->). split; [now apply ns_sample_axes|]. cbn [multi_run]. now rewrite UnitsNestedProps.ns_live_sample.
  - subst. split; [now apply ns_query_axes|]. cbn [multi_run]. apply UnitsNestedProps.ns_live_finish.
  - destruct H as (U & Lu). split; [now apply ns_reset_axes|]. cbn. now rewrite map_length.
Qed.
Theorem C113_multi_nested dm sg P P' us us' ops ops' s : length sg = dm -> ns_space dm sg P P' -> ns_radius P' == ns_radius P -> relabels dm sg us us' -> multi_reachable P us ops s ->
  Forall2 (mn_axes dm sg (length us)) ops ops' ->
  exists s', multi_reachable P' us' ops' s' /\ relabels dm sg (ns_samples s) (ns_samples s') /\ relabels dm sg (ns_live s) (ns_live s') /\ relabels_opt dm sg (ns_model s) (ns_model s') /\
    (forall N, nested_weights N (map Q2R (ns_L s')) = nested_weights N (map Q2R (ns_L s))) /\ ns_q_samples s' = ns_q_samples s /\ ns_pi_evals s' = ns_pi_evals s.
Proof.
  intros Lg Sp Ra U R F. assert (G : exists s', multi_reachable P' us' ops' s' /\ ns_rel dm sg s s' /\ length (ns_live s) = length us).
  { revert ops' F. induction R as [|o ops s s1 R IH E]; intros ops' F; inversion F as [|? o' ? l' Ho Hl]; subst; [exists (ns_new P' us'); split; [constructor|split; [now apply ns_new_axes|apply map_length]]|].
    destruct (IH l' Hl) as (s' & R' & L & Ln). pose proof (multi_run_axes (length sg) sg P P' (length us) o o' s s' eq_refl Sp Ra Ln Ho L) as (H & Lm).
    destruct E as [E|(e & E)]; rewrite E in H, Lm; destruct (multi_run P' o' s') as [s2|s2|e2 s2] eqn:E2; simpl in H; try contradiction.
    - exists s2. split; [|split; [exact H|exact Lm]]. eapply multi_next; eauto.
    - destruct H as (<- & H). exists s2. split; [|split; [exact H|exact Lm]]. eapply multi_next; eauto. }
  destruct G as (s' & R' & L & _). exists s'. pose proof (ns_rel_samples _ _ _ _ L) as Sm. destruct L as (H1 & H2 & H3 & H4 & H5 & H6 & H7 & H8 & _). repeat (split; auto). intros N. now apply (nested_weights_scale 1).
Qed.
Print Assumptions C113_multi_nested.
Definition ax_mus (f : Q -> Q -> vec) : list vec := [f (1 # 4) 0; f (1 # 2) 1; f (3 # 4) 1].
Definition ax_moc : oracle := mkOracle (fun _ => [0; 0; 0]%nat) (fun _ => 1) (fun _ _ => 1).
Definition ax_mop (pi : vec -> Q) (f : Q -> Q -> vec) : mn_op := MnCall ax_moc pi 2 60 [mkRepl 0 (f (7 # 8) (3 # 2)) []; mkRepl 0 (f (7 # 8) 1) []] (fun i => i).
Example C113_multi_nested_example : exists s, multi_reachable (ax_nP keep) (ax_mus keep) [ax_mop ax_tilt keep] s /\ length (ns_samples s) = 2%nat /\ length swap = 2%nat /\ ns_space 2 swap (ax_nP keep) (ax_nP flip) /\
  ns_radius (ax_nP flip) == ns_radius (ax_nP keep) /\ relabels 2 swap (ax_mus keep) (ax_mus flip) /\ Forall2 (mn_axes 2 swap (length (ax_mus keep))) [ax_mop ax_tilt keep] [ax_mop ax_tilt' flip].
Proof.
  destruct (multi_run (ax_nP keep) (ax_mop ax_tilt keep) (ns_new (ax_nP keep) (ax_mus keep))) as [s|s|e s] eqn:E; try (exfalso; vm_compute in E; discriminate).
  exists s. split; [apply (multi_next _ _ _ [] (ns_new (ax_nP keep) (ax_mus keep))); [constructor|left; exact E]|]. split; [vm_compute in E; injection E as <-; reflexivity|]. split; [reflexivity|].
  split; [|split; [reflexivity|split; [|constructor; [|constructor]]]].
  - split; [apply swap_pt; reflexivity|]. split; [apply swap_pt; reflexivity|reflexivity].
  - repeat (constructor; [apply swap_pt; reflexivity|]). constructor.
  - simpl. split; [split; [reflexivity|split; reflexivity]|]. split; [reflexivity|]. split; [intros x y X; destruct (swap_inv _ _ X) as (_ & N); unfold ax_tilt, ax_tilt'; now rewrite N|]. split; [reflexivity|]. split; [reflexivity|]. split; [|reflexivity].
    repeat (constructor; [split; [reflexivity|split; [apply swap_pt; reflexivity|constructor]]|]). constructor.
Qed.
