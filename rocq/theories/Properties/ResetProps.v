(** Property C64: reset. (The refutation for Metropolis-Hastings is in MHProps.)
    Full statement: after reset every sampler reports no samples, zero counters and no model carried over, and behaves
    as a newly constructed one under the same random draws. *)
From Coq Require Import List Bool Arith Lia QArith Lqa.
Import ListNotations.
From Verif Require Import Prelude.Py Prelude.QBase Prelude.QFacts Model.Base Model.Rejection Model.MetropolisHastings Model.Nested
  Model.Mixture Model.Population Model.MPMC Model.Tree Model.TreeSampler Model.Uniform Model.HiDaisee Spec.Box Spec.ResetSpec
  Proofs.NestedProofs Proofs.PopulationProofs Proofs.RejectionWitness Proofs.MHWitness Proofs.NestedWitness Proofs.PopulationWitness
  Proofs.MPMCWitness Properties.TreeSamplerProps Properties.HiDaiseeProps.
Open Scope Q_scope.

(** Rejection sampling: after any history, nothing is left and every later call is that of a new object. *)
Theorem C64_rejection_reset :
  forall P c, rej_reachable P c ->
  samples (core_reset c) = [] /\ weights (core_reset c) = [] /\ model (core_reset c) = None /\
  num_q_samples (core_reset c) = 0%nat /\ num_q_evals (core_reset c) = 0%nat /\ num_pi_evals (core_reset c) = 0%nat /\
  get_acceptance_rate (core_reset c) = Raise AssertionError /\
  forall target n timeout e0 tape pick,
    rej_importance_sample P target n timeout e0 tape pick (core_reset c) =
    rej_importance_sample P target n timeout e0 tape pick core_init.
Proof.
  intros P c _. assert (E : core_reset c = core_init) by (destruct c; reflexivity). rewrite E.
  do 7 (split; [reflexivity|]). reflexivity.
Qed.
Print Assumptions C64_rejection_reset.
Example C64_rejection_reset_example :
  rej_reachable exP ex_c1 /\ samples ex_c1 <> [] /\ model ex_c1 <> None /\ num_pi_evals ex_c1 <> 0%nat.
Proof. split; [apply ex_c1_reach|]. split; [|split]; vm_compute; discriminate. Qed.

(** Metropolis-Hastings: everything but the chain position is as in a new object, and the object behaves as one whose
    first draw was that position. *)
Theorem C64_mh_reset_partial :
  forall P x0 ops s, mh_reachable P x0 ops s ->
  samples (mh_core (mh_reset s)) = [] /\ weights (mh_core (mh_reset s)) = [] /\ model (mh_core (mh_reset s)) = None /\
  num_q_samples (mh_core (mh_reset s)) = 0%nat /\ num_q_evals (mh_core (mh_reset s)) = 0%nat /\
  num_pi_evals (mh_core (mh_reset s)) = 0%nat /\ mh_traj (mh_reset s) = [] /\ mh_types (mh_reset s) = [] /\
  (forall later s', leads_to (mh_run P) (mh_reset s) later s' -> mh_reachable P (mh_current s) (map fst later) s') /\
  (forall l s', mh_reachable P (mh_current s) l s' -> exists later, map fst later = l /\ leads_to (mh_run P) (mh_reset s) later s').
Proof.
  intros P x0 ops s _. assert (E : mh_reset s = mh_new (mh_current s)) by (destruct s as [[] ? ? ? ?]; reflexivity). rewrite E.
  do 8 (split; [reflexivity|]). split.
  - intros later s' L. induction L as [|o later b c L IH R|o later b e c L IH R]; simpl; [constructor| |];
      (eapply mh_reach_op; [exact IH|]); [left; exact R|right; exists e; exact R].
  - intros l s' R. induction R as [|l b o c R (later & <- & IH) [D|(e & F)]].
    + exists []. split; [reflexivity|constructor].
    + exists ((o, true) :: later). split; [reflexivity|]. eapply leads_returned; eauto.
    + exists ((o, false) :: later). split; [reflexivity|]. eapply leads_raised; eauto.
Qed.
Print Assumptions C64_mh_reset_partial.
Example C64_mh_reset_example : mh_reachable wP wx0 [wop] ws1 /\ samples (mh_core ws1) <> [] /\ mh_traj ws1 <> [].
Proof. split; [apply ws1_reach|]. split; vm_compute; discriminate. Qed.

(** Nested sampling: no samples, likelihoods, counters or model; N new live points in the space; every later life is that of a
    new object made with the same draws. *)
Theorem C64_nested_reset :
  forall P us0 ops s us s1, nested_reachable P us0 ops s -> nested_run P (NsReset us) s = Done s1 ->
  ns_samples s1 = [] /\ ns_L s1 = [] /\ ns_model s1 = None /\ ns_q_samples s1 = 0%nat /\ ns_pi_evals s1 = 0%nat /\
  length (ns_live s1) = length us /\
  (is_box (ns_lo P) (ns_hi P) -> Forall (fun u => length u = length (ns_lo P) /\ Forall (fun a => 0 <= a /\ a <= 1) u) us ->
   Forall (in_box (ns_lo P) (ns_hi P)) (ns_live s1)) /\
  (forall later s', leads_to (nested_run P) s1 later s' -> nested_reachable P us (map fst later) s') /\
  (forall l s', nested_reachable P us l s' -> exists later, map fst later = l /\ leads_to (nested_run P) s1 later s').
Proof.
  intros P us0 ops s us s1 _ E. assert (X : s1 = ns_new P us) by (destruct s; inversion E; reflexivity). subst s1. clear E.
  do 5 (split; [reflexivity|]). split; [apply map_length|]. split; [|split].
  - intros B F. simpl. rewrite Forall_forall in F. apply Forall_forall. intros x I. apply in_map_iff in I. destruct I as (u & <- & I).
    apply scale_in_box; [exact B|exact (F u I)].
  - intros later s' L. induction L as [|o later b c L IH R|o later b e c L IH R]; simpl; [constructor| |];
      (eapply nested_next; [exact IH|]); [left; exact R|right; exists e; exact R].
  - intros l s' R. induction R as [|o l b c R (later & <- & IH) [D|(e & F)]].
    + exists []. split; [reflexivity|constructor].
    + exists ((o, true) :: later). split; [reflexivity|]. eapply leads_returned; eauto.
    + exists ((o, false) :: later). split; [reflexivity|]. eapply leads_raised; eauto.
Qed.
Print Assumptions C64_nested_reset.
Example C64_nested_reset_example :
  nested_reachable nP nus [ncall] ns1 /\ ns_samples ns1 <> [] /\ ns_L ns1 <> [] /\ ns_q_samples ns1 <> 0%nat /\ is_box (ns_lo nP) (ns_hi nP).
Proof. split; [apply n_reach|]. split; [vm_compute; discriminate|]. split; [vm_compute; discriminate|]. split; [vm_compute; discriminate|]. simpl. repeat split; lra. Qed.

(** The same for multi-nested sampling, whose constructor does not call reset. *)
Theorem C64_multi_nested_reset :
  forall P us0 ops s us s1, multi_reachable P us0 ops s -> multi_run P (MnReset us) s = Done s1 ->
  ns_samples s1 = [] /\ ns_L s1 = [] /\ ns_model s1 = None /\ ns_q_samples s1 = 0%nat /\ ns_pi_evals s1 = 0%nat /\
  length (ns_live s1) = length us /\
  (is_box (ns_lo P) (ns_hi P) -> Forall (fun u => length u = length (ns_lo P) /\ Forall (fun a => 0 <= a /\ a <= 1) u) us ->
   Forall (in_box (ns_lo P) (ns_hi P)) (ns_live s1)) /\
  (forall later s', leads_to (multi_run P) s1 later s' -> multi_reachable P us (map fst later) s') /\
  (forall l s', multi_reachable P us l s' -> exists later, map fst later = l /\ leads_to (multi_run P) s1 later s').
Proof.
  intros P us0 ops s us s1 _ E. assert (X : s1 = ns_new P us) by (destruct s; inversion E; reflexivity). subst s1. clear E.
  do 5 (split; [reflexivity|]). split; [apply map_length|]. split; [|split].
  - intros B F. simpl. rewrite Forall_forall in F. apply Forall_forall. intros x I. apply in_map_iff in I. destruct I as (u & <- & I).
    apply scale_in_box; [exact B|exact (F u I)].
  - intros later s' L. induction L as [|o later b c L IH R|o later b e c L IH R]; simpl; [constructor| |];
      (eapply multi_next; [exact IH|]); [left; exact R|right; exists e; exact R].
  - intros l s' R. induction R as [|o l b c R (later & <- & IH) [D|(e & F)]].
    + exists []. split; [reflexivity|constructor].
    + exists ((o, true) :: later). split; [reflexivity|]. eapply leads_returned; eauto.
    + exists ((o, false) :: later). split; [reflexivity|]. eapply leads_raised; eauto.
Qed.
Print Assumptions C64_multi_nested_reset.
Example C64_multi_nested_reset_example : multi_reachable mP mus [mcall] ms1 /\ ns_samples ms1 <> [] /\ ns_pi_evals ms1 <> 0%nat.
Proof. split; [apply m_reach|]. split; vm_compute; discriminate. Qed.

(** Deterministic-mixture and layered AIS. *)
Theorem C64_population_reset :
  forall k P us0 ops s us s1, pop_reachable k P us0 ops s -> pop_run k P (PopReset us) s = Done s1 ->
  pop_samples s1 = [] /\ pop_weights s1 = [] /\ pop_q_samples s1 = 0%nat /\ pop_q_evals s1 = 0%nat /\ pop_pi_evals s1 = 0%nat /\
  length (pop_means s1) = length us /\
  (is_box (pp_lo P) (pp_hi P) -> Forall (fun u => length u = length (pp_lo P) /\ Forall (fun a => 0 <= a <= 1) u) us ->
   Forall (in_box (pp_lo P) (pp_hi P)) (pop_means s1)) /\
  forall later s', leads_to (pop_run k P) s1 later s' <-> pop_reachable k P us later s'.
Proof.
  intros k P us0 ops s us s1 _ E. assert (X : s1 = pop_new P us) by (destruct s; inversion E; reflexivity). subst s1. clear E.
  do 5 (split; [reflexivity|]). split; [apply map_length|]. split.
  - intros B F. simpl. rewrite Forall_forall in F. apply Forall_forall. intros x I. apply in_map_iff in I. destruct I as (u & <- & I).
    destruct (F u I) as (L & U). apply uniform_draw_box; assumption.
  - intros later s'. split; intros L; induction L;
      [constructor|eapply pop_done; eassumption|eapply pop_fail; eassumption|constructor|eapply leads_returned; eassumption|eapply leads_raised; eassumption].
Qed.
Print Assumptions C64_population_reset.
Example C64_population_reset_example :
  pop_reachable DM wpop wus [(wcall [wround], true)] wdm /\ pop_samples wdm <> [] /\ pop_means wdm <> pop_means (pop_new wpop wus).
Proof. split; [apply wdm_reach|]. split; vm_compute; discriminate. Qed.

(** M-PMC: mixture weights and covariances are the initial ones as well. *)
Theorem C64_mpmc_reset :
  forall P us0 ops s us s1, mp_reachable P us0 ops s -> mp_run P (MpReset us) s = Done s1 ->
  mp_samples s1 = [] /\ mp_weights s1 = [] /\ mp_q_samples s1 = 0%nat /\ mp_q_evals s1 = 0%nat /\ mp_pi_evals s1 = 0%nat /\
  mp_dead s1 = false /\ length (mp_props s1) = length us /\ length (mp_alpha s1) = mp_N P /\
  Forall (fun a => a == 1 / Qnat (mp_N P)) (mp_alpha s1) /\ mp_mixw s1 = mp_alpha s1 /\
  (is_box (mp_lo P) (mp_hi P) -> Forall (fun u => length u = length (mp_lo P) /\ Forall (fun a => 0 <= a <= 1) u) us ->
   Forall (fun p => in_box (mp_lo P) (mp_hi P) (fst p)) (mp_props s1)) /\
  forall later s', leads_to (mp_run P) s1 later s' <-> mp_reachable P us later s'.
Proof.
  intros P us0 ops s us s1 _ E. assert (X : s1 = mp_new P us) by (destruct s; inversion E; reflexivity). subst s1. clear E.
  do 6 (split; [reflexivity|]). split; [apply map_length|]. split; [apply repeat_length|]. split; [|split; [reflexivity|split]].
  - apply Forall_forall. intros a I. apply repeat_spec in I. subst a. reflexivity.
  - intros B F. simpl. rewrite Forall_forall in F. apply Forall_forall. intros x I. apply in_map_iff in I. destruct I as (u & <- & I).
    destruct (F u I) as (L & U). apply uniform_draw_box; assumption.
  - intros later s'. split; intros L; induction L;
      [constructor|eapply mp_done; eassumption|eapply mp_fail; eassumption|constructor|eapply leads_returned; eassumption|eapply leads_raised; eassumption].
Qed.
Print Assumptions C64_mpmc_reset.
Example C64_mpmc_reset_example : mp_reachable v1p vus1 [(vcall 4 [vtwo; vtwo], true)] v2 /\ mp_samples v2 <> mp_samples (mp_new v1p vus1).
Proof. split; [apply v2_reach|]. vm_compute. discriminate. Qed.

(** Tree pyramid sampler: one leaf, the root, whose sampler is the model again. *)
Theorem C64_tree_reset :
  forall P ops s s1, tp_reachable P ops s -> tp_run P TpReset s = Done s1 ->
  s_q_samples s1 = 0%nat /\ s_q_evals s1 = 0%nat /\ s_pi_evals s1 = 0%nat /\ s_model s1 = MRoot /\
  length (t_leaves (s_tree s1)) = 1%nat /\
  forall later s', leads_to (tp_run P) s1 later s' <-> tp_reachable P later s'.
Proof.
  intros P ops s s1 _ E. assert (X : s1 = tp_new P) by (destruct s; inversion E; reflexivity). subst s1. clear E.
  do 5 (split; [reflexivity|]).
  intros later s'. split; intros L; induction L;
    [constructor|eapply tp_done; eassumption|eapply tp_fail; eassumption|constructor|eapply leads_returned; eassumption|eapply leads_raised; eassumption].
Qed.
Print Assumptions C64_tree_reset.
Example C64_tree_reset_example :
  tp_reachable (line Haar Simple true (Some 2) 1 1) [(TpCall (fun _ => 1) 3 1 [1 # 2] [unit_round (1 # 2); unit_round (1 # 2)], true)] (tp_after line_call) /\
  t_leaves (s_tree (tp_after line_call)) = [3; 2; 4]%nat.
Proof. split; [apply line_reach|vm_compute; reflexivity]. Qed.

(** HiDaisee, failed calls included: no samples, one leaf, zero counters, and every later call is that of a new object. *)
Theorem C64_hidaisee_reset :
  forall P ops s, hd_reachable P ops s ->
  hs_samples (hd_restart P s) = [] /\ hs_pi (hd_restart P s) = 0%nat /\ hs_q (hd_restart P s) = 0%nat /\ hs_draws (hd_restart P s) = 0%nat /\
  length (ht_leaves (hs_tree (hd_restart P s))) = 1%nat /\
  forall pi n rds, hd_call P pi n rds (hd_restart P s) = hd_call P pi n rds (hd_new P).
Proof.
  intros P ops s _. assert (E : hd_restart P s = hd_new P) by (destruct s; reflexivity). rewrite E.
  do 5 (split; [reflexivity|]). reflexivity.
Qed.
Print Assumptions C64_hidaisee_reset.
Example C64_hidaisee_reset_example :
  hd_reachable line_hd [(HdCall bump 2 left_rounds, true)] (line_after 2) /\ length (hs_samples (line_after 2)) = 2%nat.
Proof. split; [apply line_reachable; lia|vm_compute; reflexivity]. Qed.
