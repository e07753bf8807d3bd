(** Property C107: requests in instalments. The benchmark evaluates a sampler at growing sizes by asking the same object
    for more and more samples. A request for n1 samples followed by one for n2 gives what a single request for n2 gives
    with the same random events. *)
From Coq Require Import List Bool Arith Lia QArith Lqa.
Import ListNotations.
From Verif Require Import Prelude.Py Prelude.QBase Model.Base Model.MetropolisHastings Model.Rejection Model.Population Model.MPMC Model.Nested Model.Tree Model.TreeSampler Model.HiDaisee
  Spec.ScaleSpec Spec.InstalmentSpec Prelude.QFacts Model.Uniform Spec.UniformSpec Spec.SplitSpec Proofs.HiDaiseeBox Proofs.HiDaiseeProofs Proofs.HiDaiseeHistory Proofs.HiDaiseeValues Proofs.HiDaiseeGeneric Proofs.TreeProofs Proofs.TreeSamplerInv Proofs.TreeSamplerLeaves Proofs.NestedProofs Proofs.NestedHistory Proofs.NestedWitness Proofs.InstalProofs Proofs.InstalTree
  Properties.TreeSamplerProps Properties.HiDaiseeProps Properties.ScaleProps.
Open Scope Q_scope.

(** * DM-AIS and LAIS *)
(** The events of the first call that were read, then those of the second: a single call that reads them in time ends in
    the very state the second call ended in. *)
Theorem C107_population k P pi n1 T1 tape1 n2 T2 tape2 s s1 s2 : (n1 <= n2)%nat ->
  pop_call k P pi n1 T1 tape1 s = Done s1 -> (n1 <= length (pop_samples s1))%nat -> pop_call k P pi n2 T2 tape2 s1 = Done s2 -> (n2 <= length (pop_samples s2))%nat ->
  exists used1 used2, initial used1 tape1 /\ initial used2 tape2 /\ forall T again, 0 < T -> in_time pop_same pr_clock T (used1 ++ used2) again -> pop_call k P pi n2 T again s = Done s2.
Proof. apply pop_twice. Qed.
Print Assumptions C107_population.
Example C107_population_example k : exists s1 s2, pop_call k pair_pop (tilt 1) 2 1 [pair_round] (pop_new pair_pop [[1 # 4]; [3 # 4]]) = Done s1 /\ length (pop_samples s1) = 2%nat /\
  pop_call k pair_pop (tilt 1) 4 1 [pair_round] s1 = Done s2 /\ length (pop_samples s2) = 4%nat /\ pop_call k pair_pop (tilt 1) 4 1 [pair_round; pair_round] (pop_new pair_pop [[1 # 4]; [3 # 4]]) = Done s2.
Proof. destruct k; do 2 eexists; (split; [vm_compute; reflexivity|]); (split; [reflexivity|]); (split; [vm_compute; reflexivity|]); (split; [reflexivity|]); vm_compute; reflexivity. Qed.

(** * M-PMC *)
Theorem C107_mpmc P pi n1 T1 tape1 n2 T2 tape2 s s1 s2 : (n1 <= n2)%nat ->
  mp_call P pi n1 T1 tape1 s = Done s1 -> (n1 <= length (mp_samples s1))%nat -> mp_call P pi n2 T2 tape2 s1 = Done s2 -> (n2 <= length (mp_samples s2))%nat ->
  exists used1 used2, initial used1 tape1 /\ initial used2 tape2 /\ forall T again, 0 < T -> in_time mp_same mr_clock T (used1 ++ used2) again -> mp_call P pi n2 T again s = Done s2.
Proof. apply mp_twice. Qed.
Print Assumptions C107_mpmc.
Definition mp_single : mp_params := mkMpP [0] [1] 1 2 (1 # 2) (fun _ _ _ => 1).
Example C107_mpmc_example : exists s1 s2, mp_call mp_single (fun _ => 1) 2 1 [mp_turn] (mp_new mp_single [[1 # 4]]) = Done s1 /\ length (mp_samples s1) = 2%nat /\
  mp_call mp_single (fun _ => 1) 4 1 [mp_turn] s1 = Done s2 /\ length (mp_samples s2) = 4%nat.
Proof. do 2 eexists. split; [vm_compute; reflexivity|]. split; [reflexivity|]. split; [vm_compute; reflexivity|]. reflexivity. Qed.

(** * Metropolis-Hastings *)
Theorem C107_metropolis P lp T n1 tape1 pick1 n2 tape2 pick s s1 s2 : (n1 <= n2)%nat ->
  mh_importance_sample P lp n1 T tape1 pick1 s = Done s1 -> (n1 <= length (samples (mh_core s1)))%nat ->
  mh_importance_sample P lp n2 T tape2 pick s1 = Done s2 -> (n2 <= length (samples (mh_core s2)))%nat ->
  exists used1 used2, initial used1 tape1 /\ initial used2 tape2 /\ forall again, in_time mh_same ie_clock T (used1 ++ used2) again -> 0 < T -> mh_importance_sample P lp n2 T again pick s = Done s2.
Proof. apply mh_twice. Qed.
Print Assumptions C107_metropolis.
Definition mh_one (i : nat) : list is_ev := match nth_error mh_two i with Some e => [e] | None => [] end.
Example C107_metropolis_example : exists s1 s2, mh_importance_sample flat_mh (hill 0) 1 60 (mh_one 0) (fun i => i) (mh_new [0]) = Done s1 /\ length (samples (mh_core s1)) = 1%nat /\
  mh_importance_sample flat_mh (hill 0) 2 60 (mh_one 1) (fun i => i) s1 = Done s2 /\ length (samples (mh_core s2)) = 2%nat /\ mh_importance_sample flat_mh (hill 0) 2 60 mh_two (fun i => i) (mh_new [0]) = Done s2.
Proof. do 2 eexists. split; [vm_compute; reflexivity|]. split; [reflexivity|]. split; [vm_compute; reflexivity|]. split; [reflexivity|]. vm_compute. reflexivity. Qed.

(** * Nested sampling *)
(** Everything is the same except the counter of target evaluations: every call evaluates the live points anew. *)
Theorem C107_nested P pi T n1 tape1 pick1 n2 tape2 pick s s1 s2 : (n1 <= n2)%nat -> nested_call P pi n1 T tape1 pick1 s = Done s1 -> nested_call P pi n2 T tape2 pick s1 = Done s2 ->
  exists used1 used2 s2', initial used1 tape1 /\ initial used2 tape2 /\ nested_call P pi n2 T (used1 ++ used2) pick s = Done s2' /\
    ns_samples s2' = ns_samples s2 /\ ns_L s2' = ns_L s2 /\ ns_live s2' = ns_live s2 /\ ns_model s2' = ns_model s2 /\ ns_q_samples s2' = ns_q_samples s2 /\
    ns_pi_evals s2 = (ns_pi_evals s2' + length (ns_live s))%nat.
Proof.
  intros L H1 H2. destruct (nested_twice P pi T n1 tape1 pick1 n2 tape2 pick s s1 s2 L H1 H2) as (u1 & u2 & s2' & I1 & I2 & H & E & M). exists u1, u2, s2'.
  pose proof (ns_eq_samples _ _ _ E) as Es. destruct E as (A & B & C & D & F & G). repeat split; auto.
Qed.
Print Assumptions C107_nested.
Example C107_nested_example : exists s1 s2, nested_call nP npi 1 60 [rep1] (fun i => i) (ns_new nP nus) = Done s1 /\ nested_call nP npi 2 60 [rep2] (fun i => i) s1 = Done s2 /\
  length (ns_samples s2) = 2%nat /\ ns_samples s2 = ns_samples ns1 /\ ns_pi_evals s2 = (ns_pi_evals ns1 + 2)%nat.
Proof. do 2 eexists. split; [vm_compute; reflexivity|]. split; [vm_compute; reflexivity|]. split; [reflexivity|]. split; reflexivity. Qed.

(** * HiDaisee *)
(** As long as no call failed. What a call that fails in the second request does, the single request does too. *)
Theorem C107_hidaisee_partial P ops pi n1 rds1 n2 rds2 rds s s1 : corners (hp_lo P) (hp_hi P) -> hd_reachable P ops s -> dims_ok (length (hp_lo P)) ops -> intact ops -> dim_ok (length (hp_lo P)) rds1 ->
  (n1 <= n2)%nat -> hd_call P pi n1 rds1 s = Done s1 -> (forall t, (t < n1)%nat -> rds t = rds1 t) -> (forall t, (n1 <= t < n2)%nat -> rds t = rds2 t) ->
  match hd_call P pi n2 rds2 s1 with
  | Done s2 => hd_call P pi n2 rds s = Done s2
  | Running s2 => exists s2', hd_call P pi n2 rds s = Running s2' /\ hs_tree s2' = hs_tree s2
  | Failed e s2 => exists s2', hd_call P pi n2 rds s = Failed e s2' /\ hs_tree s2' = hs_tree s2
  end.
Proof.
  intros Co R D I Dm L H R1 R2. eapply hd_twice; eauto. destruct (C53_keeps_samples_partial P ops s pi n1 rds1 s1 Co R D I Dm H) as (X & _). exact X.
Qed.
Print Assumptions C107_hidaisee_partial.
Example C107_hidaisee_example : corners (hp_lo (boosted 1)) (hp_hi (boosted 1)) /\ dim_ok 1 scale_rounds /\
  exists s1 s2, hd_call (boosted 1) (ramp 1) 2 scale_rounds (hd_new (boosted 1)) = Done s1 /\ hd_call (boosted 1) (ramp 1) 3 scale_rounds s1 = Done s2 /\ length (hs_samples s2) = 3%nat.
Proof. split; [repeat constructor|]. split; [intros t; apply Nat.lt_0_1|]. do 2 eexists. split; [vm_compute; reflexivity|]. split; [vm_compute; reflexivity|]. vm_compute. reflexivity. Qed.

(** * The tree sampler *)
(** Simple flow, with leaf resampling or an effective sample size target of at most one: the samples, their weights, the nodes
    and the counters are the same. The number of samples reported after the first request is below the second, so that the
    second call takes a turn. *)
Theorem C107_tree_partial P ops pi n1 T1 u1 tape1 n2 T2 u2 tape2 s s1 s2 l1 l2 : proper (p_lo P) (p_hi P) -> p_flow P = Simple -> tp_reachable P ops s ->
  p_leaf_resampling P = true \/ (exists e, p_ess P = Some e /\ e <= 1) -> (n1 <= n2)%nat ->
  tp_call P pi n1 T1 u1 tape1 s = Done s1 -> get_samples P (s_tree s1) = Ok l1 -> (n1 <= length l1 < n2)%nat ->
  tp_call P pi n2 T2 u2 tape2 s1 = Done s2 -> get_samples P (s_tree s2) = Ok l2 -> (n2 <= length l2)%nat ->
  exists used1 used2, initial used1 tape1 /\ initial used2 tape2 /\ forall T again, 0 < T -> in_time tp_same rd_clock T (used1 ++ used2) again ->
    exists s2', tp_call P pi n2 T u1 again s = Done s2' /\ get_samples P (s_tree s2') = Ok l2 /\ t_nodes (s_tree s2') = t_nodes (s_tree s2) /\ t_leaves (s_tree s2') = t_leaves (s_tree s2) /\
      s_q_samples s2' = s_q_samples s2 /\ s_q_evals s2' = s_q_evals s2 /\ s_pi_evals s2' = s_pi_evals s2 /\ (p_leaf_resampling P = true -> s_model s2' = s_model s2).
Proof.
  intros B F R M L H1 G1 L1 H2 G2 L2. assert (X1 : held P s1 = length l1) by (unfold held; now rewrite G1). assert (X2 : held P s2 = length l2) by (unfold held; now rewrite G2).
  destruct (tree_twice P pi B F n1 T1 u1 tape1 n2 T2 u2 tape2 s s1 s2 (reach1 P ops s B F R) M L H1 ltac:(lia) ltac:(lia) H2 ltac:(lia)) as (us1 & us2 & I1 & I2 & K).
  exists us1, us2. split; [exact I1|]. split; [exact I2|]. intros T again Tp In. destruct (K T again Tp In) as (s2' & Hc & Hg & Hn & Hl & Ht & Hm). exists s2'. unfold tcounts in Ht.
  split; [exact Hc|]. split; [rewrite Hg; exact G2|]. split; [exact Hn|]. split; [exact Hl|]. repeat split; auto; congruence.
Qed.
Print Assumptions C107_tree_partial.
Example C107_tree_example : exists s1 s2 l1 l2, tp_call scale_P (bowl 1) 2 1 [1 # 2] [unit_round (1 # 2)] (tp_new scale_P) = Done s1 /\ get_samples scale_P (s_tree s1) = Ok l1 /\ length l1 = 2%nat /\
  tp_call scale_P (bowl 1) 3 1 [1 # 2] [unit_round (1 # 2)] s1 = Done s2 /\ get_samples scale_P (s_tree s2) = Ok l2 /\ length l2 = 3%nat.
Proof. do 4 eexists. split; [vm_compute; reflexivity|]. split; [vm_compute; reflexivity|]. split; [reflexivity|]. split; [vm_compute; reflexivity|]. split; [vm_compute; reflexivity|]. reflexivity. Qed.

(** Without leaf resampling and with a target above one the weights differ: the end of the first call normalises the cached
    weights of its leaves, and the leaves of later turns are added with their own, unnormalised weights. *)
Theorem C107_tree_refuted : exists P pi r s1 s2 s l1 l2 l, proper (p_lo P) (p_hi P) /\ p_flow P = Simple /\ p_ess P = Some 2 /\ rd_clock r < 1 /\
  tp_call P pi 2 1 [1 # 2] [r] (tp_new P) = Done s1 /\ get_samples P (s_tree s1) = Ok l1 /\ length l1 = 2%nat /\
  tp_call P pi 3 1 [1 # 2] [r] s1 = Done s2 /\ get_samples P (s_tree s2) = Ok l2 /\ length l2 = 3%nat /\
  tp_call P pi 3 1 [1 # 2] [r; r] (tp_new P) = Done s /\ get_samples P (s_tree s) = Ok l /\ map fst l = map fst l2 /\ ~ proportional (map snd l2) (map snd l).
Proof.
  exists (line Haar Simple false (Some 2) 1 1), (bowl 1), (unit_round (1 # 2)). do 6 eexists. split; [apply line_proper|]. split; [reflexivity|]. split; [reflexivity|]. split; [reflexivity|].
  split; [vm_compute; reflexivity|]. split; [vm_compute; reflexivity|]. split; [reflexivity|]. split; [vm_compute; reflexivity|]. split; [vm_compute; reflexivity|]. split; [reflexivity|].
  split; [vm_compute; reflexivity|]. split; [vm_compute; reflexivity|]. split; [reflexivity|].
  intros (k & K & H). inversion H as [|? ? ? ? H1 H2]; subst. inversion H2 as [|? ? ? ? H3 H4]; subst. simpl in H1, H3. lra.
Qed.
Print Assumptions C107_tree_refuted.

(** The mixture flow draws about half the number of samples still missing, so that a larger request explores differently:
    the number of draws differs although every turn sees the same events. *)
Theorem C107_mixture_refuted : exists P pi r s1 s2 s l2 l, proper (p_lo P) (p_hi P) /\ p_flow P = MixtureFlow /\ rd_clock r < 1 /\
  tp_call P pi 2 1 [1 # 2] [r] (tp_new P) = Done s1 /\ tp_call P pi 4 1 [1 # 2] [r; r] s1 = Done s2 /\ get_samples P (s_tree s2) = Ok l2 /\ length l2 = 4%nat /\
  tp_call P pi 4 1 [1 # 2] [r; r; r] (tp_new P) = Done s /\ get_samples P (s_tree s) = Ok l /\ length l = 4%nat /\ s_q_samples s2 = 7%nat /\ s_q_samples s = 8%nat.
Proof.
  exists (line Haar MixtureFlow false (Some (9 # 10)) 1 1), (bowl 1), (unit_round (1 # 2)). do 5 eexists. split; [apply line_proper|]. split; [reflexivity|]. split; [reflexivity|].
  split; [vm_compute; reflexivity|]. split; [vm_compute; reflexivity|]. split; [vm_compute; reflexivity|]. split; [reflexivity|]. split; [vm_compute; reflexivity|]. split; [vm_compute; reflexivity|]. split; [reflexivity|]. split; reflexivity.
Qed.
Print Assumptions C107_mixture_refuted.

(** Rejection sampling: with every proposal accepted the samples are the same, but each turn adds the size of the request to the
    counters, whatever it draws: two proposals are counted as three. *)
Theorem C107_rejection_refuted : exists P pi r s1 s2 s, rr_clock r < 60 /\ rej_importance_sample P pi 1 60 0 [r] (fun i => i) core_init = Done s1 /\ rej_importance_sample P pi 2 60 0 [r] (fun i => i) s1 = Done s2 /\
  rej_importance_sample P pi 2 60 0 [r] (fun i => i) core_init = Done s /\ samples s = samples s2 /\ ghost_drawn s = ghost_drawn s2 /\ length (samples s) = 2%nat /\
  num_q_samples s = 2%nat /\ num_q_samples s2 = 3%nat /\ num_pi_evals s = 2%nat /\ num_pi_evals s2 = 3%nat.
Proof.
  exists (mkRej (fun _ => 1) 1 1), (fun _ => 1), (mkRound (fun _ => [1 # 2]) (fun _ => 1 # 2) 1). do 3 eexists. split; [reflexivity|].
  split; [vm_compute; reflexivity|]. split; [vm_compute; reflexivity|]. split; [vm_compute; reflexivity|]. repeat split; reflexivity.
Qed.
Print Assumptions C107_rejection_refuted.

(** Multi-nested sampling visits the clusters one after the other, giving each an equal part of the missing samples: split
    requests visit them in another order. *)
Theorem C107_multi_nested_refuted : exists P oc pi us r k1 k2 k s1 s2 s, start_ok P us /\
  multi_call P oc pi 1 60 (repeat r k1) (fun i => i) (ns_new P us) = Done s1 /\ multi_call P oc pi 5 60 (repeat r k2) (fun i => i) s1 = Done s2 /\
  multi_call P oc pi 5 60 (repeat r k) (fun i => i) (ns_new P us) = Done s /\ length (ns_samples s) = length (ns_samples s2) /\ ns_samples s <> ns_samples s2.
Proof.
  exists mP, moc, npi, mus, mrep, 9%nat, 9%nat, 9%nat. do 3 eexists. split; [exact m_start|]. split; [vm_compute; reflexivity|]. split; [vm_compute; reflexivity|]. split; [vm_compute; reflexivity|]. split; [reflexivity|]. discriminate.
Qed.
Print Assumptions C107_multi_nested_refuted.
