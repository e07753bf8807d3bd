(** Properties C34-C38, C68 and C69. *)
From Coq Require Import List Bool Arith Lia QArith Lqa Reals Qreals.
Import ListNotations.
From Verif Require Import Prelude.Py Prelude.QBase Prelude.RBase Model.Base Model.Nested
  Spec.Box Spec.SortedSpec Spec.PartitionSpec Spec.NestedSpec
  Proofs.NestedProofs Proofs.NestedHistory Proofs.MultiNestedProofs Proofs.NestedWeights Proofs.NestedWitness.
Open Scope Q_scope.

(** C34. For every history of calls for one target whose searches are not cut off by the clock (with queries
    and resets in between) the recorded likelihoods are non-decreasing. *)
Theorem C34_nested_sorted :
  forall P us pi, start_ok P us ->
  forall ops s, Forall (ns_op_ok P) ops -> Forall (fun o => ns_timely o /\ ns_target (eq pi) o) ops ->
    nested_reachable P us ops s -> non_decreasing (ns_L s) /\ length (ns_L s) = length (ns_samples s).
Proof.
  intros P us pi S0 ops s OK KK R. destruct (sorted_reachable P us pi S0 ops s OK KK R) as ((B & _) & _ & S1 & _). auto.
Qed.
Print Assumptions C34_nested_sorted.

(** C34 (second half, full statement: [nth i (ns_L s) 0 = pi (nth i (ns_samples s) [])] for every
    i < length (ns_samples s)), part that holds: every likelihood except the first belongs to its sample. *)
Theorem C34_nested_attached_partial :
  forall P us pi, start_ok P us ->
  forall ops s, Forall (ns_op_ok P) ops -> Forall (fun o => ns_timely o /\ ns_target (eq pi) o) ops ->
    nested_reachable P us ops s ->
    forall i, (1 <= i < length (ns_samples s))%nat -> nth i (ns_L s) 0 = pi (nth i (ns_samples s) []).
Proof.
  intros P us pi S0 ops s OK KK R i Hi. destruct (sorted_reachable P us pi S0 ops s OK KK R) as ((B & _) & _ & _ & A).
  apply A. lia.
Qed.
Print Assumptions C34_nested_attached_partial.

(** The same for the multi-nested sampler, also when searches are cut off. *)
Theorem C34_multi_attached_partial :
  forall P us pi, mn_ready P -> start_ok P us ->
  forall ops s, Forall (mn_op_ok P) ops -> Forall (mn_target (eq pi)) ops -> multi_reachable P us ops s ->
    forall i, (1 <= i < length (ns_samples s))%nat -> nth i (ns_L s) 0 = pi (nth i (ns_samples s) []).
Proof.
  intros P us pi RD S0 ops s OK KK R i Hi. destruct (multi_attached P us pi RD S0 ops s OK KK R) as ((B & _) & A).
  apply A. lia.
Qed.
Print Assumptions C34_multi_attached_partial.

(** C34 (second half) is false for the first sample: it is a view of the live point that is replaced at once, so
    the sample 5/8 is recorded with the likelihood 1/4 of the point it replaced (the target is x). *)
Theorem C34_first_attached_refuted :
  exists P us pi ops s, start_ok P us /\ Forall (ns_op_ok P) ops /\ Forall (fun o => ns_timely o /\ ns_target (eq pi) o) ops /\
    nested_reachable P us ops s /\ (0 < length (ns_samples s))%nat /\
    ~ nth 0 (ns_L s) 0 == pi (nth 0 (ns_samples s) []).
Proof.
  exists nP, nus, npi, [ncall], ns1. split; [exact n_start|]. split; [repeat constructor|].
  split; [constructor; [split; [exact n_timely|reflexivity]|constructor]|]. split; [exact n_reach|]. split; [simpl; lia|].
  vm_compute. discriminate.
Qed.
Print Assumptions C34_first_attached_refuted.

Example C34_nested_example :
  start_ok nP nus /\ Forall (ns_op_ok nP) [ncall] /\ ns_timely ncall /\ nested_reachable nP nus [ncall] ns1 /\
  map Qred (ns_L ns1) = [1 # 4; 5 # 8] /\ map (map Qred) (ns_samples ns1) = [[5 # 8]; [5 # 8]] /\
  multi_reachable mP mus [mcall] ms1 /\ mn_op_ok mP mcall /\ mn_ready mP /\ length (ns_samples ms1) = 4%nat.
Proof.
  split; [exact n_start|]. split; [repeat constructor|]. split; [exact n_timely|]. split; [exact n_reach|].
  split; [vm_compute; reflexivity|]. split; [vm_compute; reflexivity|]. split; [exact m_reach|]. split; [exact m_ok|].
  split; [exact m_ready|reflexivity].
Qed.

(** C36, part that holds: if the target is zero outside the space and no search is cut off by the clock, all
    live points and samples stay in the space. *)
Theorem C36_nested_confined_partial :
  forall P us, is_box (ns_lo P) (ns_hi P) -> start_ok P us ->
  forall ops s, Forall (ns_op_ok P) ops -> Forall (fun o => ns_timely o /\ ns_target (inside_only P) o) ops ->
    nested_reachable P us ops s ->
    Forall (in_box (ns_lo P) (ns_hi P)) (ns_live s) /\ Forall (in_box (ns_lo P) (ns_hi P)) (ns_samples s).
Proof. intros P us B S0 ops s OK KK R. destruct (nested_confined P us B S0 ops s OK KK R) as (A & C & _). auto. Qed.
Print Assumptions C36_nested_confined_partial.
Theorem C36_multi_confined_partial :
  forall P us, mn_ready P -> is_box (ns_lo P) (ns_hi P) -> start_ok P us ->
  forall ops s, Forall (mn_op_ok P) ops -> Forall (fun o => mn_timely o /\ mn_target (inside_only P) o) ops ->
    multi_reachable P us ops s ->
    Forall (in_box (ns_lo P) (ns_hi P)) (ns_live s) /\ Forall (in_box (ns_lo P) (ns_hi P)) (ns_samples s).
Proof. intros P us RD B S0 ops s OK KK R. destruct (multi_confined P us RD B S0 ops s OK KK R) as (A & C & _). auto. Qed.
Print Assumptions C36_multi_confined_partial.

(** C36 (full statement: for every target) is false: only the first candidate is clipped, a redraw is not. *)
Theorem C36_nested_confined_refuted :
  exists P us ops s, is_box (ns_lo P) (ns_hi P) /\ start_ok P us /\ Forall (ns_op_ok P) ops /\ Forall ns_timely ops /\
    nested_reachable P us ops s /\ ~ Forall (in_box (ns_lo P) (ns_hi P)) (ns_samples s).
Proof.
  exists nP, nus, [ncall_open], ns2. split; [simpl; repeat split; lra|]. split; [exact n_start|]. split; [repeat constructor|].
  split; [constructor; [split; [reflexivity|repeat constructor]|constructor]|].
  split; [apply nested_next with (ns_new nP nus); [constructor|left; exact n2_run]|].
  intros H. inversion H as [|? ? A _]; subst. simpl in A. destruct A as (_ & A & _). vm_compute in A. apply A. reflexivity.
Qed.
Print Assumptions C36_nested_confined_refuted.

Example C36_confined_example :
  is_box (ns_lo nP) (ns_hi nP) /\ ns_target (inside_only nP) ncall /\ ns_timely ncall /\ nested_reachable nP nus [ncall] ns1 /\
  mn_target (inside_only mP) mcall /\ mn_timely mcall /\ multi_reachable mP mus [mcall] ms1.
Proof.
  split; [simpl; repeat split; lra|]. split; [exact n_inside|]. split; [exact n_timely|]. split; [exact n_reach|].
  split; [exact n_inside|]. split; [split; [reflexivity|repeat constructor]|exact m_reach].
Qed.

(** C37. For every answer of k-means, every ellipsoid volume and distance and every threshold, the clustering of at
    least two points (no fewer than the dimension) ends and partitions the points, with at least d + 1 points in
    each group unless there is only one. The recursion depth is at most the number of points. *)
Theorem C37_clustering_partition :
  forall npts d oc ratio min_dist, (1 <= d)%nat -> (d <= npts)%nat -> (2 <= npts)%nat -> labels_ok npts oc ->
  forall fuel, (npts <= fuel)%nat ->
  exists gs, cluster_all fuel npts d oc ratio min_dist = Some (Ok gs) /\ partitions npts (map g_mask gs) /\
    (length gs = 1 \/ Forall (fun g => d + 1 <= count_true (g_mask g))%nat gs)%nat.
Proof. exact cluster_all_ok. Qed.
Print Assumptions C37_clustering_partition.

(** C37. Smaller sets of points are refused. *)
Theorem C37_clustering_too_few :
  forall fuel d oc ratio min_dist, (1 <= fuel)%nat ->
    cluster_all fuel 1 1 oc ratio min_dist = Some (Raise ValueError) /\
    forall npts, (npts < d)%nat -> cluster_all fuel npts d oc ratio min_dist = Some (Raise AssertionError).
Proof.
  intros [|fuel] d oc ratio md H; [lia|]. split; [reflexivity|]. intros npts L. unfold cluster_all.
  apply Nat.ltb_lt in L. now rewrite L.
Qed.
Print Assumptions C37_clustering_too_few.

Example C37_clustering_example :
  labels_ok 4 moc /\
  cluster_all 5 4 1 moc (4 # 5) (1 # 5)
  = Some (Ok [mkGroup [true; true; false; false] (1 # 10); mkGroup [false; false; true; true] (1 # 10)]).
Proof. split; [exact m_labels|vm_compute; reflexivity]. Qed.

(** C38. Nested sampling: a call that returns holds exactly max(n, previously held) samples, the earlier ones
    unchanged and first, and the number of live points is kept. *)
Theorem C38_nested_request :
  forall P us, start_ok P us -> forall ops s, Forall (ns_op_ok P) ops -> nested_reachable P us ops s ->
  forall pi n timeout tape pick s', nested_call P pi n timeout tape pick s = Done s' ->
    length (ns_samples s') = Nat.max n (length (ns_samples s)) /\ (exists added, ns_samples s' = ns_samples s ++ added) /\
    length (ns_live s') = ns_N P.
Proof. exact nested_request. Qed.
Print Assumptions C38_nested_request.

(** C38. The only exception is the IndexError of asking an empty sampler for no samples. *)
Theorem C38_nested_failure :
  forall P us, start_ok P us -> (0 < ns_kde P)%nat -> forall ops s, Forall (ns_op_ok P) ops -> nested_reachable P us ops s ->
  forall pi n timeout tape pick e s', nested_call P pi n timeout tape pick s = Failed e s' ->
  e = IndexError /\ n = 0%nat /\ ns_samples s = [].
Proof. exact nested_fails. Qed.
Print Assumptions C38_nested_failure.

(** C38, multi-nested, part that holds: earlier samples and the number of live points are kept; with k groups,
    k * max((n - held) / k, 1) samples are added, rounding down. *)
Theorem C38_multi_request_partial :
  forall P us, mn_ready P -> start_ok P us -> forall ops s, Forall (mn_op_ok P) ops -> multi_reachable P us ops s ->
  forall oc pi n timeout tape pick s', labels_ok (ns_N P) oc -> multi_call P oc pi n timeout tape pick s = Done s' ->
    length (ns_live s') = ns_N P /\
    exists added k, ns_samples s' = ns_samples s ++ added /\ (0 < k)%nat /\
      length added = (k * Nat.max ((n - length (ns_samples s)) / k) 1)%nat.
Proof. exact multi_request. Qed.
Print Assumptions C38_multi_request_partial.

(** C38 (full statement: at least n samples) is false for multi-nested sampling: five requested, four returned. *)
Theorem C38_multi_request_refuted :
  exists P us oc pi n timeout tape pick s', mn_ready P /\ start_ok P us /\ labels_ok (ns_N P) oc /\
    multi_call P oc pi n timeout tape pick (ns_new P us) = Done s' /\ (length (ns_samples s') < n)%nat.
Proof.
  exists mP, mus, moc, npi, 5%nat, 60, [mrep; mrep; mrep; mrep], (fun i => i), ms1.
  split; [exact m_ready|]. split; [exact m_start|]. split; [exact m_labels|]. split; [vm_compute; reflexivity|]. simpl. lia.
Qed.
Print Assumptions C38_multi_request_refuted.

Example C38_request_example :
  nested_call nP npi 2 60 [rep1; rep2] (fun i => i) (ns_new nP nus) = Done ns1 /\ length (ns_samples ns1) = 2%nat /\
  (exists s', nested_call nP npi 0 60 [] (fun i => i) (ns_new nP nus) = Failed IndexError s').
Proof. split; [vm_compute; reflexivity|]. split; [reflexivity|]. eexists. vm_compute. reflexivity. Qed.

(** C69. Target evaluations are counted exactly; every call draws at least one point per new sample and counts each. *)
Theorem C69_nested_effort :
  forall P us, start_ok P us -> forall ops s, Forall (ns_op_ok P) ops -> nested_reachable P us ops s ->
  ns_pi_evals s = length (ns_seen s) /\
  forall pi n timeout tape pick s', nested_call P pi n timeout tape pick s = Done s' ->
    exists drawn, ns_seen s' = ns_seen s ++ ns_live s ++ drawn /\ ns_q_samples s' = (ns_q_samples s + length drawn)%nat /\
      (n - length (ns_samples s) <= length drawn)%nat.
Proof. exact nested_effort. Qed.
Print Assumptions C69_nested_effort.

Example C69_nested_effort_example :
  ns_pi_evals ns1 = 6%nat /\ ns_q_samples ns1 = 4%nat /\ length (ns_seen ns1) = 6%nat.
Proof. repeat split. Qed.


Open Scope R_scope.
(** C35. Weights: for the likelihoods recorded by any history with non-negative targets, some of them positive,
    the weights are finite, non-negative, sum to one and are proportional to likelihood times shell. *)
Theorem C35_nested_weights :
  forall P us, start_ok P us -> forall ops s, Forall (ns_op_ok P) ops ->
  Forall (ns_target (fun pi => forall x, (0 <= pi x)%Q)) ops -> nested_reachable P us ops s ->
  Exists (fun l => (0 < l)%Q) (ns_L s) ->
  exists ws z, nested_weights (ns_N P) (map Q2R (ns_L s)) = map Fin ws /\ length ws = length (ns_samples s) /\
    Forall (fun w => 0 <= w) ws /\ Rsum ws = 1 /\ 0 < z /\
    forall i, (i < length ws)%nat -> nth i ws 0 * z = Q2R (nth i (ns_L s) 0%Q) * shell (ns_N P) i.
Proof.
  intros P us S0 ops s OK KK R EX. pose proof (L_nonneg_reachable P us S0 ops s OK KK R) as F.
  destruct (booked_reachable P us S0 ops s OK R) as ((BL & _) & _). destruct S0 as (_ & NP & _).
  assert (F' : Forall (fun l => 0 <= l) (map Q2R (ns_L s))).
  { rewrite Forall_map. eapply Forall_impl; [|exact F]. intros l Hl. cbv beta in *. apply Qle_Rle in Hl. rewrite RMicromega.Q2R_0 in Hl. exact Hl. }
  assert (E' : Exists (fun l => 0 < l) (map Q2R (ns_L s))).
  { apply Exists_exists in EX. destruct EX as (l & I & Hl). apply Exists_exists. exists (Q2R l). split; [now apply in_map|].
    apply Qlt_Rlt in Hl. rewrite RMicromega.Q2R_0 in Hl. exact Hl. }
  destruct (weights_finite (ns_N P) (map Q2R (ns_L s)) NP F' E') as (ws & A & B & C & D & PR).
  exists ws, (Rsum (terms (ns_N P) (map Q2R (ns_L s)))). rewrite map_length in *. split; [exact A|]. split; [congruence|].
  split; [exact C|]. split; [exact D|]. split; [now apply terms_positive|]. intros i Hi. rewrite B in Hi. rewrite PR by exact Hi.
  f_equal. rewrite (nth_map_in Q2R (ns_L s) i 0 0%Q) by exact Hi. reflexivity.
Qed.
Print Assumptions C35_nested_weights.

(** C35 (last part, full statement: the shells add up to at most one) is false for every number of live points as
    soon as there are two samples: the first shell is the whole prior mass. *)
Theorem C35_prior_mass_refuted :
  forall N n, (0 < N)%nat -> (2 <= n)%nat -> 1 < Rsum (shells N n) /\ Rsum (shells N n) = 2 - exp (- (INR (n - 1) / INR N)).
Proof.
  intros N n HN H. split; [now apply shells_exceed|]. rewrite shells_spec by lia. destruct n as [|n]; [lia|].
  rewrite shells_total. now replace (S n - 1)%nat with n by lia.
Qed.
Print Assumptions C35_prior_mass_refuted.

(** C35. If every recorded likelihood is zero all weights are NaN. *)
Theorem C35_nested_weights_zero :
  forall N L, Forall (fun l => l = 0) L -> L <> [] -> Forall (fun w => w = NaN) (nested_weights N L).
Proof. exact weights_zero. Qed.
Print Assumptions C35_nested_weights_zero.

Example C35_nested_weights_example :
  ns_target (fun pi => forall x, (0 <= pi x)%Q) ncall /\ nested_reachable nP nus [ncall] ns1 /\
  Exists (fun l => (0 < l)%Q) (ns_L ns1).
Proof. split; [exact (proj1 n_inside)|]. split; [exact n_reach|]. constructor. reflexivity. Qed.

(** C68. With positive weights the reported effective sample size is a fraction. *)
Theorem C68_nested_NESS_partial :
  forall ws, Forall (fun w => 0 < w) ws -> Rsum ws = 1 -> exists a, nested_NESS ws = Fin a /\ 0 < a <= 1.
Proof. exact NESS_range. Qed.
Print Assumptions C68_nested_NESS_partial.

(** C68 (full statement: for all weights returned by a call) is false: a recorded likelihood of zero makes it NaN. *)
Theorem C68_nested_NESS_refuted :
  exists N L ws, Forall (fun l => 0 <= l) L /\ Exists (fun l => 0 < l) L /\ (0 < N)%nat /\
    nested_weights N L = map Fin ws /\ nested_NESS ws = NaN.
Proof.
  assert (F : Forall (fun l => 0 <= l) [0; 1]) by (repeat constructor; Lra.lra).
  assert (E : Exists (fun l => 0 < l) [0; 1]) by (right; constructor; Lra.lra).
  destruct (weights_finite 1 [0; 1] Nat.lt_0_1 F E) as (ws & A & B & C & D & PR).
  exists 1%nat, [0; 1], ws. split; [exact F|]. split; [exact E|]. split; [lia|]. split; [exact A|].
  apply NESS_zero. pose proof (PR 0%nat ltac:(simpl; lia)) as H. pose proof (terms_positive 1 [0; 1] Nat.lt_0_1 F E) as Z.
  simpl in B. destruct ws as [|w ws]; [discriminate|]. cbn [nth] in H. rewrite Rmult_0_l in H. left.
  apply Rmult_integral in H. destruct H as [->|H]; [reflexivity|]. rewrite H in Z. exfalso. apply (Rlt_irrefl _ Z).
Qed.
Print Assumptions C68_nested_NESS_refuted.

Example C68_nested_NESS_example : Forall (fun w => 0 < w) [/ 4; 3 / 4] /\ Rsum [/ 4; 3 / 4] = 1.
Proof. split; [repeat constructor; Lra.lra|simpl; Lra.lra]. Qed.
