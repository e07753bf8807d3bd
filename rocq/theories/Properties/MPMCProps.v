(** Properties C43, C44 and C71. *)
From Coq Require Import List Bool Arith Lia QArith Lqa Reals.
Import ListNotations.
From Verif Require Import Prelude.Py Prelude.QBase Prelude.RBase Prelude.QFacts Model.Base Model.Mixture Model.Population Model.MPMC
  Spec.MPMCSpec Spec.PopulationSpec Proofs.PopulationProofs Proofs.MPMCProofs Proofs.MPMCHistory Proofs.MPMCReal Proofs.MPMCWitness.
Open Scope Q_scope.

(** C43 (full statement: mixture weights, posteriors, means and returned weights, in every history). Mixture
    weights: in every history whose calls all returned since the last reset, as long as no batch missed the
    target's support, the mixture weights are positive and sum to one, and are those of the model. *)
Theorem C43_mixture_weights_partial :
  forall P us ops s, mp_params_ok P -> length us = mp_N P -> Forall (fun e => mp_op_ok P (fst e)) ops -> mp_reachable P us ops s ->
  since_reset (map mp_raised ops) = 0%nat -> mp_dead s = false ->
  length (mp_alpha s) = mp_N P /\ Forall (fun a => 0 < a) (mp_alpha s) /\ sum_of (mp_alpha s) == 1 /\ Forall2 Qeq (mp_alpha s) (mp_mixw s).
Proof.
  intros P us ops s PO U O R Z _. destruct (mp_books_reachable _ _ _ _ PO U O R) as (t & (K1 & K2 & K3 & K4 & K5 & K6) & _ & _ & _ & _ & _ & _ & Cl).
  specialize (Cl Z). repeat split; auto.
  change (Qsum (mp_alpha s) == 1). rewrite <- K6. clear - Cl. unfold mp_clean in Cl.
  induction Cl; simpl; try reflexivity. rewrite H, IHCl. reflexivity.
Qed.
Print Assumptions C43_mixture_weights_partial.
Example C43_mixture_weights_example :
  mp_params_ok (vmp 2) /\ mp_reachable (vmp 2) vus [(vcall 2 [vgood], true)] (vdone 2 [vgood]) /\
  mp_dead (vdone 2 [vgood]) = false /\ ~ nth 0 (mp_alpha (vdone 2 [vgood])) 0 == 1 # 2.
Proof.
  split; [apply vparams_ok; lia|]. split; [apply v1_reach|]. split; [vm_compute; reflexivity|]. vm_compute. discriminate.
Qed.

(** Without the restriction it fails: after a refused covariance the weights do not sum to one. *)
Theorem C43_mixture_weights_refuted :
  exists P us ops s, mp_params_ok P /\ length us = mp_N P /\ Forall (fun e => mp_op_ok P (fst e)) ops /\
    mp_reachable P us ops s /\ mp_dead s = false /\ sum_of (mp_alpha s) < 1.
Proof.
  exists (vmp 2), vus, [(vcall 2 [vsame], false)], (vdone 2 [vsame]). split; [apply vparams_ok; lia|]. split; [reflexivity|].
  split; [apply vops_ok|]. split; [apply vsame_reach|]. split; vm_compute; reflexivity.
Qed.
Print Assumptions C43_mixture_weights_refuted.

(** Posteriors: for the same histories, the numbers computed for a point are its component posteriors and sum to one. *)
Theorem C43_posteriors :
  forall P us ops s, mp_params_ok P -> length us = mp_N P -> Forall (fun e => mp_op_ok P (fst e)) ops -> mp_reachable P us ops s ->
  since_reset (map mp_raised ops) = 0%nat -> mp_dead s = false -> forall x,
  let post := map (fun d => mp_rho P s d x) (seq 0 (mp_N P)) in
  posteriors (mp_alpha s) (map (fun p => mp_comp P (fst p) (snd p) x) (mp_props s)) post /\ sum_of post == 1.
Proof.
  intros P us ops s PO U O R Z _ x post. destruct (mp_books_reachable _ _ _ _ PO U O R) as (t & Ok & _ & _ & _ & _ & _ & _ & Cl).
  specialize (Cl Z). pose proof (mix_pos P s x PO Ok) as M. split; [|exact (rho_sum P s x PO Ok Cl)].
  destruct Ok as (L1 & L2 & L3 & _). split; [unfold post; rewrite map_length, seq_length; auto|].
  intros d a q p A Qd Pp.
  assert (E : mixture_at (mp_alpha s) (map (fun p => mp_comp P (fst p) (snd p) x) (mp_props s)) == mp_mix P s x).
  { unfold mp_mix. clear - Cl. unfold mp_clean in Cl. generalize (mp_props s). induction Cl as [|a w al mw E F IH]; intros [|p ps]; simpl; try reflexivity.
    rewrite IH, E. reflexivity. }
  rewrite E. assert (D : (d < mp_N P)%nat) by (rewrite <- L2; apply nth_error_Some; congruence).
  unfold post in Pp. rewrite nth_error_map in Pp. rewrite (nth_error_nth' _ 0%nat) in Pp by (rewrite seq_length; auto).
  rewrite seq_nth in Pp by auto. simpl in Pp. assert (p = mp_rho P s d x) by congruence. subst p. unfold mp_rho.
  rewrite nth_error_map in Qd. destruct (nth_error (mp_props s) d) as [pr|] eqn:Ep; [|discriminate]. simpl in Qd.
  rewrite (nth_error_nth _ _ _ Ep), (nth_error_nth _ _ _ A). assert (q = mp_comp P (fst pr) (snd pr) x) by congruence. subst q.
  field. lra.
Qed.
Print Assumptions C43_posteriors.
Example C43_posteriors_example :
  mp_reachable (vmp 2) vus [(vcall 2 [vgood], true)] (vdone 2 [vgood]) /\ mp_dead (vdone 2 [vgood]) = false /\
  ~ mp_rho (vmp 2) (vdone 2 [vgood]) 0 [1] == mp_rho (vmp 2) (vdone 2 [vgood]) 1 [1].
Proof. split; [apply v1_reach|]. split; [vm_compute; reflexivity|]. vm_compute. discriminate. Qed.

(** Means: in every history, after a completed adaptation every mean is in the bounding box of the batch. *)
Theorem C43_means_in_batch :
  forall P us ops s, mp_params_ok P -> length us = mp_N P -> Forall (fun e => mp_op_ok P (fst e)) ops -> mp_reachable P us ops s ->
  forall pi r s', (forall x, 0 <= pi x) -> mp_iter P pi r s = Done s' -> mp_dead s' = false ->
  exists xs, length xs = mp_K P /\ mp_samples s' = mp_samples s ++ xs /\ length (mp_props s') = mp_N P /\
    Forall (fun p => in_hull (mp_dims P) xs (fst p)) (mp_props s').
Proof.
  intros P us ops s PO U O R pi r s' Pi E Dd. destruct (mp_books_reachable _ _ _ _ PO U O R) as (t & Ok & _).
  pose proof (mp_iter_case P pi r s PO Ok Pi) as Ic. rewrite E in Ic.
  inversion Ic as [xs Lx Z Eq|xs alpha mixw props Lx Ex Hp Ha Al Sa Ok' Eq|]; subst; [discriminate|].
  exists xs. simpl. destruct Ok' as (L1 & _). simpl in L1. repeat split; auto.
  apply Forall_forall. intros p Pp. apply In_nth_error in Pp. destruct Pp as (d & D).
  assert (Ld : (d < mp_N P)%nat) by (rewrite <- L1; eapply nth_error_lt; exact D).
  destruct (Hp d Ld) as (H & _).
  assert (p = (new_mu P xs (norm_ws P pi s xs) (map (mp_rho P s d) xs), new_cov P xs (norm_ws P pi s xs) (map (mp_rho P s d) xs))) by (apply some_inj; transitivity (nth_error props d); [symmetry; exact D|exact H]).
  subst p. cbn [fst].
  assert (Lw : length (norm_ws P pi s xs) = mp_K P) by (unfold norm_ws; rewrite !map_length; auto).
  assert (Z : ~ Qsum (map (mp_raw P pi s) xs) == 0).
  { apply Exists_exists in Ex. destruct Ex as (x & X & Px). intros Z.
    assert (Fr : Forall (fun w => 0 <= w) (map (mp_raw P pi s) xs)).
    { apply Forall_forall. intros w W. apply in_map_iff in W. destruct W as (y & <- & _). apply raw_nonneg; auto. }
    assert (P0 : 0 < mp_raw P pi s x).
    { unfold mp_raw. apply Qlt_shift_div_l; [apply mix_pos; auto|]. rewrite Qmult_0_l. auto. }
    pose proof (Qsum_pos_in _ _ Fr (in_map _ _ _ X) P0). lra. }
  destruct (norm_ws_spec P pi s xs PO Ok Pi Z) as (_ & Fw & S1).
  assert (Fr : Forall (fun r => 0 < r) (map (mp_rho P s d) xs)).
  { apply Forall_forall. intros y Y. apply in_map_iff in Y. destruct Y as (x & <- & _). apply rho_pos; auto. }
  apply mu_hull; auto.
  - exact (eq_trans Lw (eq_sym Lx)).
  - apply map_length.
  - eapply Forall_impl; [|exact Fr]. simpl. intros. lra.
  - apply new_alpha_pos; auto; [rewrite map_length; exact (eq_trans Lx (eq_sym Lw))|lra].
Qed.
Print Assumptions C43_means_in_batch.
Example C43_means_in_batch_example :
  mp_reachable (vmp 2) vus [] (v0 2) /\ exists s', mp_iter (vmp 2) vpi vgood (v0 2) = Done s' /\ mp_dead s' = false.
Proof. split; [apply mp_init|]. eexists. split; [apply done_run; vm_compute; reflexivity|vm_compute; reflexivity]. Qed.

(** Returned weights: they are non-negative and sum to the number of batches, so they sum to one only after one. *)
Theorem C43_returned_weights_partial :
  forall P us ops s, mp_params_ok P -> length us = mp_N P -> Forall (fun e => mp_op_ok P (fst e)) ops -> mp_reachable P us ops s ->
  mp_dead s = false ->
  exists ws t, mp_weights s = map Fin ws /\ Forall (fun w => 0 <= w) ws /\ length ws = (t * mp_K P)%nat /\ sum_of ws == inject_Z (Z.of_nat t).
Proof.
  intros P us ops s PO U O R Dd. destruct (mp_books_reachable _ _ _ _ PO U O R) as (t & Ok & L & Lw & _ & _ & _ & W & _).
  destruct (W Dd) as (ws & Ew & F & S). exists ws, t. repeat split; auto.
  rewrite Ew, map_length in Lw. congruence.
Qed.
Print Assumptions C43_returned_weights_partial.
Example C43_returned_weights_example :
  mp_reachable (vmp 2) vus [(vcall 2 [vgood], true)] (vdone 2 [vgood]) /\ mp_dead (vdone 2 [vgood]) = false /\
  length (mp_weights (vdone 2 [vgood])) = 2%nat.
Proof. split; [apply v1_reach|]. split; vm_compute; reflexivity. Qed.
Theorem C43_returned_weights_refuted :
  exists P us ops s ws, mp_params_ok P /\ length us = mp_N P /\ Forall (fun e => mp_op_ok P (fst e)) ops /\
    mp_reachable P us ops s /\ mp_weights s = map Fin ws /\ sum_of ws == 2.
Proof.
  exists v1p, vus1, [(vcall 4 [vtwo; vtwo], true)], v2, (map fin_val (mp_weights v2)).
  split; [apply v1p_ok|]. split; [reflexivity|]. split; [apply vops_ok|]. split; [apply v2_reach|].
  split; vm_compute; reflexivity.
Qed.
Print Assumptions C43_returned_weights_refuted.
(** A batch that misses the support of the target gives weights that are not numbers. *)
Theorem C43_missed_target_refuted :
  exists P us pi n timeout tape s', mp_params_ok P /\ length us = mp_N P /\ (forall x, 0 <= pi x) /\ (exists x, 0 < pi x) /\
    mp_call P pi n timeout tape (mp_new P us) = Done s' /\ mp_weights s' = [NaN; NaN].
Proof.
  exists (vmp 2), vus, vpi, 2%nat, 1, [vmiss], (vdone 2 [vmiss]). split; [apply vparams_ok; lia|]. split; [reflexivity|].
  split; [apply vpi_nonneg|]. split; [exists [1]; reflexivity|]. split; [exact vmiss_run|vm_compute; reflexivity].
Qed.
Print Assumptions C43_missed_target_refuted.

(** The rational quotients of the model are what the code's logarithms and exponentials give. *)
Theorem C43_quotients :
  forall p a qd q : R, (0 <= p -> 0 <= a -> 0 < qd -> 0 < q ->
  mp_raw_R (fln (Fin p)) (fln (Fin q)) = Fin (p / q) /\ mp_rho_R a (fln (Fin qd)) (fln (Fin q)) = Fin (a * qd / q))%R.
Proof. intros. split; [apply raw_quotient|apply rho_quotient]; auto. Qed.
Print Assumptions C43_quotients.
Example C43_quotients_example : (0 <= 1 /\ 0 < 2)%R.
Proof. split; Lra.lra. Qed.

(** C44 (full statement: the new covariance is the weighted covariance around the new mean). In every history a
    completed adaptation gives each component the mean of equation 14.2 with weights pi/q times posterior, and
    as covariance the unweighted scatter around it, or 10 times the identity when an entry exceeds 10. *)
Theorem C44_moments_partial :
  forall P us ops s, mp_params_ok P -> length us = mp_N P -> Forall (fun e => mp_op_ok P (fst e)) ops -> mp_reachable P us ops s ->
  forall pi r s', (forall x, 0 <= pi x) -> mp_iter P pi r s = Done s' -> mp_dead s' = false ->
  exists xs, mp_samples s' = mp_samples s ++ xs /\
  forall d p, nth_error (mp_props s') d = Some p ->
    exists om, length om = length xs /\ Forall (fun o => 0 <= o) om /\ 0 < sum_of om /\
      (exists T, 0 < T /\ forall i x o, nth_error xs i = Some x -> nth_error om i = Some o ->
         o * T * mp_mix P s x == pi x * mp_rho P s d x) /\
      (forall c, (c < mp_dims P)%nat -> is_weighted_mean om xs c (nth c (fst p) 0)) /\
      (snd p = diag_const (mp_dims P) 10 \/
       forall i j, (i < mp_dims P)%nat -> (j < mp_dims P)%nat -> is_scatter xs (fst p) i j (entry (snd p) i j)).
Proof.
  intros P us ops s PO U O R pi r s' Pi E Dd. destruct (mp_books_reachable _ _ _ _ PO U O R) as (t & Ok & _).
  pose proof (mp_iter_case P pi r s PO Ok Pi) as Ic. rewrite E in Ic.
  inversion Ic as [xs Lx Z Eq|xs alpha mixw props Lx Ex Hp Ha Al Sa Ok' Eq|]; subst; [discriminate|].
  exists xs. simpl. split; auto. intros d p D. destruct Ok' as (L1 & _). simpl in L1.
  assert (Ld : (d < mp_N P)%nat) by (rewrite <- L1; eapply nth_error_lt; exact D).
  destruct (Hp d Ld) as (H & _).
  assert (p = (new_mu P xs (norm_ws P pi s xs) (map (mp_rho P s d) xs), new_cov P xs (norm_ws P pi s xs) (map (mp_rho P s d) xs))) by (apply some_inj; transitivity (nth_error props d); [symmetry; exact D|exact H]).
  subst p. cbn [fst snd].
  assert (Lw : length (norm_ws P pi s xs) = mp_K P) by (unfold norm_ws; rewrite !map_length; auto).
  assert (Z : ~ Qsum (map (mp_raw P pi s) xs) == 0).
  { apply Exists_exists in Ex. destruct Ex as (x & X & Px). intros Z.
    assert (Fr : Forall (fun w => 0 <= w) (map (mp_raw P pi s) xs)).
    { apply Forall_forall. intros w W. apply in_map_iff in W. destruct W as (y & <- & _). apply raw_nonneg; auto. }
    assert (P0 : 0 < mp_raw P pi s x).
    { unfold mp_raw. apply Qlt_shift_div_l; [apply mix_pos; auto|]. rewrite Qmult_0_l. auto. }
    pose proof (Qsum_pos_in _ _ Fr (in_map _ _ _ X) P0). lra. }
  destruct (norm_ws_spec P pi s xs PO Ok Pi Z) as (Sp & Fw & S1).
  assert (Fr : Forall (fun r => 0 < r) (map (mp_rho P s d) xs)).
  { apply Forall_forall. intros y Y. apply in_map_iff in Y. destruct Y as (x & <- & _). apply rho_pos; auto. }
  assert (Lr : length (map (mp_rho P s d) xs) = mp_K P) by (rewrite map_length; auto).
  assert (Na : 0 < new_alpha (norm_ws P pi s xs) (map (mp_rho P s d) xs)) by (apply new_alpha_pos; auto; [congruence|lra]).
  exists (map2 Qmult (norm_ws P pi s xs) (map (mp_rho P s d) xs)). split; [rewrite map2_length; congruence|].
  split; [apply map2_mult_nonneg; auto; eapply Forall_impl; [|exact Fr]; simpl; intros; lra|].
  split; [exact Na|]. split; [|split].
  - exists (Qsum (map (mp_raw P pi s) xs)). split; auto. intros i x o X Om.
    rewrite (map2_nth Qmult 0 0) in Om by congruence. rewrite nth_error_map in Om.
    assert (Li : (i < mp_K P)%nat) by (rewrite <- Lx; apply nth_error_Some; congruence).
    rewrite (nth_error_nth' _ 0%nat) in Om by (rewrite seq_length; congruence). rewrite seq_nth in Om by congruence.
    cbn [option_map Nat.add] in Om.
    assert (o = nth i (norm_ws P pi s xs) 0 * nth i (map (mp_rho P s d) xs) 0) by congruence. subst o.
    assert (E1 : nth_error (norm_ws P pi s xs) i = Some (mp_raw P pi s x / Qsum (map (mp_raw P pi s) xs))).
    { unfold norm_ws. rewrite map_map, nth_error_map, X. reflexivity. }
    assert (E2 : nth_error (map (mp_rho P s d) xs) i = Some (mp_rho P s d x)) by (rewrite nth_error_map, X; reflexivity).
    rewrite (nth_error_nth _ _ _ E1), (nth_error_nth _ _ _ E2).
    pose proof (mix_pos P s x PO Ok) as M. unfold mp_raw at 1. field. split; lra.
  - intros c C. apply mu_weighted; auto. lra.
  - apply new_cov_scatter; auto. lra.
Qed.
Print Assumptions C44_moments_partial.
Example C44_moments_example :
  mp_reachable (vmp 2) vus [] (v0 2) /\ exists s', mp_iter (vmp 2) vpi vgood (v0 2) = Done s' /\ mp_dead s' = false /\ length (mp_props s') = 2%nat.
Proof. split; [apply mp_init|]. eexists. split; [apply done_run; vm_compute; reflexivity|split; vm_compute; reflexivity]. Qed.
(** So the spread is never underestimated and in general overestimated. *)
Theorem C44_scatter_dominates :
  forall om xs m i v w, Forall (fun o => 0 <= o) om -> length om = length xs -> 0 < sum_of om ->
  is_scatter xs m i i v -> is_weighted_cov om xs m i i w -> w <= v.
Proof. exact scatter_over. Qed.
Print Assumptions C44_scatter_dominates.
Example C44_scatter_dominates_example :
  is_scatter [[0]; [1]] [1 # 2] 0 0 (1 # 2) /\ is_weighted_cov [1 # 2; 1 # 2] [[0]; [1]] [1 # 2] 0 0 (1 # 4) /\ 0 < sum_of [1 # 2; 1 # 2].
Proof. repeat split; vm_compute; reflexivity. Qed.
Theorem C44_covariance_refuted :
  exists P us pi r s' p, mp_params_ok P /\ length us = mp_N P /\ (forall x, 0 <= pi x) /\
    mp_iter P pi r (mp_new P us) = Done s' /\ nth_error (mp_props s') 0 = Some p /\
    forall om, length om = length (mp_samples s') ->
      (exists T, 0 < T /\ forall i x o, nth_error (mp_samples s') i = Some x -> nth_error om i = Some o ->
         o * T * mp_mix P (mp_new P us) x == pi x * mp_rho P (mp_new P us) 0 x) ->
      ~ is_weighted_cov om (mp_samples s') (fst p) 0 0 (entry (snd p) 0 0).
Proof.
  set (s' := out_state (mp_iter v1p vpi vtwo (mp_new v1p vus1))).
  assert (Hr : mp_iter v1p vpi vtwo (mp_new v1p vus1) = Done s') by (apply done_run; vm_compute; reflexivity).
  assert (Es : mp_samples s' = [[0]; [1]]) by (vm_compute; reflexivity).
  destruct (nth_error (mp_props s') 0) as [p|] eqn:Ep; [|vm_compute in Ep; discriminate].
  exists v1p, vus1, vpi, vtwo, s', p. split; [apply v1p_ok|]. split; [reflexivity|].
  split; [apply vpi_nonneg|]. split; [exact Hr|]. split; [exact Ep|]. rewrite Es.
  assert (E0 : nth 0 (fst p) 0 == 1 # 2 /\ entry (snd p) 0 0 == 1 # 2).
  { assert (p = nth 0 (mp_props s') ([], [])) as -> by (symmetry; apply nth_error_nth; exact Ep). split; vm_compute; reflexivity. }
  destruct E0 as [E0 E1].
  intros [|o0 [|o1 [|]]] L (T & Tp & H); try discriminate.
  pose proof (H 0%nat [0] o0 eq_refl eq_refl) as H0. pose proof (H 1%nat [1] o1 eq_refl eq_refl) as H1.
  assert (M0 : mp_mix v1p (mp_new v1p vus1) [0] == 1) by (vm_compute; reflexivity).
  assert (M1 : mp_mix v1p (mp_new v1p vus1) [1] == 1) by (vm_compute; reflexivity).
  assert (C0 : vpi [0] * mp_rho v1p (mp_new v1p vus1) 0 [0] == 1 # 2) by (vm_compute; reflexivity).
  assert (C1 : vpi [1] * mp_rho v1p (mp_new v1p vus1) 0 [1] == 1 # 2) by (vm_compute; reflexivity).
  rewrite M0, C0 in H0. rewrite M1, C1 in H1. clear H M0 M1 C0 C1.
  assert (P0 : 0 < o0) by nra. assert (P1 : 0 < o1) by nra.
  unfold is_weighted_cov, weighted_sum, deviations, sum_of. cbn [map combine fold_right fst snd nth]. rewrite E0, E1. intros E. nra.
Qed.
Print Assumptions C44_covariance_refuted.

(** C71 (full statement: with a positive target a call that ends in time holds the request, and no call raises).
    Request and effort counters in every history. *)
Theorem C71_mpmc_request :
  forall P us ops s, mp_params_ok P -> length us = mp_N P -> Forall (fun e => mp_op_ok P (fst e)) ops -> mp_reachable P us ops s ->
  forall pi n timeout tape s', (forall x, 0 <= pi x) -> mp_call P pi n timeout tape s = Done s' ->
  ((n <= length (mp_samples s))%nat -> s' = s) /\
  ((length (mp_samples s) < n)%nat -> (length (mp_samples s') < n + mp_K P)%nat) /\
  (0 < timeout -> Forall (fun r => mr_clock r < timeout) tape -> (n <= length (mp_samples s'))%nat).
Proof.
  intros P us ops s PO U O R pi n timeout tape s' Pi E. destruct (mp_books_reachable _ _ _ _ PO U O R) as (t & Ok & _).
  destruct (mp_loop_request P pi n timeout tape PO Pi 0 s s' Ok E) as (X & Y & Z). auto.
Qed.
Print Assumptions C71_mpmc_request.
Example C71_mpmc_request_example :
  mp_params_ok v1p /\ mp_reachable v1p vus1 [] (mp_new v1p vus1) /\ mp_call v1p vpi 4 1 [vtwo; vtwo] (mp_new v1p vus1) = Done v2 /\
  length (mp_samples v2) = 4%nat.
Proof. split; [apply v1p_ok|]. split; [apply mp_init|]. split; [exact v2_run|vm_compute; reflexivity]. Qed.

Theorem C71_mpmc_effort :
  forall P us ops s, mp_params_ok P -> length us = mp_N P -> Forall (fun e => mp_op_ok P (fst e)) ops -> mp_reachable P us ops s ->
  exists t, let batches := (t + since_reset (map mp_raised ops))%nat in
    length (mp_samples s) = (t * mp_K P)%nat /\ length (mp_weights s) = (t * mp_K P)%nat /\
    mp_q_samples s = (batches * mp_K P + since_reset (map mp_asked ops))%nat /\
    mp_pi_evals s = (batches * mp_K P)%nat /\ mp_q_evals s = (batches * (mp_K P * (1 + mp_N P)))%nat.
Proof.
  intros P us ops s PO U O R. destruct (mp_books_reachable _ _ _ _ PO U O R) as (t & Ok & L & Lw & A & B & C & _).
  exists t. cbv zeta. repeat split; auto. congruence.
Qed.
Print Assumptions C71_mpmc_effort.
Example C71_mpmc_effort_example :
  mp_reachable v1p vus1 [(vcall 4 [vtwo; vtwo], true)] v2 /\ mp_q_samples v2 = 4%nat /\ mp_pi_evals v2 = 4%nat /\ mp_q_evals v2 = 8%nat.
Proof. split; [apply v2_reach|]. repeat split; vm_compute; reflexivity. Qed.

Theorem C71_mpmc_raises_refuted :
  exists P us pi n timeout tape s', mp_params_ok P /\ length us = mp_N P /\ (forall x, 0 <= pi x) /\ (exists x, 0 < pi x) /\
    mp_call P pi n timeout tape (mp_new P us) = Failed AssertionError s' /\ mp_samples s' = [] /\ mp_pi_evals s' = 2%nat.
Proof.
  exists (vmp 2), vus, vpi, 2%nat, 1, [vsame], (vdone 2 [vsame]). split; [apply vparams_ok; lia|]. split; [reflexivity|].
  split; [apply vpi_nonneg|]. split; [exists [1]; reflexivity|]. split; [exact vsame_run|]. split; vm_compute; reflexivity.
Qed.
Print Assumptions C71_mpmc_raises_refuted.
(** With one sample per batch, and more generally whenever the samples of a batch coincide, the turn raises. *)
Theorem C71_mpmc_single_sample :
  forall P us ops s, mp_params_ok P -> length us = mp_N P -> Forall (fun e => mp_op_ok P (fst e)) ops -> mp_reachable P us ops s ->
  mp_K P = 1%nat -> (0 < mp_dims P)%nat -> forall pi r xs, (forall x, 0 <= pi x) ->
  mixture_sample (mp_mixw s) (mp_K P) (mr_us r) (mr_draw r) = Ok xs -> Exists (fun x => 0 < pi x) xs ->
  exists s', mp_iter P pi r s = Failed AssertionError s'.
Proof.
  intros P us ops s PO U O R K1 D pi r xs Pi Sm Ex. destruct (mp_books_reachable _ _ _ _ PO U O R) as (t & Ok & _).
  apply (coincident_fails P pi r s xs); auto. intros c C.
  assert (L : length xs = 1%nat) by (destruct (sample_ok P s r PO Ok) as (xs' & Sm' & L'); congruence).
  destruct xs as [|x [|]]; try discriminate. exists (nth c x 0). intros y [<- |[]]. reflexivity.
Qed.
Print Assumptions C71_mpmc_single_sample.
Example C71_mpmc_single_sample_example :
  mp_params_ok (vmp 1) /\ mp_reachable (vmp 1) vus [] (v0 1) /\ (0 < mp_dims (vmp 1))%nat /\
  mixture_sample (mp_mixw (v0 1)) 1 (mr_us (vround [[1]])) (mr_draw (vround [[1]])) = Ok [[1]] /\ Exists (fun x => 0 < vpi x) [[1]].
Proof.
  split; [apply vparams_ok; lia|]. split; [apply mp_init|]. split; [unfold mp_dims; simpl; lia|]. split; [vm_compute; reflexivity|].
  constructor. vm_compute. reflexivity.
Qed.
Theorem C71_mpmc_coincident :
  forall P us ops s, mp_params_ok P -> length us = mp_N P -> Forall (fun e => mp_op_ok P (fst e)) ops -> mp_reachable P us ops s ->
  (0 < mp_dims P)%nat -> forall pi r xs, (forall x, 0 <= pi x) ->
  mixture_sample (mp_mixw s) (mp_K P) (mr_us r) (mr_draw r) = Ok xs -> Exists (fun x => 0 < pi x) xs ->
  (forall c, (c < mp_dims P)%nat -> exists b, forall x, In x xs -> nth c x 0 == b) ->
  exists s', mp_iter P pi r s = Failed AssertionError s'.
Proof.
  intros P us ops s PO U O R D pi r xs Pi Sm Ex H. destruct (mp_books_reachable _ _ _ _ PO U O R) as (t & Ok & _).
  apply (coincident_fails P pi r s xs); auto.
Qed.
Print Assumptions C71_mpmc_coincident.
Example C71_mpmc_coincident_example :
  mp_reachable (vmp 2) vus [] (v0 2) /\
  mixture_sample (mp_mixw (v0 2)) 2 (mr_us vsame) (mr_draw vsame) = Ok [[1]; [1]] /\ Exists (fun x => 0 < vpi x) [[1]; [1]].
Proof. split; [apply mp_init|]. split; [vm_compute; reflexivity|]. constructor. vm_compute. reflexivity. Qed.

