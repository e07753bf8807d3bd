(** C01-C04: mixture distributions. *)
From Coq Require Import List Bool Arith Lia QArith Lqa Reals Qreals.
Import ListNotations.
From Verif Require Import Prelude.Py Prelude.QBase Prelude.QFacts Prelude.RBase Model.Mixture Spec.WeightSpec Spec.DensitySpec
  Proofs.MixtureProofs Proofs.MixtureDensity.
Open Scope Q_scope.

(** With at least one usable weight and no +inf the stored weights are finite, non-negative, sum to
    one, are positive exactly at the usable entries and keep their ratios. *)
Theorem C01_weights_normalised : forall ws, ~ In PInf ws -> Exists usable ws ->
  exists out, set_weights (length ws) ws = Ok (map Fin out) /\ is_normalised out /\ keeps_ratios ws out.
Proof. exact set_weights_spec. Qed.

(** A positive rescaling of the weights stores the same weights. *)
Theorem C01_scale_invariant : forall c ws, 0 < c -> ~ In PInf ws -> Exists usable ws ->
  exists o1 o2, set_weights (length ws) ws = Ok (map Fin o1) /\
    set_weights (length ws) (map (scale_weight c) ws) = Ok (map Fin o2) /\ Forall2 Qeq o1 o2.
Proof. exact set_weights_scale. Qed.

(** A vector is accepted exactly when it has one entry per component, whatever the entries are, and what
    is stored then has one entry per component too. *)
Theorem C01_accepted_lengths : forall n ws,
  ((exists out, set_weights n ws = Ok out) <-> length ws = n) /\
  (forall out, set_weights n ws = Ok out -> length out = n).
Proof. exact set_weights_lengths. Qed.

Example C01_example : let ws := [NaN; Fin 2; Fin (-(1)); NInf; Fin (1#3)] in
  ~ In PInf ws /\ Exists usable ws /\ (4 <> length ws)%nat /\
  exists o, set_weights 5 ws = Ok (map Fin o) /\ Forall2 Qeq o [0; 6#7; 0; 0; 1#7].
Proof.
  split; [simpl; intuition discriminate|]. split; [right; left; exists 2; split; [reflexivity|lra]|].
  split; [simpl; lia|]. exists [0 / (7#3); 2 / (7#3); 0 / (7#3); 0 / (7#3); (1#3) / (7#3)].
  split; [vm_compute; reflexivity|]. repeat constructor; vm_compute; reflexivity.
Qed.

(** The announced fall-back to equal weights does not happen: whenever no weight is usable, zeros
    are stored. *)
Theorem C02_equal_fallback_refuted :
  exists ws out, ws <> [] /\ Forall (fun w => ~ usable w) ws /\ ~ In PInf ws /\
    set_weights (length ws) ws = Ok (map Fin out) /\ ~ equal_weights out.
Proof.
  exists [Fin 0; NaN], [0; 0]. split; [discriminate|]. split.
  { repeat constructor; intros (a & E & H); inversion E; subst; lra. }
  split; [simpl; intuition discriminate|]. split; [vm_compute; reflexivity|].
  intros H. inversion H as [|? ? H1 H2]; subst. vm_compute in H1. discriminate.
Qed.

(** What happens instead, for every such vector: all stored weights are zero, so the mixture density is
    zero everywhere and its logarithm -inf, whatever the components. *)
Theorem C02_zero_fallback_partial : forall ws, ws <> [] -> Forall (fun w => ~ usable w) ws -> ~ In PInf ws ->
  exists out, set_weights (length ws) ws = Ok (map Fin out) /\ length out = length ws /\
    Forall (fun w => w == 0) out /\ ~ equal_weights out /\
    forall ls, length ls = length ws -> Forall log_value ls ->
      mixture_prob ls out = Fin 0%R /\ mixture_log_prob ls out = NInf.
Proof.
  intros ws N F NP. destruct (unusable_zero ws F NP) as [E Z]. exists (map clean ws).
  split; [exact E|]. split; [apply map_length|].
  assert (Z' : Forall (fun w => w == 0) (map clean ws)) by (now rewrite Forall_map).
  split; [exact Z'|]. split.
  { intros Q. destruct ws as [|w ws]; [congruence|]. cbn [map] in *. inversion Q as [|? ? H1 _]; inversion Z' as [|? ? H2 _]; subst. cbv beta in H1, H2. set (k := inject_Z _) in H1. clearbody k. rewrite H2 in H1. lra. }
  intros ls _ LV.
  assert (NN : Forall (fun w => 0 <= w) (map clean ws)).
  { eapply Forall_impl; [|exact Z']. cbv beta. intros a ->. lra. }
  assert (WS : forall ds, weighted_sum (map clean ws) ds = 0%R).
  { clear - Z'. induction Z' as [|w out H Z' IH]; intros ds; [reflexivity|]. destruct ds as [|d ds]; [reflexivity|].
    simpl. rewrite IH. apply Qeq_eqR in H. rewrite H, RMicromega.Q2R_0. ring. }
  split.
  - rewrite mixture_prob_spec by auto. now rewrite WS.
  - destruct (mixture_log_spec ls (map clean ws) LV NN) as [[P _]|[_ P]]; auto.
    rewrite WS in P. exfalso. exact (Rlt_irrefl _ P).
Qed.

Example C02_example : let ws := [NaN; Fin (-(1)); Fin 0] in
  ws <> [] /\ Forall (fun w => ~ usable w) ws /\ ~ In PInf ws /\ Forall log_value [Fin 0%R; NInf; Fin 1%R].
Proof.
  split; [discriminate|]. split.
  { repeat constructor; intros (a & E & H); inversion E; subst; lra. }
  split; [simpl; intuition discriminate|]. repeat constructor.
Qed.

(** For every normalised weight vector, every set of components (log densities finite or -inf) and
    every batch: the reported density of each row is the weighted sum of the component densities, the
    reported log density is its logarithm (-inf exactly at zero), and the density lies between any
    bounds of the component densities. *)
Theorem C03_convex_combination : forall (X : Type) (models : list (X -> fl R)) ws rows,
  is_normalised ws -> length models = length ws -> (forall m x, In m models -> log_value (m x)) ->
  Forall2 (fun x p => p = Fin (weighted_sum ws (map (fun m => density_of (m x)) models)))
          rows (mixture_prob_batch models ws rows) /\
  Forall2 (fun x l => log_of l (weighted_sum ws (map (fun m => density_of (m x)) models)))
          rows (mixture_log_prob_batch models ws rows) /\
  (forall x a b, (forall m, In m models -> (a <= density_of (m x) <= b)%R) ->
     (a <= weighted_sum ws (map (fun m => density_of (m x)) models) <= b)%R).
Proof.
  intros X models ws rows [N S] L LV. rewrite total_Qsum in S.
  assert (F : forall x, Forall log_value (map (fun m => m x) models)).
  { intros x. rewrite Forall_map. apply Forall_forall. auto. }
  assert (S1 : Q2R (Qsum ws) = 1%R) by (apply Qeq_eqR in S; rewrite S; apply RMicromega.Q2R_1).
  unfold mixture_prob_batch, mixture_log_prob_batch. split; [|split].
  - induction rows as [|x rows IH]; simpl; constructor; auto.
    rewrite mixture_prob_spec by auto. now rewrite map_map.
  - induction rows as [|x rows IH]; simpl; constructor; auto.
    pose proof (mixture_log_spec _ ws (F x) N) as H. now rewrite map_map in H.
  - intros x a b B. split.
    + pose proof (weighted_ge ws (map (fun m => density_of (m x)) models) a N) as H. rewrite S1, Rmult_1_l in H.
      apply H; [|now rewrite map_length]. rewrite Forall_map. apply Forall_forall. intros m Hm. apply B; auto.
    + pose proof (weighted_le ws (map (fun m => density_of (m x)) models) b N) as H. rewrite S1, Rmult_1_l in H.
      apply H; [|now rewrite map_length]. rewrite Forall_map. apply Forall_forall. intros m Hm. apply B; auto.
Qed.

Example C03_example : is_normalised [1#3; 2#3] /\ length [(fun x : R => Fin x); (fun _ : R => NInf)] = length [1#3; 2#3] /\
  (forall m x, In m [(fun x : R => Fin x); (fun _ : R => NInf)] -> log_value (m x)).
Proof.
  split; [split; [repeat constructor; lra|vm_compute; reflexivity]|]. split; [reflexivity|].
  intros m x [<-|[<-|[]]]; exact I.
Qed.

(** With normalised weights every requested row is a draw of one component with positive weight, for
    every outcome of the uniform draws behind the selector. *)
Theorem C04_live_components_partial : forall (X : Type) ws n us (draw : nat -> nat -> X),
  is_normalised ws -> (forall k i, 0 <= us k i < 1) ->
  exists rows src, mixture_sample ws n us draw = Ok rows /\ length rows = n /\ length src = n /\
    (forall k i, nth_error src k = Some i -> nth_error rows k = Some (draw k i) /\
       exists w, nth_error ws i = Some w /\ 0 < w).
Proof. intros X. exact mixture_sample_live. Qed.

(** The selector is a chain of independent trials in which component i is the first success with
    probability exactly its weight. *)
Theorem C04_selection_law : forall ws, is_normalised ws ->
  exists ps, length ps = length ws /\
    (forall (X : Type) n us (draw : nat -> nat -> X),
       mixture_sample ws n us draw = Ok (map (fun k => draw k (first_hit ps (us k) 0)) (seq 0 n))) /\
    (forall i, (i < length ws)%nat -> first_success ps i == nth i ws 0).
Proof.
  intros ws [F S]. rewrite total_Qsum in S. exists (chain ws 1). split; [apply chain_length|]. split.
  - intros X n us draw. unfold mixture_sample. destruct ws as [|w ws]; [simpl in S; lra|]. destruct n; [reflexivity|].
    f_equal. apply map_ext. intros k. now rewrite multinomial1_chain.
  - intros i L. rewrite <- (chain_law ws 1 i F S) by (auto; lra). ring.
Qed.

Example C04_example : is_normalised [1#2; 0; 1#2] /\ (forall k i : nat, 0 <= (1#3) < 1).
Proof. split; [split; [repeat constructor; lra|vm_compute; reflexivity]|]. intros; lra. Qed.

(** The full claim covers every mixture. It fails for a mixture built from unusable weights: rows are
    then drawn, always from the last component, although its weight (and the density) is zero. *)
Theorem C04_dead_component_refuted :
  exists ws out, set_weights (length ws) ws = Ok (map Fin out) /\
    forall n us, (forall k i, 0 <= us k i < 1) ->
      mixture_sample out n us (fun _ i => i) = Ok (map (fun _ => 1%nat) (seq 0 n)) /\ nth 1 out 1 == 0.
Proof.
  exists [Fin 0; Fin 0], [0; 0]. split; [vm_compute; reflexivity|]. intros n us U. split; [|reflexivity].
  unfold mixture_sample. destruct n; [reflexivity|]. f_equal. apply map_ext. intros k.
  rewrite multinomial1_zero; [reflexivity|discriminate|repeat constructor; reflexivity|]. intros i. apply U.
Qed.

Print Assumptions C01_weights_normalised.
Print Assumptions C01_scale_invariant.
Print Assumptions C01_accepted_lengths.
Print Assumptions C02_equal_fallback_refuted.
Print Assumptions C02_zero_fallback_partial.
Print Assumptions C03_convex_combination.
Print Assumptions C04_live_components_partial.
Print Assumptions C04_selection_law.
Print Assumptions C04_dead_component_refuted.
