(** C126 and C128 for multi-nested sampling and HiDaisee, and C126 for the later samples of nested sampling. *)
From Coq Require Import List Bool Arith Lia QArith Lqa Reals Qreals.
Import ListNotations.
From Verif Require Import Prelude.Py Prelude.QBase Prelude.QFacts Prelude.RBase Model.Base Model.Uniform Model.HiDaisee.
From Verif Require Import Model.Nested.
From Verif Require Import Spec.Box Spec.UniformSpec Spec.SplitSpec.
From Verif Require Import Proofs.NestedProofs Proofs.NestedHistory Proofs.MultiNestedProofs Proofs.NestedWeights Proofs.NestedWitness Proofs.SupportProofs Proofs.MasslessProofs.
From Verif Require Import Proofs.HiDaiseeBox Proofs.HiDaiseeProofs Proofs.HiDaiseeHistory Properties.HiDaiseeProps Properties.HiDaiseeProps2 Properties.SupportTreeProps.
Open Scope Q_scope.

(** Only recorded likelihoods that are positive give positive weights. *)
Lemma positive_likelihood N (L : list Q) i w : (0 < N)%nat -> Forall (fun l => 0 <= l) L ->
  nth_error (nested_weights N (map Q2R L)) i = Some (Fin w) -> (0 < w)%R -> (i < length L)%nat /\ 0 < nth i L 0.
Proof.
  intros NP F E W.
  assert (F' : Forall (fun l => (0 <= l)%R) (map Q2R L)).
  { rewrite Forall_map. eapply Forall_impl; [|exact F]. intros l H. rewrite <- RMicromega.Q2R_0. now apply Qle_Rle. }
  destruct (Exists_dec (fun l => (0 < l)%R) (map Q2R L) (fun l => Rlt_dec 0 l)) as [EX|NE].
  - destruct (weights_finite _ _ NP F' EX) as (ws & A & B & C & D & PR). rewrite map_length in *. rewrite A in E.
    assert (Hi : (i < length ws)%nat). { rewrite <- (map_length Fin). apply nth_error_Some. congruence. }
    rewrite nth_error_map in E. destruct (nth_error ws i) as [w'|] eqn:E2; [|discriminate]. simpl in E.
    assert (w' = w) by congruence. subst w'. apply nth_error_nth with (d := 0%R) in E2. rewrite B in Hi. split; [exact Hi|]. specialize (PR i Hi). rewrite E2 in PR.
    pose proof (terms_positive _ _ NP F' EX) as T. rewrite (nth_map_in Q2R L i 0%R 0) in PR by exact Hi.
    pose proof (shell_pos N i NP) as SH.
    assert (L0 : 0 <= nth i L 0). { rewrite Forall_forall in F. apply F, nth_In; auto. }
    destruct (Qlt_le_dec 0 (nth i L 0)) as [H|H]; [lra|]. exfalso. assert (Z : nth i L 0 == 0) by lra.
    rewrite (Qeq_eqR _ _ Z), RMicromega.Q2R_0 in PR. pose proof (Rmult_lt_0_compat _ _ W T). Lra.lra.
  - exfalso. assert (Z : Forall (fun l => l = 0%R) (map Q2R L)).
    { rewrite Forall_forall in F' |- *. intros l Hl. specialize (F' l Hl). destruct (Rlt_dec 0 l) as [H|H]; [|Lra.lra]. exfalso. apply NE, Exists_exists. eauto. }
    destruct (map Q2R L) as [|l L'] eqn:EL.
    + destruct i; simpl in E; discriminate.
    + assert (NN : l :: L' <> []) by discriminate. pose proof (weights_zero N _ Z NN) as WZ. rewrite Forall_forall in WZ.
      apply nth_error_In, WZ in E. discriminate.
Qed.
Lemma attached_reachable P us pi : start_ok P us -> forall ops s, Forall (ns_op_ok P) ops -> Forall (ns_target (eq pi)) ops -> nested_reachable P us ops s -> attached pi s.
Proof.
  intros S0 ops s OK KK R. apply (history_inv P us (attached pi) (ns_target (eq pi))) with (ops := ops); auto.
  - intros us' _. split; [apply booked_new|]. simpl. intros; lia.
  - intros a b H (B & AT). pose proof (same_core_samples _ _ H) as S1. split; [now apply (booked_core a)|].
    destruct H as (E1 & E2 & E3 & E4 & E5 & E6). rewrite E4, S1. auto.
  - intros a (B & AT). split; [now apply booked_begin|exact AT].
  - intros pi' n timeout tape pick <- _ a b LA. apply one_attached.
Qed.
Lemma multi_nonneg P us : mn_ready P -> start_ok P us -> forall ops s, Forall (mn_op_ok P) ops -> Forall (mn_target (fun pi => forall x, 0 <= pi x)) ops -> multi_reachable P us ops s -> L_nonneg s.
Proof.
  intros RD S0 ops s OK KK R. apply (multi_history_inv P us L_nonneg (mn_target (fun pi => forall x, 0 <= pi x))) with (ops := ops); auto.
  - intros; constructor.
  - intros a b (_ & _ & _ & E & _). unfold L_nonneg. now rewrite E.
  - intros oc pi n timeout tape pick gs r H _ a b _ F O. exact (one_L_nonneg _ _ _ _ _ _ _ H F O).
Qed.

(** C126. Nested sampling: from the second sample on the statement holds in every history of calls for one target, also when the clock cuts
    searches off. *)
Theorem C126_nested_later_partial :
  forall P us pi, start_ok P us -> (forall x, 0 <= pi x) ->
  forall ops s, Forall (ns_op_ok P) ops -> Forall (ns_target (eq pi)) ops -> nested_reachable P us ops s ->
    forall i w, (1 <= i)%nat -> nth_error (nested_weights (ns_N P) (map Q2R (ns_L s))) i = Some (Fin w) -> (0 < w)%R -> 0 < pi (nth i (ns_samples s) []).
Proof.
  intros P us pi S0 NN ops s OK KK R i w Hi E W.
  assert (F : Forall (fun l => 0 <= l) (ns_L s)).
  { apply (L_nonneg_reachable P us S0 ops s OK); auto. eapply Forall_impl; [|exact KK]. intros [] H; simpl in *; auto. now rewrite <- H. }
  destruct (attached_reachable P us pi S0 ops s OK KK R) as (_ & AT). destruct S0 as (_ & NP & _).
  destruct (positive_likelihood _ _ _ _ NP F E W) as (L & PL). rewrite AT in PL by lia. exact PL.
Qed.
Print Assumptions C126_nested_later_partial.
Example C126_nested_later_example :
  start_ok nP nus /\ Forall (ns_target (eq npi)) [ncall] /\ nested_reachable nP nus [ncall] ns1 /\ (1 < length (ns_L ns1))%nat.
Proof. split; [exact n_start|]. split; [repeat constructor|]. split; [exact n_reach|]. vm_compute. lia. Qed.

(** C126. The same for multi-nested sampling. *)
Theorem C126_multi_partial :
  forall P us pi, mn_ready P -> start_ok P us -> (forall x, 0 <= pi x) ->
  forall ops s, Forall (mn_op_ok P) ops -> Forall (mn_target (eq pi)) ops -> multi_reachable P us ops s ->
    forall i w, (1 <= i)%nat -> nth_error (nested_weights (ns_N P) (map Q2R (ns_L s))) i = Some (Fin w) -> (0 < w)%R -> 0 < pi (nth i (ns_samples s) []).
Proof.
  intros P us pi RD S0 NN ops s OK KK R i w Hi E W.
  assert (F : Forall (fun l => 0 <= l) (ns_L s)).
  { apply (multi_nonneg P us RD S0 ops s OK); auto. eapply Forall_impl; [|exact KK]. intros [] H; simpl in *; auto. now rewrite <- H. }
  destruct (multi_attached P us pi RD S0 ops s OK KK R) as (_ & AT). destruct S0 as (_ & NP & _).
  destruct (positive_likelihood _ _ _ _ NP F E W) as (L & PL). rewrite AT in PL by lia. exact PL.
Qed.
Print Assumptions C126_multi_partial.
Example C126_multi_example :
  mn_ready mP /\ start_ok mP mus /\ mn_op_ok mP mcall /\ Forall (mn_target (eq npi)) [mcall] /\ multi_reachable mP mus [mcall] ms1 /\ (1 < length (ns_L ms1))%nat.
Proof. split; [exact m_ready|]. split; [exact m_start|]. split; [exact m_ok|]. split; [repeat constructor|]. split; [exact m_reach|]. vm_compute. lia. Qed.

(** C126 is false of the first sample of multi-nested sampling: when the volume of a cluster is at most the minimal radius the
    replacement is not searched for, and the first sample is the replacement, here at the border of the support, with a positive weight
    although no search was cut off. *)
Definition smP : ns_params := mkNsP [0] [1] 1 4 (1 # 2).
Definition smcall : mn_op := MnCall moc npi 1 60 [mkRepl 0 [0] []; mkRepl 0 [19 # 20] []] (fun i => i).
Theorem C126_multi_refuted :
  exists P us pi ops s w, mn_ready P /\ start_ok P us /\ Forall (mn_op_ok P) ops /\ Forall (fun o => mn_timely o /\ mn_target (eq pi) o) ops /\
    (forall x, 0 <= pi x) /\ multi_reachable P us ops s /\ (0 < length (ns_samples s))%nat /\
    nth_error (nested_weights (ns_N P) (map Q2R (ns_L s))) 0 = Some (Fin w) /\ (0 < w)%R /\ pi (nth 0 (ns_samples s) []) == 0.
Proof.
  assert (E : exists s, multi_run smP smcall (ns_new smP mus) = Done s /\ map Qred (ns_L s) = [1 # 10; 4 # 5] /\ (0 < length (ns_samples s))%nat /\ npi (nth 0 (ns_samples s) []) == 0).
  { eexists. split; [vm_compute; reflexivity|]. split; [vm_compute; reflexivity|]. split; [vm_compute; lia|]. vm_compute. reflexivity. }
  destruct E as (s & R & L & LS & Z).
  assert (F : Forall (fun l => (0 < Q2R l)%R) (ns_L s)).
  { assert (G : Forall (fun l => (0 < Q2R l)%R) (map Qred (ns_L s))) by (rewrite L; repeat constructor; rewrite <- RMicromega.Q2R_0; apply Qlt_Rlt; reflexivity).
    rewrite Forall_map in G. eapply Forall_impl; [|exact G]. intros a H. simpl in H. now rewrite <- (Qeq_eqR _ _ (Qred_correct a)). }
  destruct (ns_L s) as [|l [|l' [|]]] eqn:EL; try discriminate.
  assert (F0 : Forall (fun l => (0 <= l)%R) (map Q2R [l; l'])) by (rewrite Forall_map; eapply Forall_impl; [|exact F]; intros; simpl in *; Lra.lra).
  assert (EX : Exists (fun l => (0 < l)%R) (map Q2R [l; l'])) by (constructor; inversion F; auto).
  assert (NP : (0 < ns_N smP)%nat) by (simpl; lia).
  destruct (weights_finite _ _ NP F0 EX) as (ws & A & B & _ & _ & PR). destruct ws as [|w ws]; [discriminate|].
  exists smP, mus, npi, [smcall], s, w. split; [split; simpl; lia|]. split; [split; [reflexivity|]; split; [simpl; lia|]; repeat constructor; simpl; lra|].
  split; [constructor; [split; [exact m_labels|repeat constructor]|constructor]|]. split; [constructor; [split; [split; [reflexivity|repeat constructor]|reflexivity]|constructor]|].
  split; [exact (proj1 n_inside)|]. split; [apply multi_next with (ns_new smP mus); [constructor|left; exact R]|]. split; [exact LS|].
  rewrite EL, A. split; [reflexivity|]. split; [|exact Z].
  specialize (PR 0%nat ltac:(simpl; lia)). pose proof (terms_positive _ _ NP F0 EX) as T. pose proof (shell_pos (ns_N smP) 0 NP) as SH.
  inversion F as [|? ? P1 _]; subst. cbn [nth map] in PR, P1, T. pose proof (Rmult_lt_0_compat _ _ P1 SH) as G. rewrite <- PR in G.
  destruct (Rlt_dec 0 w) as [H|H]; auto. exfalso. Lra.nra.
Qed.
Print Assumptions C126_multi_refuted.

(** C128. Multi-nested sampling: in every history of calls for such targets every weight is NaN. *)
Theorem C128_multi :
  forall P us ops s, mn_ready P -> start_ok P us -> Forall (mn_op_ok P) ops -> Forall (mn_target massless) ops -> multi_reachable P us ops s ->
    length (nested_weights (ns_N P) (map Q2R (ns_L s))) = length (ns_samples s) /\ Forall (fun w => w = NaN) (nested_weights (ns_N P) (map Q2R (ns_L s))).
Proof.
  intros P us ops s RD S0 OK KK Re. split.
  { destruct (multi_booked P us RD S0 ops s OK Re) as ((BL & _) & _). rewrite <- BL. unfold nested_weights. rewrite !map_length. generalize (ns_L s). intros L. destruct L as [|l L]; [reflexivity|].
    assert (M : forall a b : list R, length a = length b -> length (map2 Rmult a b) = length a).
    { induction a as [|x a IH]; intros [|y b] H; simpl in *; try discriminate; auto. }
    rewrite M, map_length; auto. rewrite map_length. unfold shells. simpl. rewrite !map_length, seq_length. lia. }
  assert (F : Forall (fun l => l == 0) (ns_L s)).
  { apply (multi_history_inv P us (fun s => Forall (fun l => l == 0) (ns_L s)) (mn_target massless)) with (ops := ops); auto.
    - intros; constructor.
    - intros a b (_ & _ & _ & E & _). now rewrite E.
    - intros oc pi n timeout tape pick gs r H _ a b _ F (ev & g & c & big & k & y & seen & _ & _ & _ & SF).
      rewrite (sf_L _ _ _ _ _ _ _ _ _ _ _ _ SF). apply Forall_app. split; auto. }
  destruct (ns_L s) as [|l L].
  - simpl. constructor.
  - apply weights_zero; [|discriminate]. rewrite Forall_map. eapply Forall_impl; [|exact F]. intros a H. rewrite (Qeq_eqR _ _ H). apply RMicromega.Q2R_0.
Qed.
Print Assumptions C128_multi.
Example C128_multi_example :
  exists s, mn_ready mP /\ start_ok mP mus /\ mn_op_ok mP (MnCall moc (fun _ => 0) 5 60 [mrep; mrep; mrep; mrep] (fun i => i)) /\
    multi_reachable mP mus [MnCall moc (fun _ => 0) 5 60 [mrep; mrep; mrep; mrep] (fun i => i)] s /\ length (ns_L s) = 4%nat.
Proof.
  eexists. split; [exact m_ready|]. split; [exact m_start|]. split; [split; [exact m_labels|repeat constructor]|].
  split; [apply multi_next with (ns_new mP mus); [constructor|left; vm_compute; reflexivity]|reflexivity].
Qed.

(** C128. HiDaisee: a call for a target that is zero everywhere, after calls for this target only, returns the weight zero for every
    sample, and the density it then reports is zero everywhere. *)
Theorem C128_hidaisee :
  forall P ops s pi n rds s', corners (hp_lo P) (hp_hi P) -> hd_reachable P ops s -> dims_ok (length (hp_lo P)) ops -> dim_ok (length (hp_lo P)) rds ->
  (forall f, called_with ops f -> f = pi) -> massless pi -> hd_call P pi n rds s = Done s' ->
  (forall x w, In (x, w) (hs_samples s') -> w == 0) /\ (forall x, exists v, hd_prob s' x = Fin v /\ v == 0).
Proof.
  intros P ops s pi n rds s' C R D Hd One Z E.
  assert (W : forall x w, In (x, w) (hs_samples s') -> w == 0).
  { intros x w H. apply (proj2 (C126_hidaisee P ops s pi n rds s' C R D Hd One E x w H)). apply Z. }
  split; [exact W|]. exact (C76_zero_weights P ops s pi n rds s' C R D Hd E W).
Qed.
Print Assumptions C128_hidaisee.
Example C128_hidaisee_example :
  corners (hp_lo line_hd) (hp_hi line_hd) /\ dim_ok (length (hp_lo line_hd)) left_rounds /\
  exists s', hd_call line_hd (fun _ => 0) 1 left_rounds (hd_new line_hd) = Done s' /\ length (hs_samples s') = 1%nat.
Proof. split; [apply line_corners|]. split; [intros t; simpl; lia|]. eexists. split; vm_compute; reflexivity. Qed.
