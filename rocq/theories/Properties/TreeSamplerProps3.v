(** Properties C50 and C51: what the tree pyramid sampler returns and counts. *)
From Coq Require Import List Bool Arith Lia QArith Lqa Permutation.
Import ListNotations.
From Verif Require Import Prelude.Py Prelude.QBase Prelude.QFacts Model.Uniform Model.Population Model.Tree Model.TreeSampler Spec.TreeSpec Spec.Box
  Proofs.TreeCells Proofs.TreeProofs Proofs.TreeMask Proofs.TreeSamplerTree Proofs.TreeSamplerInv Proofs.TreeSamplerLeaves Proofs.TreeResample
  Proofs.TreeDensity Proofs.TreeReturn Proofs.TreeCounters Proofs.PopulationProofs Properties.TreeSamplerProps.
Open Scope Q_scope.

(** C50 (full statement: what is returned are exactly the samples held by the leaves with their weights, none lost or duplicated).
    True when an expansion never waits for more samples (ESS target at least 1 and n_min at most 1; the defaults of the script
    configurations): every leaf holds one sample, and it is returned once, with the cached weight (ESS target above 1), or, when its weight
    is positive, with the weight of its history (ESS target 1). *)
Theorem C50_one_per_leaf_partial :
  forall P ops s, proper (p_lo P) (p_hi P) -> p_flow P = Simple -> one_mode P -> tp_reachable P ops s ->
  s_tree s = tree_new (p_lo P) (p_hi P) \/
  exists held : list (nat * (vec * (fl Q * fl Q))), Permutation (map fst held) (t_leaves (s_tree s)) /\
    (forall i x w v, In (i, (x, (w, v))) held -> exists n, nth_error (t_nodes (s_tree s)) i = Some n /\ n_hist n = HList [(x, v)] /\
       nth_error (t_samples (s_tree s)) i = Some x /\ nth_error (t_weights (s_tree s)) i = Some w) /\
    exists l, get_samples P (s_tree s) = Ok l /\
      ((exists e, p_ess P = Some e /\ 1 < e) -> l = map (fun h => (fst (snd h), fst (snd (snd h)))) held) /\
      ((exists e, p_ess P = Some e /\ e <= 1) -> l = filter (fun xw => fgtQ (snd xw) 0) (map (fun h => (fst (snd h), snd (snd (snd h)))) held)).
Proof.
  intros P ops s B F O R. destruct (reach1 P ops s B F R) as [E|S]; [auto|right]. pose proof S as ((k & I) & G). destruct O as (e & Ee & Le & Ln).
  assert (One : forall i, In i (t_leaves (s_tree s)) -> exists n x w v, nth_error (t_nodes (s_tree s)) i = Some n /\ n_hist n = HList [(x, v)] /\
       nth_error (t_samples (s_tree s)) i = Some x /\ nth_error (t_weights (s_tree s)) i = Some w).
  { intros i Hi. destruct (settled_histories P (whole_cell P) (Q1 P) (Q1_hist P) s i S Hi) as (n & l & x & w & En & El & _ & Ex & Ew & (l0 & E0 & _ & L0 & One)).
    assert (l0 = l) by congruence. subst l0. specialize (One ltac:(exists e; auto)). destruct l as [|(y, v) [|]]; try discriminate. simpl in L0. subst y. exists n, x, w, v. auto. }
  assert (Hold : forall refs, (forall i, In i refs -> In i (t_leaves (s_tree s))) -> exists held : list (nat * (vec * (fl Q * fl Q))), map fst held = refs /\
     (forall i x w v, In (i, (x, (w, v))) held -> exists n, nth_error (t_nodes (s_tree s)) i = Some n /\ n_hist n = HList [(x, v)] /\
       nth_error (t_samples (s_tree s)) i = Some x /\ nth_error (t_weights (s_tree s)) i = Some w)).
  { induction refs as [|i refs IH]; intros H; [exists []; split; auto; intros ? ? ? ? []|]. destruct IH as (held & E1 & E2); [intros; apply H; right; auto|].
    destruct (One i (H i (or_introl eq_refl))) as (n & x & w & v & X). exists ((i, (x, (w, v))) :: held). simpl. rewrite E1. split; auto.
    intros j y w' v' [J|J]; [inversion J; subst; eauto|eauto]. }
  destruct (Qlt_le_dec 1 e) as [C|C].
  - destruct (Hold (masked_refs (s_tree s))) as (held & E1 & E2); [intros i; apply Permutation_in; eapply masked_refs_perm; eauto|].
    exists held. rewrite E1. split; [eapply masked_refs_perm; eauto|]. split; auto. eexists. unfold get_samples. rewrite Ee. destruct (Qltb_spec 1 e); [|lra].
    split; [reflexivity|]. split; [|intros (e' & E' & L'); inversion E'; subst; lra]. intros _.
    pose proof (cached_F2 _ _ _ _ I) as F2. rewrite <- E1 in F2. revert F2 E2. clear. set (l := combine _ _). clearbody l. revert l.
    induction held as [|(i, (x, (w, v))) held IH]; intros l F H; inversion F as [|? xw ? l' (F1 & F2) F3]; subst; auto. simpl. f_equal.
    + destruct (H i x w v (or_introl eq_refl)) as (n & _ & _ & E1 & E2). simpl in *. destruct xw. simpl in *. congruence.
    + apply IH; auto. intros; apply H; right; auto.
  - destruct (Hold (t_leaves (s_tree s))) as (held & E1 & E2); [auto|]. exists held. rewrite E1. split; [reflexivity|]. split; auto.
    destruct (get_samples1 P s ltac:(congruence) S) as (l & El). exists l. split; auto.
    split; [intros (e' & E' & L'); assert (e' = e) by congruence; subst; lra|]. intros _.
    destruct (returned_rows P (s_tree s) e l Ee C El) as (hs & Fh & _ & _ & Ex).
    assert (Ehs : hs = map (fun h => [(fst (snd h), snd (snd (snd h)))]) held).
    { rewrite <- E1 in Fh. revert Fh E2. clear. revert hs. induction held as [|(i, (x, (w, v))) held IH]; intros hs F H; inversion F as [|? h ? hs' (n & F1 & F2) F3]; subst; auto.
      simpl. f_equal; [|apply IH; auto; intros; apply H; right; auto]. destruct (H i x w v (or_introl eq_refl)) as (n' & En & Eh & _). simpl in *. congruence. }
    rewrite Ex.
    + f_equal. rewrite Ehs. clear. induction held as [|h held IH]; simpl; auto. f_equal. auto.
    + rewrite Ehs. apply Forall_forall. intros h Hh. apply in_map_iff in Hh. destruct Hh as (? & <- & _). reflexivity.
Qed.
Print Assumptions C50_one_per_leaf_partial.
Example C50_one_per_leaf_example :
  one_mode (line Haar Simple true (Some 2) 1 1) /\ length (t_leaves (s_tree (tp_after line_call))) = 3%nat /\
  exists l, get_samples (line Haar Simple true (Some 2) 1 1) (s_tree (tp_after line_call)) = Ok l /\ length l = 3%nat.
Proof. split; [exists 2; repeat split; simpl; auto; lra|]. split; [vm_compute; reflexivity|]. eexists. split; vm_compute; reflexivity. Qed.

(** ESS target 1 and n_min 2: every leaf waits for two samples, the slices in which they are returned overlap, and a sample of
    positive weight that a leaf holds is not returned. *)
Definition over : tp_params := line Haar Simple false (Some 1) 2 1.
Definition over_tape : list tp_round := [unit_round (1 # 2); unit_round (1 # 4); unit_round (3 # 4)].
Theorem C50_overlap_refuted :
  exists P pi tape s i n l y q ret, p_ess P = Some 1 /\ proper (p_lo P) (p_hi P) /\ nonneg pi /\ Forall (round_ok (unit_open P) (unit_half P)) tape /\
    tp_call P pi 3 1 [1 # 2] tape (tp_new P) = Done s /\ In i (t_leaves (s_tree s)) /\ nth_error (t_nodes (s_tree s)) i = Some n /\
    n_hist n = HList l /\ In (y, Fin q) l /\ 0 < q /\ get_samples P (s_tree s) = Ok ret /\ ~ In y (map fst ret) /\ length ret = 3%nat.
Proof.
  exists over, (fun _ => 1), over_tape. eexists _, 1%nat, _, _, _, _, _. split; [reflexivity|]. split; [apply line_proper|]. split; [intros x; lra|].
  split; [repeat (constructor; [apply unit_ok; reflexivity|]); constructor|]. split; [vm_compute; reflexivity|].
  split; [vm_compute; tauto|]. split; [vm_compute; reflexivity|]. split; [vm_compute; reflexivity|]. split; [right; left; reflexivity|].
  split; [vm_compute; reflexivity|]. split; [vm_compute; reflexivity|]. split; [|vm_compute; reflexivity].
  vm_compute. intros [H|[H|[H|H]]]; try discriminate H. exact H.
Qed.
Print Assumptions C50_overlap_refuted.
(** ESS target 2 and n_min 2: only the last sample of each leaf is returned. *)
Theorem C50_last_only_refuted :
  exists P pi tape s i n l y q ret, p_ess P = Some 2 /\ proper (p_lo P) (p_hi P) /\ nonneg pi /\ Forall (round_ok (unit_open P) (unit_half P)) tape /\
    tp_call P pi 3 1 [1 # 2] tape (tp_new P) = Done s /\ In i (t_leaves (s_tree s)) /\ nth_error (t_nodes (s_tree s)) i = Some n /\
    n_hist n = HList l /\ In (y, Fin q) l /\ 0 < q /\ get_samples P (s_tree s) = Ok ret /\ ~ In y (map fst ret).
Proof.
  exists (line Haar Simple false (Some 2) 2 1), (fun _ => 1), (over_tape ++ [unit_round (1 # 2)]). eexists _, 2%nat, _, _, _, _, _. split; [reflexivity|].
  split; [apply line_proper|]. split; [intros x; lra|].
  split; [repeat (constructor; [apply unit_ok; reflexivity|]); constructor|]. split; [vm_compute; reflexivity|].
  split; [vm_compute; tauto|]. split; [vm_compute; reflexivity|]. split; [vm_compute; reflexivity|]. split; [left; reflexivity|].
  split; [vm_compute; reflexivity|]. split; [vm_compute; reflexivity|].
  vm_compute. intros [H|[H|[H|H]]]; try discriminate H. exact H.
Qed.
Print Assumptions C50_last_only_refuted.

(** In all modes nothing is invented: a returned row is a sample of some leaf's history (ESS target at most 1, with its weight, which is
    positive) or the last sample of a leaf with its cached weight (ESS target above 1). *)
Theorem C50_sound :
  forall P ops s e, proper (p_lo P) (p_hi P) -> p_flow P = Simple -> p_ess P = Some e -> tp_reachable P ops s ->
  s_tree s = tree_new (p_lo P) (p_hi P) \/
  exists l, get_samples P (s_tree s) = Ok l /\
    forall y v, In (y, v) l -> exists i n h, In i (t_leaves (s_tree s)) /\ nth_error (t_nodes (s_tree s)) i = Some n /\ n_hist n = HList h /\
      if Qlt_le_dec 1 e then fst (last h ([], NaN)) = y /\ nth_error (t_weights (s_tree s)) i = Some v else In (y, v) h /\ fgtQ v 0 = true.
Proof.
  intros P ops s e B F Ee R. destruct (reach1 P ops s B F R) as [E|S]; [auto|right]. pose proof S as ((k & I) & G).
  destruct (get_samples1 P s ltac:(congruence) S) as (l & El). exists l. split; auto. intros y v H.
  destruct (Qlt_le_dec 1 e) as [C|C].
  - unfold get_samples in El. rewrite Ee in El. destruct (Qltb_spec 1 e) as [Z|Z]; [|lra]. inversion El as [El']. rewrite <- El' in H. clear El El'.
    pose proof (cached_F2 _ _ _ _ I) as F2. apply In_nth_error in H. destruct H as (q & Hq).
    assert (X : exists i, In i (masked_refs (s_tree s)) /\ nth_error (t_samples (s_tree s)) i = Some y /\ nth_error (t_weights (s_tree s)) i = Some v).
    { clear - F2 Hq. remember (combine _ _) as m in F2, Hq. clear Heqm. revert q Hq. induction F2 as [|i xw refs l (F1 & F2) F3 IH]; intros p Hq; destruct p as [|p]; try discriminate; simpl in Hq.
      - inversion Hq; subst. exists i. simpl in *. auto.
      - destruct (IH _ Hq) as (i' & A & X). exists i'. split; [right|]; auto. }
    destruct X as (i & Hi & Ex & Ew). apply (Permutation_in _ (masked_refs_perm _ _ _ _ I)) in Hi.
    destruct (settled_histories P (whole_cell P) (Q1 P) (Q1_hist P) s i S Hi) as (n & h & x & w & En & Eh & _ & Ex' & _ & (h0 & E0 & _ & L0 & _)).
    exists i, n, h. csplit; auto; congruence.
  - destruct (returned_rows P (s_tree s) e l Ee C El) as (hs & Fh & Hin & _). destruct (Hin _ _ H) as (Hc & Pv).
    apply in_concat in Hc. destruct Hc as (h & Hh & Hy). apply In_nth_error in Hh. destruct Hh as (q & Eq).
    assert (X : exists i n, In i (t_leaves (s_tree s)) /\ nth_error (t_nodes (s_tree s)) i = Some n /\ n_hist n = HList h).
    { clear - Fh Eq. revert q Eq. induction Fh as [|i h0 refs hs (n & F1 & F2) F3 IH]; intros [|q] Eq; try discriminate; simpl in Eq.
      - inversion Eq; subst. exists i, n. split; [left|]; auto.
      - destruct (IH _ Eq) as (i' & n' & A & X). exists i', n'. split; [right|]; auto. }
    destruct X as (i & n & Hi & En & Eh). exists i, n, h. csplit; auto.
Qed.
Print Assumptions C50_sound.
Example C50_sound_example : exists s ret, tp_call over (fun _ => 1) 3 1 [1 # 2] over_tape (tp_new over) = Done s /\
  s_tree s <> tree_new [0] [1] /\ get_samples over (s_tree s) = Ok ret /\ length ret = 3%nat.
Proof. eexists _, _. split; [vm_compute; reflexivity|]. split; [vm_compute; discriminate|]. split; vm_compute; reflexivity. Qed.

(** C51 (full statement: the counters equal the evaluations and draws made). [called ops]: was a call made since the last reset? *)
Fixpoint called (ops : list (tp_op * bool)) : bool :=
  match ops with
  | [] => false
  | (TpReset, _) :: _ => false
  | (TpCall _ _ _ _ _, _) :: _ => true
  | (TpSample _ _ _, _) :: r => called r
  end.
(** The simple flow, every history: once a call has been made, one target and one proposal evaluation, those of the root, are missing;
    the draws are all counted, exactly so when every operation returned. *)
Theorem C51_simple_partial :
  forall P ops s, proper (p_lo P) (p_hi P) -> p_flow P = Simple -> tp_reachable P ops s ->
  let missing := if called ops then 1%nat else 0%nat in
  (s_q_evals s + missing = g_qs s /\ s_pi_evals s + missing = g_pis s /\ g_draws s <= s_q_samples s)%nat /\
  (forallb snd ops = true -> s_q_samples s = g_draws s).
Proof.
  intros P ops s B F R. cut ((if called ops then settled1 P s else s_tree s = tree_new (p_lo P) (p_hi P)) /\
    ((s_q_evals s + (if called ops then 1 else 0) = g_qs s /\ s_pi_evals s + (if called ops then 1 else 0) = g_pis s /\ g_draws s <= s_q_samples s)%nat /\
     (forallb snd ops = true -> s_q_samples s = g_draws s))); [intros (_ & X); exact X|].
  assert (Call : forall pi n timeout u tape s0, (s_tree s0 = tree_new (p_lo P) (p_hi P) \/ settled1 P s0) ->
     settled1 P (out_state (tp_call P pi n timeout u tape s0))).
  { intros pi n timeout u tape s0 S. pose proof (call1 P s0 pi n timeout u tape B F S) as C. destruct (p_ess P).
    - destruct C as (s' & [-> | ->] & S'); auto.
    - destruct C as (-> & S'). auto. }
  assert (Step : forall o ops s0 (b : bool), tp_reachable P ops s0 ->
     (if called ops then settled1 P s0 else s_tree s0 = tree_new (p_lo P) (p_hi P)) /\
     ((s_q_evals s0 + (if called ops then 1 else 0) = g_qs s0 /\ s_pi_evals s0 + (if called ops then 1 else 0) = g_pis s0 /\ g_draws s0 <= s_q_samples s0)%nat /\
      (forallb snd ops = true -> s_q_samples s0 = g_draws s0)) -> (b = true -> done (tp_run P o s0) = true) ->
     let s' := out_state (tp_run P o s0) in
     (if called ((o, b) :: ops) then settled1 P s' else s_tree s' = tree_new (p_lo P) (p_hi P)) /\
     ((s_q_evals s' + (if called ((o, b) :: ops) then 1 else 0) = g_qs s' /\ s_pi_evals s' + (if called ((o, b) :: ops) then 1 else 0) = g_pis s' /\ g_draws s' <= s_q_samples s')%nat /\
      (forallb snd ((o, b) :: ops) = true -> s_q_samples s' = g_draws s'))).
  { clear R ops s. intros o ops s0 b R (S & (C1 & C2 & C3) & C4) Hb. destruct o as [pi n timeout u tape|m sel draw|].
    - simpl tp_run in *. simpl called. cbv zeta. simpl forallb.
      assert (S' : s_tree s0 = tree_new (p_lo P) (p_hi P) \/ settled1 P s0) by (destruct (called ops); auto).
      split; [apply Call; auto|].
      pose proof (counts_loop P pi n timeout tape 0 (root_turn P pi u s0)) as L. cbv zeta in L. fold (tp_call P pi n timeout u tape s0) in L.
      destruct L as (L1 & L2 & L3 & L4).
      assert (RT : (s_q_evals (root_turn P pi u s0) + 1 = g_qs (root_turn P pi u s0) /\ s_pi_evals (root_turn P pi u s0) + 1 = g_pis (root_turn P pi u s0) /\
                   g_draws (root_turn P pi u s0) <= s_q_samples (root_turn P pi u s0))%nat /\
                   (forallb snd ops = true -> s_q_samples (root_turn P pi u s0) = g_draws (root_turn P pi u s0))).
      { destruct (called ops) eqn:Ec.
        - rewrite (root_noop P pi (whole_cell P) (Q1 P) (Q1_hist P) u s0 S). auto.
        - assert (X : (s_q_samples (root_turn P pi u s0) = s_q_samples s0 + 1 /\ s_q_evals (root_turn P pi u s0) = s_q_evals s0 /\ s_pi_evals (root_turn P pi u s0) = s_pi_evals s0 /\
             g_draws (root_turn P pi u s0) = g_draws s0 + 1 /\ g_qs (root_turn P pi u s0) = g_qs s0 + 1 /\ g_pis (root_turn P pi u s0) = g_pis s0 + 1)%nat).
          { unfold root_turn. rewrite S. simpl. rewrite F. simpl. rewrite !Nat.add_0_r. repeat split. }
          destruct X as (X1 & X2 & X3 & X4 & X5 & X6). rewrite X1, X2, X3, X4, X5, X6. split; [lia|]. intros Hf. specialize (C4 Hf). lia. }
      destruct RT as ((T1 & T2 & T3) & T4). split; [lia|]. intros Hf. apply andb_true_iff in Hf. destruct Hf as (Hb' & Hf). specialize (T4 Hf).
      specialize (L4 (Hb Hb')). lia.
    - simpl in *. destruct (model_sample P (s_model s0) m sel draw); simpl in *.
      + split; auto. split; [lia|]. intros Hf. apply andb_true_iff in Hf. destruct Hf as (_ & Hf). rewrite (C4 Hf). lia.
      + split; auto. split; [lia|]. intros Hf. apply andb_true_iff in Hf. destruct Hf as (Hb' & _). discriminate (Hb Hb').
    - simpl. auto. }
  induction R as [|o ops s s' R IH E|o ops s e s' R IH E].
  - simpl. auto.
  - specialize (Step o ops s true R IH). rewrite E in Step. apply Step. auto.
  - specialize (Step o ops s false R IH). rewrite E in Step. apply Step. discriminate.
Qed.
Print Assumptions C51_simple_partial.
Example C51_simple_example :
  let P := line Haar Simple true (Some 2) 1 1 in
  called [(TpCall (fun _ => 1) 3 1 [1 # 2] [unit_round (1 # 2); unit_round (1 # 2)], true)] = true /\
  (s_pi_evals (tp_after line_call), g_pis (tp_after line_call), s_q_samples (tp_after line_call)) = (9%nat, 10%nat, 10%nat).
Proof. split; vm_compute; reflexivity. Qed.
(** So the first call that returns at once reports zero target evaluations although it made one. *)
Theorem C51_simple_refuted :
  forall P pi u, proper (p_lo P) (p_hi P) -> p_flow P = Simple -> p_ess P <> None ->
  exists s, tp_call P pi 0 1 u [] (tp_new P) = Done s /\ s_pi_evals s = 0%nat /\ s_q_evals s = 0%nat /\ g_pis s = 1%nat /\ g_qs s = 1%nat.
Proof.
  intros P pi u B F Es. assert (S : settled1 P (root_turn P pi u (tp_new P))) by (apply root1; auto).
  unfold tp_call. unfold tp_loop. destruct (get_samples1 P _ Es S) as (l & ->). change (length l <? 0)%nat with false. cbv iota. simpl andb. cbv iota.
  eexists. split; [reflexivity|]. unfold root_turn. simpl. rewrite F. auto.
Qed.
Print Assumptions C51_simple_refuted.
Example C51_simple_refuted_example : proper [0] [1] /\ p_ess (line Haar Simple true (Some 2) 1 1) <> None.
Proof. split; [apply line_proper|discriminate]. Qed.

(** The flow of "dm" and "mixture": the evaluations are exact after every history; draws are never missed, and counted exactly as long
    as every operation returned. *)
Theorem C51_mixture :
  forall P ops s, p_flow P = MixtureFlow -> tp_reachable P ops s ->
  (s_q_evals s = g_qs s /\ s_pi_evals s = g_pis s /\ g_draws s <= s_q_samples s)%nat /\ (forallb snd ops = true -> s_q_samples s = g_draws s).
Proof.
  intros P ops s F R.
  assert (Step : forall o (ops : list (tp_op * bool)) s0 (b : bool),
     ((s_q_evals s0 = g_qs s0 /\ s_pi_evals s0 = g_pis s0 /\ g_draws s0 <= s_q_samples s0)%nat /\ (forallb snd ops = true -> s_q_samples s0 = g_draws s0)) ->
     (b = true -> done (tp_run P o s0) = true) -> let s' := out_state (tp_run P o s0) in
     ((s_q_evals s' = g_qs s' /\ s_pi_evals s' = g_pis s' /\ g_draws s' <= s_q_samples s')%nat /\ (forallb snd ((o, b) :: ops) = true -> s_q_samples s' = g_draws s'))).
  { clear R ops s. intros o ops s0 b ((C1 & C2 & C3) & C4) Hb. destruct o as [pi n timeout u tape|m sel draw|].
    - simpl tp_run in *. cbv zeta. simpl forallb.
      pose proof (counts_loop P pi n timeout tape 0 (root_turn P pi u s0)) as L. cbv zeta in L. fold (tp_call P pi n timeout u tape s0) in L.
      destruct L as (L1 & L2 & L3 & L4).
      assert (RT : counts true s0 (root_turn P pi u s0)).
      { unfold root_turn. destruct (nth_error _ _) as [n0|]; [|apply counts_refl]. destruct (n_hist n0); try apply counts_refl. rewrite F. unfold counts. simpl. lia. }
      destruct RT as (T1 & T2 & T3 & T4). specialize (T4 eq_refl). split; [lia|]. intros Hf. apply andb_true_iff in Hf. destruct Hf as (Hb' & Hf). specialize (C4 Hf).
      specialize (L4 (Hb Hb')). lia.
    - simpl in *. destruct (model_sample P (s_model s0) m sel draw); simpl in *.
      + split; [lia|]. intros Hf. apply andb_true_iff in Hf. destruct Hf as (_ & Hf). rewrite (C4 Hf). lia.
      + split; [lia|]. intros Hf. apply andb_true_iff in Hf. destruct Hf as (Hb' & _). discriminate (Hb Hb').
    - simpl. auto. }
  induction R as [|o ops s s' R IH E|o ops s e s' R IH E].
  - simpl. auto.
  - specialize (Step o ops s true IH). rewrite E in Step. apply Step. auto.
  - specialize (Step o ops s false IH). rewrite E in Step. apply Step. discriminate.
Qed.
Print Assumptions C51_mixture.
Definition mixed : tp_params := line Haar MixtureFlow false (Some 2) 1 1.
Definition mixed_op : tp_op * bool := (TpCall (fun _ => 1) 2 1 [1 # 2] [unit_round (1 # 4)], true).
Example C51_mixture_example : exists s, tp_reachable mixed [mixed_op] s /\ (s_pi_evals s, s_q_evals s, s_q_samples s) = (3%nat, 3%nat, 4%nat).
Proof. eexists. split; [eapply tp_done; [apply tp_init|]; vm_compute; reflexivity|]. vm_compute. reflexivity. Qed.
