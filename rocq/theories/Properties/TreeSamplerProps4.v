(** Properties C72 to C75: how many samples the tree pyramid sampler delivers, which leaves it refines, and its weights over several calls. *)
From Coq Require Import List Bool Arith Lia QArith Lqa Permutation.
Import ListNotations.
From Verif Require Import Prelude.Py Prelude.QBase Prelude.QFacts Model.Uniform Model.Population Model.Tree Model.TreeSampler Spec.TreeSpec Spec.Box
  Proofs.TreeCells Proofs.TreeProofs Proofs.TreeMask Proofs.TreeSamplerTree Proofs.TreeSamplerInv Proofs.TreeSamplerLeaves Proofs.TreeDensity Proofs.TreeReturn
  Proofs.TreeRequest Proofs.TreeMixtureFlow Proofs.TreeGreedy Proofs.TreeFirstCall Properties.TreeSamplerProps Properties.TreeSamplerProps3.
Open Scope Q_scope.

(** C72 (full statement: a call returns, unless its time is over, at least the samples asked for, overshooting by less than one batch).
    ESS target above 1 and n_min at most 1, every history of the simple flow: a call never raises; it needs at most n turns; a call that
    returns has n samples, or the clock passed the timeout; and it has fewer than n plus one batch, or none were added. *)
Theorem C72_delivers_partial :
  forall P e ops s pi n timeout u tape, proper (p_lo P) (p_hi P) -> p_flow P = Simple -> p_ess P = Some e -> 1 < e -> (p_nmin P <= 1)%nat ->
  tp_reachable P ops s ->
  let held s := match get_samples P (s_tree s) with Ok l => length l | Raise _ => 0%nat end in
  let batch := ((p_parallel P / 2 ^ p_dims P + 1) * (2 ^ p_dims P - 1))%nat in
  (exists s', tp_call P pi n timeout u tape s = Running s' /\ (length tape < n)%nat) \/
  (exists s', tp_call P pi n timeout u tape s = Done s' /\
     ((n <= held s')%nat \/ timeout <= 0 \/ exists r, In r tape /\ timeout <= rd_clock r) /\
     (held s' = held s \/ held s' < n + batch)%nat /\ (held s <= held s')%nat).
Proof.
  intros P e ops s pi n timeout u tape B F Ee Le Ln R held batch. pose proof (reach1 P ops s B F R) as S.
  assert (S1 : settled1 P (root_turn P pi u s)) by (apply root1; auto).
  assert (Hs : held s = length (t_leaves (s_tree (root_turn P pi u s)))).
  { destruct (kept_root P pi u s) as (_ & -> & _). destruct S as [S|S].
    - unfold held. rewrite S. unfold get_samples. rewrite Ee. destruct (Qltb_spec 1 e); [|lra]. reflexivity.
    - unfold held. destruct (cache_count P e s Ee Le S) as (l & -> & H). auto. }
  assert (Hh : forall s', settled1 P s' -> held s' = length (t_leaves (s_tree s'))).
  { intros s' S'. unfold held. destruct (cache_count P e s' Ee Le S') as (l & -> & H). auto. }
  unfold tp_call. destruct (loop_count P pi e n timeout tape B F Ee Le Ln 0 _ S1) as [(s' & E & S' & L')|(s' & E & S' & L')].
  - left. exists s'. split; auto. lia.
  - right. exists s'. split; auto. rewrite Hs, (Hh s' S'). exact L'.
Qed.
Print Assumptions C72_delivers_partial.
Example C72_delivers_example :
  let P := line Haar Simple true (Some 2) 1 1 in
  tp_reachable P [(TpCall (fun _ => 1) 3 1 [1 # 2] [unit_round (1 # 2); unit_round (1 # 2)], true)] (tp_after line_call) /\
  length (t_leaves (s_tree (tp_after line_call))) = 3%nat /\ ((p_parallel P / 2 ^ p_dims P + 1) * (2 ^ p_dims P - 1))%nat = 1%nat.
Proof. split; [apply line_reach|]. split; vm_compute; reflexivity. Qed.

(** With an ESS target of at most 1 the samples of weight zero are dropped when they are counted: for a target that is zero wherever it is
    evaluated (every draw outside its support) a call never gets even one sample, however many turns it takes. *)
Theorem C72_zero_refuted :
  exists P pi, proper (p_lo P) (p_hi P) /\ p_flow P = Simple /\ nonneg pi /\
  forall n timeout u tape, (1 <= n)%nat -> 0 < timeout -> Forall (fun r => rd_clock r < timeout) tape ->
  exists s, tp_call P pi n timeout u tape (tp_new P) = Running s /\ get_samples P (s_tree s) = Ok [].
Proof.
  exists (line Haar Simple true (Some 1) 1 1), (fun _ => 0). split; [apply line_proper|]. split; [reflexivity|]. split; [intros x; lra|].
  intros n timeout u tape Hn Ht Ft. unfold tp_call.
  apply (zero_loop _ 1); auto; try reflexivity; try apply line_proper; try lra. apply zero_root; [apply line_proper|reflexivity].
Qed.
Print Assumptions C72_zero_refuted.
(** The same for every configuration with an ESS target of at most 1. *)
Theorem C72_zero_runs :
  forall P e pi n timeout u tape, proper (p_lo P) (p_hi P) -> p_flow P = Simple -> p_ess P = Some e -> e <= 1 -> (forall x, pi x == 0) ->
  (1 <= n)%nat -> 0 < timeout -> Forall (fun r => rd_clock r < timeout) tape ->
  exists s, tp_call P pi n timeout u tape (tp_new P) = Running s /\ get_samples P (s_tree s) = Ok [].
Proof. intros. unfold tp_call. eapply zero_loop; eauto. apply zero_root; auto. Qed.
Print Assumptions C72_zero_runs.
Example C72_zero_example : proper [0] [1] /\ (forall x : vec, (fun _ => 0) x == 0) /\ Forall (fun r => rd_clock r < 1) [unit_round (1 # 2); unit_round (1 # 2)].
Proof. split; [apply line_proper|]. split; [reflexivity|]. repeat constructor. Qed.

(** C73 (full statement: "dm" and "mixture" deliver the samples asked for). False of the code: find restarts from the root in every call,
    so it never ends once the root has children. Every history: the tree has one leaf, or the 2^d children of the root. *)
Theorem C73_few_leaves :
  forall P ops s, p_flow P = MixtureFlow -> is_box (p_lo P) (p_hi P) -> tp_reachable P ops s ->
  length (t_leaves (s_tree s)) = 1%nat \/ length (t_leaves (s_tree s)) = (2 ^ p_dims P)%nat.
Proof.
  intros P ops s F B R. pose proof (reach_small P ops s F B R) as S. unfold small in S. destruct (option_map _ _) as [[|]|]; auto. destruct S.
Qed.
Print Assumptions C73_few_leaves.
Example C73_few_leaves_example : exists s, tp_reachable mixed [mixed_op] s /\ length (t_leaves (s_tree s)) = 2%nat.
Proof. eexists. split; [eapply tp_done; [apply tp_init|]; vm_compute; reflexivity|]. vm_compute. reflexivity. Qed.
(** So for an ESS target above 1 no call that asks for more than 2^d samples returns in time, whatever the target and the draws. *)
Theorem C73_never_returns :
  forall P e ops s pi n timeout u tape s', p_flow P = MixtureFlow -> is_box (p_lo P) (p_hi P) -> p_ess P = Some e -> 1 < e -> tp_reachable P ops s ->
  (2 ^ p_dims P < n)%nat -> 0 < timeout -> Forall (fun r => rd_clock r < timeout) tape -> tp_call P pi n timeout u tape s <> Done s'.
Proof.
  intros P e ops s pi n timeout u tape s' F B Ee Le R Hn Ht Ft E.
  assert (R' : tp_reachable P ((TpCall pi n timeout u tape, true) :: ops) s') by (eapply tp_done; eauto).
  destruct (loop_end _ _ _ _ _ _ _ _ E) as (s1 & el & Es & (l & El & C) & Hel & _).
  assert (T : el < timeout). { destruct Hel as [-> |(r & Ir & ->)]; auto. rewrite Forall_forall in Ft. auto. }
  destruct C as [C|C]; [|lra].
  assert (Ll : length l = length (t_leaves (s_tree s'))).
  { destruct (grown_inv _ _ _ B (tp_grown _ _ _ R')) as (k & I). pose proof (mask_length _ _ _ _ I) as ML.
    assert (M : t_mask (s_tree s1) = t_mask (s_tree s') /\ length (t_samples (s_tree s1)) = length (t_samples (s_tree s')) /\
                length (t_weights (s_tree s1)) = length (t_weights (s_tree s'))).
    { subst s'. simpl. unfold self_normalize. destruct (fgtQ _ 0); simpl; rewrite ?put_masked_length; auto. }
    destruct M as (M1 & M2 & M3). unfold get_samples in El. rewrite Ee in El. destruct (Qltb_spec 1 e); [|lra]. inversion El.
    rewrite combine_length, M1, !masked_length by (rewrite ?M2, ?M3, ?(ti_samples _ _ _ _ I), ?(ti_weights _ _ _ _ I), ML; auto).
    rewrite Nat.min_id. eapply count_mask; eauto. }
  destruct (C73_few_leaves P _ s' F B R') as [X|X]; rewrite Ll, X in C; [|lia]. pose proof (Nat.pow_nonzero 2 (p_dims P) ltac:(lia)). lia.
Qed.
Print Assumptions C73_never_returns.
Example C73_never_returns_example : is_box (p_lo mixed) (p_hi mixed) /\ (2 ^ p_dims mixed < 3)%nat /\ p_ess mixed = Some 2.
Proof. split; [simpl; repeat split; lra|]. split; [vm_compute; lia|reflexivity]. Qed.
(** Once the root has been expanded, a call that needs another sample raises in its first turn. *)
Theorem C73_next_raises :
  forall P e ops s pi n timeout u r tape, p_flow P = MixtureFlow -> is_box (p_lo P) (p_hi P) -> p_ess P = Some e -> 1 < e -> tp_reachable P ops s ->
  (1 < length (t_leaves (s_tree s)))%nat -> (length (t_leaves (s_tree s)) < n)%nat -> 0 < timeout ->
  exists x s', tp_call P pi n timeout u (r :: tape) s = Failed x s'.
Proof.
  intros P e ops s pi n timeout u r tape F B Ee Le R L Ln Ht. pose proof (reach_small P ops s F B R) as S. unfold tp_call.
  assert (G : grown (p_lo P) (p_hi P) (s_tree (root_turn P pi u s))) by (apply (ok_root P pi); eapply tp_grown; eauto).
  pose proof (small_kept _ _ _ (kept_root P pi u s) S) as S1. destruct (kept_root P pi u s) as (_ & Kl & _). rewrite <- Kl in L, Ln.
  revert S1 L Ln G. generalize (root_turn P pi u s). clear S R Kl. intros s1 S L Ln G. unfold small in S.
  destruct (nth_error (t_nodes (s_tree s1)) 0) as [n0|] eqn:En; cbn [option_map] in S; [|destruct S]. destruct (is_leaf n0) eqn:Lf; [lia|].
  destruct (grown_inv _ _ _ B G) as (k & I). pose proof (mask_length _ _ _ _ I) as ML.
  assert (El : exists l, get_samples P (s_tree s1) = Ok l /\ length l = length (t_leaves (s_tree s1))).
  { unfold get_samples. rewrite Ee. destruct (Qltb_spec 1 e); [|lra]. eexists. split; [reflexivity|].
    rewrite combine_length, !masked_length by (rewrite ?(ti_samples _ _ _ _ I), ?(ti_weights _ _ _ _ I), ML; auto). rewrite Nat.min_id. eapply count_mask; eauto. }
  destruct El as (l & El & Ll). cbn [tp_loop]. rewrite El, Ll. destruct (Nat.ltb_spec (length (t_leaves (s_tree s1))) n); [|lia].
  assert (Qltb 0 timeout = true) as -> by (apply Qltb_true; auto). simpl andb. cbv iota. unfold turn. rewrite F. unfold mixture_turn. cbv zeta.
  set (m := ((n - length (t_leaves (s_tree s1)) + 2 ^ p_dims P - 1) / 2 ^ p_dims P)%nat).
  assert (Hm : (1 <= m)%nat). { unfold m. apply Nat.div_le_lower_bound; [apply Nat.pow_nonzero; lia|]. lia. }
  destruct (model_sample P (s_model s1) m (rd_psel r) (rd_pdraw r)) as [xs|x] eqn:M; [|eauto]. apply model_sample_length in M.
  destruct (find_unique_raises (s_tree s1) n0 (p_frames P) (map (fun x => vclip x (p_lo P) (p_hi P)) xs) [] En Lf) as (x & ->); [|eauto].
  destruct xs; [simpl in M; lia|discriminate].
Qed.
Print Assumptions C73_next_raises.
(** A witness: on the constant target the second call, for three samples in time, raises and the tree still has two. *)
Theorem C73_request_refuted :
  exists P ops s pi n timeout u tape x s' l, p_flow P = MixtureFlow /\ is_box (p_lo P) (p_hi P) /\ tp_reachable P ops s /\ 0 < timeout /\
    Forall (fun r => rd_clock r < timeout) tape /\ tp_call P pi n timeout u tape s = Failed x s' /\ get_samples P (s_tree s') = Ok l /\ (length l < n)%nat.
Proof.
  exists mixed, [mixed_op]. eexists _, (fun _ => 1), 3%nat, 1, [1 # 2], [unit_round (1 # 4)], _, _, _.
  split; [reflexivity|]. split; [simpl; repeat split; lra|]. split; [eapply tp_done; [apply tp_init|]; vm_compute; reflexivity|].
  split; [reflexivity|]. split; [repeat constructor|]. split; [vm_compute; reflexivity|]. split; [vm_compute; reflexivity|]. simpl. lia.
Qed.
Print Assumptions C73_request_refuted.
Example C73_next_raises_example :
  exists s s', tp_reachable mixed [mixed_op] s /\ length (t_leaves (s_tree s)) = 2%nat /\
    tp_call mixed (fun _ => 1) 3 1 [1 # 2] [unit_round (1 # 4)] s = Failed ValueError s'.
Proof. eexists _, _. split; [eapply tp_done; [apply tp_init|]; vm_compute; reflexivity|]. split; vm_compute; reflexivity. Qed.

(** C74: a turn of the simple flow refines the leaves of greatest value: whatever leaf it expands, no leaf of greater value that could have
    been expanded is left. For every history and target, if no value is NaN. *)
Theorem C74_greedy :
  forall P pi need r ops s s' i j ni nj, is_box (p_lo P) (p_hi P) -> p_flow P = Simple -> tp_reachable P ops s ->
  (forall k n, In k (t_leaves (s_tree s)) -> nth_error (t_nodes (s_tree s)) k = Some n -> n_value n <> NaN) ->
  turn P pi need r s = Done s' ->
  In i (t_leaves (s_tree s)) -> ~ In i (t_leaves (s_tree s')) -> In j (t_leaves (s_tree s)) -> In j (t_leaves (s_tree s')) ->
  nth_error (t_nodes (s_tree s)) i = Some ni -> nth_error (t_nodes (s_tree s)) j = Some nj ->
  may_expand (p_ess P) (p_nmin P) (n_hist nj) = Ok true ->
  fltQ (n_value ni) (n_value nj) = false /\ may_expand (p_ess P) (p_nmin P) (n_hist ni) = Ok true.
Proof. exact greedy. Qed.
Print Assumptions C74_greedy.
Definition step2 (x : vec) : Q := match x with [a] => if Qle_bool a (1 # 2) then 1 else 2 | _ => 0 end.
Definition plain : tp_params := line Haar Simple false (Some 2) 1 1.
Example C74_greedy_example :
  exists s s' ni nj, tp_reachable plain [(TpCall step2 2 1 [1 # 2] [unit_round (1 # 2)], true)] s /\ turn plain step2 1 (unit_round (1 # 2)) s = Done s' /\
    t_leaves (s_tree s) = [1; 2]%nat /\ t_leaves (s_tree s') = [1; 3; 4]%nat /\
    nth_error (t_nodes (s_tree s)) 2 = Some ni /\ nth_error (t_nodes (s_tree s)) 1 = Some nj /\ fgtQ (n_value ni) (1 # 8) = true /\
    may_expand (p_ess plain) (p_nmin plain) (n_hist nj) = Ok true.
Proof. eexists _, _, _, _. split; [eapply tp_done; [apply tp_init|]; vm_compute; reflexivity|]. repeat split; vm_compute; reflexivity. Qed.

(** C75 (full statement: the returned weights are proportional to target density over the density of the leaf the sample was drawn from).
    Without leaf resampling, ESS target above 1 and n_min at most 1, the first call of a new object with any non-negative target: one
    factor c relates all returned rows to the density of their leaf. *)
Theorem C75_first_call_partial :
  forall P pi e n timeout u tape s, proper (p_lo P) (p_hi P) -> positive_kernel P -> p_flow P = Simple -> p_leaf_resampling P = false ->
  p_ess P = Some e -> 1 < e -> (p_nmin P <= 1)%nat -> nonneg pi -> unit_open P u -> Forall (fun r => forall i, unit_open P (rd_draw r i)) tape ->
  tp_call P pi n timeout u tape (tp_new P) = Done s ->
  exists c l refs, 0 < c /\ get_samples P (s_tree s) = Ok l /\ Permutation refs (t_leaves (s_tree s)) /\
    Forall2 (fun i xw => exists nd q v h, nth_error (t_nodes (s_tree s)) i = Some nd /\ n_hist nd = HList [(fst xw, h)] /\
               node_density P (n_center nd) (n_radius nd) (fst xw) = Fin q /\ 0 < q /\ snd xw = Fin v /\ 0 <= v /\ v * q == c * pi (fst xw)) refs l.
Proof.
  intros P pi e n timeout u tape s B K F NR Ee Le Ln N Hu Ft E. assert (O : one_mode P) by (exists e; repeat split; auto; lra).
  destruct (first_call P pi B K F NR O N n timeout u tape (tp_new P) s eq_refl Hu Ft E) as (c & Hc & S). pose proof S as ((k & I) & G).
  exists c. eexists. exists (masked_refs (s_tree s)). split; auto. unfold get_samples. rewrite Ee. destruct (Qltb_spec 1 e) as [Le1|Le1]; [|lra]. split; [reflexivity|].
  split; [eapply masked_refs_perm; eauto|]. 
  assert (H : forall i, In i (masked_refs (s_tree s)) -> In i (t_leaves (s_tree s))) by (intros i; apply Permutation_in; eapply masked_refs_perm; eauto).
  pose proof (cached_F2 _ _ _ _ I) as F2. revert F2 H. generalize (masked_refs (s_tree s)). set (l := combine _ _). clearbody l. intros refs F2.
  induction F2 as [|i xw refs l (F1 & F2) F3 IH]; intros H; constructor; [|apply IH; intros; apply H; right; auto].
  destruct (settled_histories P (whole_cell P) (QQ P pi c) (QQ_hist P pi c) s i S (H i (or_introl eq_refl)))
    as (nd & h & x & w & En & Eh & _ & Ex & Ew & (h0 & E0 & _ & L0 & One) & (q & v & Eq & Pq & Ev & Pv & V)).
  assert (h0 = h) by congruence. subst h0. specialize (One O). destruct h as [|(y, z) [|]]; try discriminate. simpl in L0. subst y.
  destruct xw as (x', w'). simpl in *. assert (x' = x) by congruence. assert (w' = w) by congruence. subst. exists nd, q, v, z. csplit; auto.
Qed.
Print Assumptions C75_first_call_partial.
Definition plain_op : tp_op * bool := (TpCall (fun _ => 2) 2 1 [1 # 2] [unit_round (1 # 2)], true).
Example C75_first_call_example :
  unit_open plain [1 # 2] /\ exists s l, tp_call plain (fun _ => 2) 2 1 [1 # 2] [unit_round (1 # 2)] (tp_new plain) = Done s /\
    get_samples plain (s_tree s) = Ok l /\ length l = 2%nat.
Proof.
  split; [split; [reflexivity|intros _; repeat constructor]|]. eexists _, _. split; [vm_compute; reflexivity|]. split; vm_compute; reflexivity.
Qed.

(** The next call normalises the weights of the samples it kept together with the raw weights of the new ones: for a constant target a
    leaf of length 1/2 and one of length 1/4 end up with the same weight. *)
Theorem C75_second_call_refuted :
  exists P pi s s' l i j ni nj, proper (p_lo P) (p_hi P) /\ p_kernel P = Haar /\ p_leaf_resampling P = false /\ (forall x, pi x == 2) /\
    tp_reachable P [plain_op] s /\ tp_call P pi 3 1 [1 # 2] [unit_round (1 # 2)] s = Done s' /\ get_samples P (s_tree s') = Ok l /\
    In i (t_leaves (s_tree s')) /\ In j (t_leaves (s_tree s')) /\
    nth_error (t_nodes (s_tree s')) i = Some ni /\ nth_error (t_nodes (s_tree s')) j = Some nj /\
    n_radius ni == 1 # 4 /\ n_radius nj == 1 # 8 /\
    Forall (fun xw => match snd xw with Fin v => v == 1 # 3 | _ => False end) l /\ length l = length (t_leaves (s_tree s')).
Proof.
  exists plain, (fun _ => 2). eexists _, _, _, 2%nat, 3%nat, _, _. split; [apply line_proper|]. split; [reflexivity|]. split; [reflexivity|].
  split; [reflexivity|]. split; [eapply tp_done; [apply tp_init|]; vm_compute; reflexivity|]. split; [vm_compute; reflexivity|].
  split; [vm_compute; reflexivity|]. split; [vm_compute; tauto|]. split; [vm_compute; tauto|]. split; [vm_compute; reflexivity|].
  split; [vm_compute; reflexivity|]. split; [reflexivity|]. split; [reflexivity|]. split; [|reflexivity]. repeat constructor.
Qed.
Print Assumptions C75_second_call_refuted.
