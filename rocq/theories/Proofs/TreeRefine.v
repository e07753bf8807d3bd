(** How the leaves of the resampled tree shrink: the volumes of any two leaves stay within a fixed ratio. *)
From Coq Require Import List Bool Arith Lia QArith Lqa Permutation.
Import ListNotations.
From Verif Require Import Prelude.Py Prelude.QBase Prelude.QFacts Model.Population Model.Tree Model.TreeSampler Spec.TreeSpec Spec.Box
  Proofs.PopulationProofs Proofs.TreeCells Proofs.TreeProofs Proofs.TreeMask Proofs.TreeSamplerTree Proofs.TreeSamplerInv Proofs.TreeSamplerLeaves
  Proofs.TreeResample Proofs.TreeDensity Proofs.TreeReturn Proofs.TreeRequest Proofs.TreeGreedy Properties.TreeSamplerProps.
Open Scope Q_scope.

Definition leaf_of (t : tree) (i : nat) (n : node) : Prop := In i (t_leaves t) /\ nth_error (t_nodes t) i = Some n.

(** The leaves after a turn's expansions. *)
Section Split.
Variables (P : tp_params) (whole : cell).
Hypothesis whole_pos : 0 < snd whole.
Let tinv (t : tree) : Prop := exists k, tree_inv (p_dims P) whole k t.
Lemma expand_at_leaf t p n li k q x : tree_inv (p_dims P) whole k t -> nth_error (t_nodes t) p = Some n -> n_leaf n = Some li ->
  leaf_of (expand_at t p n li) q x -> (q <> p /\ leaf_of t q x) \/ ((length (t_nodes t) <= q)%nat /\ n_radius x = n_radius n / 2).
Proof.
  intros I En El (Hq & Eq). apply In_nth_error in Hq. destruct Hq as (j & J).
  apply (step_nodes _ _ _ _ En) in Eq. apply (step_leaves _ _ _ _ _ _ _ I En El) in J.
  assert (Lp : (p < length (t_nodes t))%nat) by (apply nth_error_Some; congruence).
  destruct J as [(Nj & J)|(q0 & L0 & -> & _)].
  - pose proof (ti_leaf_lt _ _ _ _ I _ _ J) as Lq. left. destruct Eq as [(N & Eq)|[(-> & _)|(q1 & -> & _)]]; [|exfalso|lia].
    + split; auto. split; auto. eapply nth_error_In; eauto.
    + apply Nj. apply (ti_leaf _ _ _ _ I _ _ _ En) in J. congruence.
  - right. split; [lia|]. destruct Eq as [(_ & Eq)|[(Z & _)|(q1 & E1 & Eq)]].
    + assert (length (t_nodes t) + q0 < length (t_nodes t))%nat by (apply nth_error_Some; congruence). lia.
    + lia.
    + unfold expand_children in Eq. rewrite nth_error_map in Eq. destruct (nth_error (combine _ _) q1) as [ic|]; [|discriminate].
      simpl in Eq. inversion Eq. reflexivity.
Qed.
Lemma expand_split ps : forall t m acc t' new, tinv t -> (forall p, In p ps -> (p < length (t_nodes t))%nat) -> expand_nodes P t ps m acc = (t', Ok new) ->
  (length (t_nodes t) <= length (t_nodes t'))%nat /\
  (forall q, (q < length (t_nodes t))%nat -> In q (t_leaves t') -> In q (t_leaves t)) /\
  (forall q x, leaf_of t' q x -> leaf_of t q x \/ exists p np, In p ps /\ leaf_of t p np /\ ~ In p (t_leaves t') /\ n_radius x = n_radius np / 2).
Proof.
  induction ps as [|p ps IH]; intros t m acc t' new T N E; simpl in E.
  - inversion E; subst. auto.
  - pose proof T as (k & I).
    destruct (expand_cases (p_ess P) (p_nmin P) p t) as (t1 & r1 & X & C). rewrite X in E. destruct r1 as [[nw|]|e]; [| |discriminate].
    + destruct C as (n & li & En & El & M & -> & _).
      assert (T1 : tinv (expand_at t p n li)) by (eapply (tinv_expand P whole whole_pos); eauto).
      assert (Lp : (p < length (t_nodes t))%nat) by (apply nth_error_Some; congruence).
      assert (Len : (length (t_nodes t) <= length (t_nodes (expand_at t p n li)))%nat) by (unfold expand_at; simpl; rewrite app_length, upd_length; lia).
      assert (Lf : leaf_of t p n).
      { split; auto. apply (leaf_in _ _ _ _ _ _ I En). unfold is_leaf. rewrite El. auto. }
      assert (Pn : ~ In p (t_leaves (expand_at t p n li))).
      { intros H. pose proof T1 as (k1 & I1). destruct (leaf_node _ _ _ _ _ I1 H) as (x & Ex & _).
        destruct (expand_at_leaf t p n li k p x I En El (conj H Ex)) as [(Z & _)|(Z & _)]; [congruence|lia]. }
      assert (Old : forall q, (q < length (t_nodes t))%nat -> In q (t_leaves (expand_at t p n li)) -> In q (t_leaves t)).
      { intros q Lq H. pose proof T1 as (k1 & I1). destruct (leaf_node _ _ _ _ _ I1 H) as (x & Ex & _).
        destruct (expand_at_leaf t p n li k q x I En El (conj H Ex)) as [(_ & Z & _)|(Z & _)]; [exact Z|lia]. }
      assert (Fin : (length (t_nodes (expand_at t p n li)) <= length (t_nodes t'))%nat /\
        (forall q, (q < length (t_nodes (expand_at t p n li)))%nat -> In q (t_leaves t') -> In q (t_leaves (expand_at t p n li))) /\
        (forall q x, leaf_of t' q x -> leaf_of (expand_at t p n li) q x \/
           exists p' np, In p' ps /\ leaf_of (expand_at t p n li) p' np /\ ~ In p' (t_leaves t') /\ n_radius x = n_radius np / 2)).
      { cbv zeta in E. destruct (m <? length (acc ++ nw))%nat; [inversion E; subst; auto|]. eapply IH; eauto.
        intros a Ha. specialize (N a (or_intror Ha)). lia. }
      destruct Fin as (F1 & F2 & F3). split; [lia|]. split; [intros q Lq H; apply Old; auto; apply F2; auto; lia|].
      assert (Pn' : ~ In p (t_leaves t')) by (intros H; apply Pn, F2; auto; lia).
      intros q x H. destruct (F3 q x H) as [G|(p' & np & Hp & G & Np' & Er)].
      * destruct (expand_at_leaf t p n li k q x I En El G) as [(_ & Z)|(_ & Z)]; [left; auto|]. right. exists p, n. simpl. auto.
      * destruct (expand_at_leaf t p n li k p' np I En El G) as [(_ & Z)|(Lq & Z)]; [right; exists p', np; simpl; auto|].
        specialize (N p' (or_intror Hp)). lia.
    + subst t1. destruct (IH t m (acc ++ [p]) t' new T) as (F1 & F2 & F3); auto; [intros a Ha; apply N; right; auto|].
      split; auto. split; auto. intros q x H. destruct (F3 q x H) as [G|(p' & np & Hp & G)]; auto. right. exists p', np. simpl. auto.
Qed.
End Split.

(** Changes that keep the cells. *)
Definition same (t t' : tree) : Prop := t_leaves t' = t_leaves t /\ forall i, leaf_cell t' i = leaf_cell t i.
Lemma same_refl t : same t t.
Proof. split; auto. Qed.
Lemma same_trans a b c : same a b -> same b c -> same a c.
Proof. intros (H1 & H2) (K1 & K2). split; [congruence|]. intros i. rewrite K2. auto. Qed.
Lemma same_cache t ss ws : same t (put_cache t ss ws).
Proof. split; reflexivity. Qed.
Lemma same_node t i n w v h : nth_error (t_nodes t) i = Some n -> same t (put_node t i (set_payload n w v h)).
Proof.
  intros E. assert (i < length (t_nodes t))%nat by (apply nth_error_Some; congruence). split; [reflexivity|]. intros j. unfold leaf_cell, put_node. cbn [t_nodes].
  destruct (Nat.eq_dec i j) as [<-|N]; [rewrite upd_nth_error_eq by auto; rewrite E; reflexivity|rewrite upd_nth_error_neq by auto; reflexivity].
Qed.
Lemma same_take t ref x p q : same t (take_sample t ref x p q).
Proof. unfold take_sample. destruct (nth_error _ _) eqn:E; [|apply same_refl]. eapply same_trans; [eapply same_node; eauto|apply same_cache]. Qed.
Lemma same_normalize t : same t (self_normalize t).
Proof. unfold self_normalize. destruct (fgtQ _ 0); [apply same_cache|apply same_refl]. Qed.
Lemma same_refresh l : forall t, same t (fold_left refresh_leaf l t).
Proof.
  induction l as [|a l IH]; intros t; simpl; [apply same_refl|]. eapply same_trans; [|apply IH]. unfold refresh_leaf.
  destruct (nth_error _ _) eqn:E; [|apply same_refl]. eapply same_node; eauto.
Qed.
Lemma same_resample P pi r t : same t (resample_tree P pi r t).
Proof. unfold resample_tree. cbv zeta. eapply same_trans; [|apply same_refresh]. eapply same_trans; [|apply same_normalize]. apply same_cache. Qed.
Lemma same_root P pi u s : same (s_tree s) (s_tree (root_turn P pi u s)).
Proof.
  unfold root_turn. destruct (nth_error _ _) as [n|]; [|apply same_refl]. destruct (n_hist n); try apply same_refl. simpl.
  eapply same_trans; [apply same_take|apply same_normalize].
Qed.
Lemma same_nodes P pi r l : forall s, same (s_tree s) (s_tree (fold_left (fun s ref => node_turn P pi (rd_draw r ref) ref s) l s)).
Proof.
  induction l as [|a l IH]; intros s; simpl; [apply same_refl|]. eapply same_trans; [|apply IH]. unfold node_turn.
  destruct (nth_error _ _); [apply same_take|apply same_refl].
Qed.

(** Volumes. *)
Lemma power_half x n : power (2 * (x / 2)) n * power 2 n == power (2 * x) n.
Proof. induction n as [|n IH]; simpl; [ring|]. rewrite <- IH. field. Qed.
Lemma power_two_sq n : power 4 n == power 2 n * power 2 n.
Proof. induction n as [|n IH]; simpl; [reflexivity|]. rewrite IH. ring. Qed.
Lemma leaf_cell_of t i n : nth_error (t_nodes t) i = Some n -> leaf_cell t i = node_cell n.
Proof. intros E. unfold leaf_cell. rewrite E. reflexivity. Qed.
Definition vol (t : tree) (i : nat) : Q := cell_volume (leaf_cell t i).
Lemma leaf_dims P whole k t i n : tree_inv (p_dims P) whole k t -> nth_error (t_nodes t) i = Some n -> vol t i = power (2 * n_radius n) (p_dims P).
Proof. intros I E. unfold vol. rewrite (leaf_cell_of _ _ _ E). unfold cell_volume, node_cell. simpl. destruct (ti_node _ _ _ _ I _ _ E) as (_ & -> & _). reflexivity. Qed.
Lemma vol_positive P whole t i : 0 < snd whole -> (exists k, tree_inv (p_dims P) whole k t) -> In i (t_leaves t) -> 0 < vol t i.
Proof.
  intros W T Hi. pose proof T as (k & I). destruct (leaf_node _ _ _ _ _ I Hi) as (n & En & _). rewrite (leaf_dims _ _ _ _ _ _ I En).
  destruct (tinv_node P whole W t i n T En) as (_ & _ & R). apply power_pos. lra.
Qed.

Section Balance.
Variables (P : tp_params) (m Mx : Q).
Hypothesis B : proper (p_lo P) (p_hi P).
Hypothesis mpos : 0 < m.
Hypothesis mMx : m <= Mx.
Let d := p_dims P.
Let tinv (t : tree) : Prop := exists k, tree_inv d (whole_cell P) k t.
Let wpos : 0 < snd (whole_cell P) := proper_radius _ _ B.

Definition bal (t : tree) : Prop := forall i j, In i (t_leaves t) -> In j (t_leaves t) ->
  m * (vol t j * vol t j) <= Mx * power 4 d * (vol t i * vol t i).
Definition valued (t : tree) : Prop := length (t_leaves t) = 1%nat \/ exists E, 0 < E /\ forall i n, leaf_of t i n ->
  exists v p, n_value n = Fin v /\ m <= p /\ p <= Mx /\ v * E == p * (vol t i * vol t i).

Lemma bal_same t t' : same t t' -> bal t -> bal t'.
Proof. intros (H1 & H2) H i j. unfold vol. rewrite H1, !H2. apply H. Qed.
Lemma power4_ge1 : 1 <= power 4 d.
Proof. clear. induction d as [|n IH]; simpl; lra. Qed.
Lemma one_leaf_bal t : length (t_leaves t) = 1%nat -> bal t.
Proof.
  intros L i j Hi Hj. destruct (t_leaves t) as [|a [|]]; simpl in L; try lia. destruct Hi as [<-|[]], Hj as [<-|[]].
  pose proof power4_ge1. set (q := vol t a * vol t a). assert (0 <= q) by (unfold q; nra). clearbody q. assert (m * 1 <= Mx * power 4 d) by nra. nra.
Qed.

(** The leaves that are split are those of the largest values. *)
Lemma split_bal s t new r : tinv (s_tree s) -> grown (p_lo P) (p_hi P) (s_tree s) -> bal (s_tree s) -> valued (s_tree s) ->
  (forall i n, leaf_of (s_tree s) i n -> may_expand (p_ess P) (p_nmin P) (n_hist n) = Ok true) ->
  p_flow P = Simple -> expand_nodes P (s_tree s) (lambda_hat (s_tree s) r) (p_parallel P) [] = (t, Ok new) -> bal t.
Proof.
  intros T G Bl V May F X. pose proof T as (k & I).
  assert (G' : grown (p_lo P) (p_hi P) t) by (eapply grown_expand_nodes; eauto).
  destruct (grown_inv _ _ _ (proper_box _ _ B) G') as (k' & I').
  assert (Rng : forall p, In p (lambda_hat (s_tree s) r) -> (p < length (t_nodes (s_tree s)))%nat).
  { intros p Hp. apply (Permutation_in _ (lambda_perm _ _)) in Hp. apply In_nth_error in Hp. destruct Hp as (j & J). apply (ti_leaf_lt _ _ _ _ I _ _ J). }
  destruct (expand_split P (whole_cell P) wpos _ _ _ _ _ _ T Rng X) as (Len & Old & Sp).
  assert (From : forall q, In q (t_leaves t) -> (In q (t_leaves (s_tree s)) /\ vol t q = vol (s_tree s) q) \/
     exists p, In p (t_leaves (s_tree s)) /\ ~ In p (t_leaves t) /\ vol t q * power 2 d == vol (s_tree s) p).
  { intros q Hq. destruct (leaf_node _ _ _ _ _ I' Hq) as (x & Ex & _). destruct (Sp q x (conj Hq Ex)) as [(H1 & H2)|(p & np & _ & (H1 & H2) & H3 & H4)].
    - left. split; auto. rewrite (leaf_dims P _ _ _ _ _ I' Ex), (leaf_dims P _ _ _ _ _ I H2). reflexivity.
    - right. exists p. split; auto. split; auto. rewrite (leaf_dims P _ _ _ _ _ I' Ex), (leaf_dims P _ _ _ _ _ I H2), H4. apply power_half. }
  assert (Cmp : forall p j, In p (t_leaves (s_tree s)) -> ~ In p (t_leaves t) -> In j (t_leaves (s_tree s)) -> In j (t_leaves t) ->
     m * (vol (s_tree s) j * vol (s_tree s) j) <= Mx * (vol (s_tree s) p * vol (s_tree s) p)).
  { intros p j Hp Hp' Hj Hj'. destruct V as [V|(E & Ep & V)].
    - exfalso. destruct (t_leaves (s_tree s)) as [|a [|]]; simpl in V; try lia. destruct Hp as [<-|[]], Hj as [<-|[]]. auto.
    - destruct (leaf_node _ _ _ _ _ I Hp) as (np & Ep' & _). destruct (leaf_node _ _ _ _ _ I Hj) as (nj & Ej & _).
      destruct (V p np (conj Hp Ep')) as (vp & pp & Evp & A1 & A2 & A3). destruct (V j nj (conj Hj Ej)) as (vj & pj & Evj & B1 & B2 & B3).
      destruct (greedy_grown P (fun _ => 0) 0 r s (maybe_resample P (fun _ => 0) r (fold_left (fun s ref => node_turn P (fun _ => 0) (rd_draw r ref) ref s) new (with_tree s t))) p j np nj) as (Lt & _); auto.
      + apply proper_box; auto.
      + intros q n Hq En. destruct (V q n (conj Hq En)) as (v & _ & -> & _). discriminate.
      + unfold turn. rewrite F. unfold simple_turn. rewrite X. reflexivity.
      + rewrite maybe_leaves, node_turns_leaves. exact Hp'.
      + rewrite maybe_leaves, node_turns_leaves. exact Hj'.
      + apply (May j). split; auto.
      + rewrite Evp, Evj in Lt. simpl in Lt. apply Qltb_false in Lt. 
        set (a := vol (s_tree s) p * vol (s_tree s) p) in *. set (b := vol (s_tree s) j * vol (s_tree s) j) in *.
        assert (0 <= a) by (unfold a; nra). assert (0 <= b) by (unfold b; nra). clearbody a b.
        assert (vj * E <= vp * E) by nra. rewrite A3, B3 in H1. nra. }
  intros i j Hi Hj. pose proof power4_ge1 as P4. pose proof (power_two_sq d) as P2.
  assert (P2p : 0 < power 2 d) by (apply power_pos; lra).
  destruct (From i Hi) as [(Hi' & Ei)|(p & Hp & Hp' & Ei)], (From j Hj) as [(Hj' & Ej)|(q & Hq & Hq' & Ej)].
  - rewrite Ei, Ej. apply Bl; auto.
  - rewrite Ei. pose proof (Bl i q Hi' Hq) as H. rewrite <- Ej in H. revert H. generalize (vol (s_tree s) i * vol (s_tree s) i). intros a H.
    apply Qle_trans with (2 := H). set (b := vol t j) in *. set (w := power 2 d) in *.
    assert (1 <= w * w) by lra. assert (0 <= b * b) by nra. assert (b * w * (b * w) == (b * b) * (w * w)) as -> by ring.
    generalize dependent (w * w). intros ww _ L1. generalize dependent (b * b). intros bb Hb. assert (0 <= m * bb) by (apply Qmult_le_0_compat; lra).
    assert (0 <= m * bb * (ww - 1)) by (apply Qmult_le_0_compat; lra). lra.
  - rewrite Ej. pose proof (Cmp p j Hp Hp' Hj' Hj) as H. rewrite <- Ei in H. rewrite P2. revert H. generalize (vol (s_tree s) j * vol (s_tree s) j). intros a H. 
    apply Qle_trans with (1 := H). ring_simplify. lra.
  - pose proof (Bl p q Hp Hq) as H. rewrite <- Ei, <- Ej in H. set (a := vol t i) in *. set (b := vol t j) in *. set (w := power 2 d) in *. rewrite P2 in *.
    apply Qmult_lt_0_le_reg_r with (z := w * w); [nra|]. 
    setoid_replace (m * (b * b) * (w * w)) with (m * (b * w * (b * w))) by ring.
    setoid_replace (Mx * (w * w) * (a * a) * (w * w)) with (Mx * (w * w) * (a * w * (a * w))) by ring. exact H.
Qed.

(** Targets within the bounds on the root's cube, and unit draws for the resampling. *)
Definition bounded (pi : vec -> Q) : Prop := nonneg pi /\ forall x, in_closed (whole_cell P) x -> m <= pi x /\ pi x <= Mx.
Definition unit_draws (r : tp_round) : Prop := forall q, length (rd_re r q) = p_dims P /\ Forall (fun a => 0 <= a /\ a < 1) (rd_re r q).
Definition weighed (pi : vec -> Q) (t : tree) : Prop := exists E, 0 < E /\ forall i, In i (t_leaves t) -> exists x w,
  nth_error (t_samples t) i = Some x /\ nth_error (t_weights t) i = Some (Fin w) /\ in_closed (leaf_cell t i) x /\ 0 < w /\ w * E == pi x * vol t i.

Lemma resample_value pi r t i n : tinv t -> In i (t_leaves t) -> nth_error (t_nodes (resample_tree P pi r t)) i = Some n ->
  n_value n = fmulQ (n_weight n) (Fin (Qpow (2 * n_radius n) (length (n_center n)))).
Proof.
  intros (k & I) Hi E. unfold resample_tree in E. cbv zeta in E.
  match type of E with nth_error (t_nodes (fold_left _ _ ?u)) _ = _ => set (t1 := u) in * end.
  assert (L1 : t_leaves t1 = t_leaves t) by (unfold t1; rewrite normalize_leaves; reflexivity).
  destruct (refresh_fold (t_leaves t1) t1) as (_ & _ & _ & _ & _ & _ & fn); [rewrite L1; eapply leaves_nodup; eauto|].
  rewrite fn in E. assert (existsb (Nat.eqb i) (t_leaves t1) = true) as X by (apply existsb_in; rewrite L1; auto). rewrite X in E.
  destruct (nth_error (t_nodes t1) i); [|discriminate]. inversion E. reflexivity.
Qed.
Lemma estimate_pos (pi : vec -> Q) held : held <> [] -> (forall c x, In (c, x) held -> 0 < pi x * cell_volume c) -> 0 < estimate pi held.
Proof.
  intros Ne H. assert (G : forall l, (forall c x, In (c, x) l -> 0 < pi x * cell_volume c) -> 0 <= estimate pi l).
  { induction l as [|(c, x) l IH]; intros K; simpl; [lra|]. pose proof (K c x (or_introl eq_refl)). assert (0 <= estimate pi l) by (apply IH; intros; apply K; right; auto).
    unfold estimate in *. lra. }
  destruct held as [|(c, x) l]; [congruence|]. pose proof (H c x (or_introl eq_refl)). assert (0 <= estimate pi l) by (apply G; intros; apply H; right; auto).
  unfold estimate in *. simpl. lra.
Qed.
Lemma resample_law pi r t : p_kernel P = Haar -> grown (p_lo P) (p_hi P) t -> bounded pi -> unit_draws r ->
  valued (resample_tree P pi r t) /\ weighed pi (resample_tree P pi r t).
Proof.
  intros Ek G (N & Bd) H. pose proof (proper_box _ _ B) as Bx. destruct (grown_inv _ _ _ Bx G) as (k & I).
  destruct (grown_inv _ _ _ Bx (grown_resample _ _ P pi r t G)) as (k' & I'). pose proof G as (ops & R).
  destruct (C48_resample_partial P pi r ops t B Ek N R H) as (held & Pm & El & _ & Hh). set (t' := resample_tree P pi r t) in *.
  assert (Hf : forall i, In i (t_leaves t') -> exists c x, In (i, (c, x)) held).
  { intros i Hi. rewrite El in Hi. apply (Permutation_in _ (Permutation_sym Pm)) in Hi. apply in_map_iff in Hi. destruct Hi as ((i', (c, x)) & <- & Hi). eauto. }
  assert (Bnd : forall i c x, In (i, (c, x)) held -> In i (t_leaves t') /\ leaf_cell t' i = c /\ m <= pi x /\ pi x <= Mx /\ 0 < cell_volume c).
  { intros i c x Hi. destruct (Hh _ _ _ Hi) as (Cl & n & w & En & Ec & _). 
    assert (Hl : In i (t_leaves t')).
    { rewrite El. apply (Permutation_in _ Pm). apply in_map_iff. exists (i, (c, x)). auto. }
    assert (Lc : leaf_cell t' i = c) by (rewrite (leaf_cell_of _ _ _ En); exact Ec).
    split; auto. split; auto. rewrite <- and_assoc. split.
    - apply Bd. destruct (ti_tiles _ _ _ _ I') as (_ & W & _). apply (W c); auto. rewrite <- Lc. unfold leaf_cells. apply in_map. auto.
    - pose proof (vol_positive P (whole_cell P) t' i wpos (ex_intro _ k' I') Hl) as V. unfold vol in V. rewrite Lc in V. exact V. }
  assert (Ep : 0 < estimate pi (map snd held)).
  { apply estimate_pos.
    - intros Z. apply map_eq_nil in Z. subst held. apply Permutation_length in Pm. rewrite (ti_leaves_count _ _ _ _ I) in Pm. discriminate.
    - intros c x Hc. apply in_map_iff in Hc. destruct Hc as ((i, (c', x')) & E & Hc). simpl in E. inversion E; subst c' x'.
      destruct (Bnd _ _ _ Hc) as (_ & _ & L1 & _ & L2). apply Qmult_lt_0_compat; lra. }
  set (E := estimate pi (map snd held)) in *. split.
  - right. exists E. split; auto. intros i n (Hl & En). destruct (Hf i Hl) as (c & x & Hi). destruct (Bnd _ _ _ Hi) as (_ & Lc & L1 & L2 & _).
    destruct (Hh _ _ _ Hi) as (_ & n' & w & En' & Ec & _ & _ & Ew & W & _). assert (n' = n) by congruence. subst n'.
    assert (Hl0 : In i (t_leaves t)) by (rewrite <- El; auto).
    pose proof (resample_value pi r t i n (ex_intro _ k I) Hl0 En) as Ev. rewrite Ew in Ev. simpl in Ev. eexists _, (pi x). split; [exact Ev|].
    split; auto. split; auto. rewrite (leaf_dims P _ _ _ _ _ I' En). destruct (ti_node _ _ _ _ I' _ _ En) as (_ & D & _). rewrite D, <- power_Qpow.
    specialize (W Ep). unfold cell_volume in W. rewrite <- Ec in W. simpl in W. rewrite D in W. set (v := power (2 * n_radius n) (length (p_lo P))) in *.
    change (power (2 * n_radius n) (p_dims P)) with v.
    setoid_replace (w * v * E) with (w * E * v) by ring. rewrite W. ring.
  - exists E. split; auto. intros i Hl. destruct (Hf i Hl) as (c & x & Hi). destruct (Bnd _ _ _ Hi) as (_ & Lc & L1 & _ & L2).
    destruct (Hh _ _ _ Hi) as (Cl & n' & w & En' & Ec & Es & Ew & _ & W & _). exists x, w. unfold vol. rewrite Lc. csplit; auto.
    specialize (W Ep). assert (0 < pi x * cell_volume c) by (apply Qmult_lt_0_compat; lra). rewrite <- W in H0. clearbody E. nra.
Qed.

Lemma turn_refines pi need r s s' : p_kernel P = Haar -> p_flow P = Simple -> p_leaf_resampling P = true -> one_mode P -> bounded pi -> unit_draws r ->
  settled1 P s -> grown (p_lo P) (p_hi P) (s_tree s) -> bal (s_tree s) -> valued (s_tree s) -> turn P pi need r s = Done s' ->
  grown (p_lo P) (p_hi P) (s_tree s') /\ bal (s_tree s') /\ valued (s_tree s') /\ weighed pi (s_tree s').
Proof.
  intros Ek F Lr O Bd U S G Bl V E. pose proof (ok_turn P pi need r s G) as G'. rewrite E in G'. cbn [out_state] in G'.
  unfold turn, simple_turn in E. rewrite F in E. destruct (expand_nodes P (s_tree s) (lambda_hat (s_tree s) r) (p_parallel P) []) as [t rr] eqn:X.
  destruct rr as [new|e]; [|discriminate]. inversion E as [E']. clear E. split; [rewrite E'; exact G'|].
  assert (Bt : bal t).
  { eapply (split_bal s t new r); eauto; [exact (proj1 S)|]. intros i n (Hi & En).
    destruct (settled_histories P (whole_cell P) (Q1 P) (Q1_hist P) s i S Hi) as (n' & l & x & w & En' & El & _ & _ & _ & (l0 & E0 & _ & _ & One)).
    assert (n' = n) by congruence. subst n'. rewrite El in E0. inversion E0; subst l0. rewrite El. apply one_never_refused; auto. }
  unfold maybe_resample. rewrite Lr. cbn [resample s_tree].
  set (s1 := fold_left (fun s ref => node_turn P pi (rd_draw r ref) ref s) new (with_tree s t)).
  assert (G1 : grown (p_lo P) (p_hi P) (s_tree s1)).
  { unfold s1. apply ok_nodes. exact (grown_expand_nodes _ _ _ _ _ _ _ _ _ G X). }
  split; [|apply resample_law; auto].
  eapply bal_same; [|exact Bt]. eapply same_trans; [|apply same_resample]. apply (same_nodes P pi r new (with_tree s t)).
Qed.
End Balance.

(** Whole calls and histories. *)
Definition unit_sum (t : tree) : Prop := exists ws, masked (t_mask t) (t_weights t) = map Fin ws /\ Qsum ws == 1.
Lemma normalize_weighed P pi t : (exists k, tree_inv (p_dims P) (whole_cell P) k t) -> weighed pi t -> weighed pi (self_normalize t) /\ unit_sum (self_normalize t).
Proof.
  intros (k & I) (E & Ep & H). pose proof (mask_length _ _ _ _ I) as ML.
  assert (Fw : exists ws, masked (t_mask t) (t_weights t) = map Fin ws /\ 0 < Qsum ws).
  { pose proof (masked_F2 (t_mask t) (t_weights t) ltac:(rewrite (ti_weights _ _ _ _ I), ML; auto)) as F2. rewrite ML in F2. fold (masked_refs t) in F2.
    pose proof (Permutation_length (masked_refs_perm _ _ _ _ I)) as Lr. rewrite (ti_leaves_count _ _ _ _ I) in Lr.
    assert (Hin : forall i, In i (masked_refs t) -> In i (t_leaves t)) by (intros i; apply Permutation_in; eapply masked_refs_perm; eauto).
    assert (G : exists ws, masked (t_mask t) (t_weights t) = map Fin ws /\ length ws = length (masked_refs t) /\ Forall (fun w => 0 < w) ws).
    { clear Lr. revert F2 Hin. generalize (masked_refs t) (masked (t_mask t) (t_weights t)). intros l l' F2. induction F2 as [|i w l l' Hw F2 IH]; intros Hin; [exists []; auto|].
      destruct IH as (ws & -> & Lw & Pw); [intros; apply Hin; right; auto|]. destruct (H i (Hin i (or_introl eq_refl))) as (x & w0 & _ & Ew & _ & Pw0 & _).
      rewrite Ew in Hw. inversion Hw. exists (w0 :: ws). simpl. csplit; auto. }
    destruct G as (ws & Ews & Lw & Pw). exists ws. split; auto. destruct ws as [|w ws]; [rewrite Lr in Lw; discriminate|]. inversion Pw as [|? ? Q1 Q2]; subst. change (0 < w + Qsum ws).
    assert (0 <= Qsum ws) by (apply Qsum_nonneg; eapply Forall_impl; [|exact Q2]; simpl; intros; lra). lra. }
  destruct Fw as (ws & Ews & L). unfold self_normalize. rewrite Ews, fsumQ_fin. simpl fgtQ. destruct (Qltb_spec 0 (Qsum ws)) as [_|X]; [|lra].
  assert (LW : length (t_weights t) = length (t_mask t)) by (rewrite (ti_weights _ _ _ _ I), ML; auto).
  assert (LM : length (map (fun x => fdivflQ x (Fin (Qsum ws))) (map Fin ws)) = count_true (t_mask t)) by (rewrite map_length, <- Ews; apply masked_length; auto).
  split.
  - exists (E * Qsum ws). split; [apply Qmult_lt_0_compat; auto|]. intros i Hi. cbn [put_cache t_leaves] in Hi.
    destruct (H i Hi) as (x & w & Ex & Ew & Cl & Wp & W). exists x, (w / Qsum ws). split; [exact Ex|]. split; [|split; [exact Cl|split]].
    + destruct (leaf_node _ _ _ _ _ I Hi) as (n & En & Ln).
      pose proof (cache_rows P (whole_cell P) _ _ _ (ex_intro _ k I) En Ln) as M. cbn [put_cache t_weights]. rewrite put_rank; auto.
      rewrite <- Ews, nth_error_map, masked_rank by auto. rewrite Ew. simpl. unfold fdivQ.
      destruct (Qeq_bool_spec (Qsum ws) 0); [lra|reflexivity].
    + apply Qlt_shift_div_l; lra.
    + change (vol (put_cache t (t_samples t) _) i) with (vol t i). rewrite <- W. field. lra.
  - exists (map (fun q => q / Qsum ws) ws). split; [|rewrite Qsum_div; field; lra]. cbn [put_cache t_mask t_weights]. rewrite masked_put; auto.
    rewrite !map_map. apply map_ext. intros q. simpl. unfold fdivQ. destruct (Qeq_bool_spec (Qsum ws) 0); [lra|reflexivity].
Qed.

Section Calls.
Variables (P : tp_params) (m Mx e : Q).
Hypothesis B : proper (p_lo P) (p_hi P).
Hypothesis mpos : 0 < m.
Hypothesis mMx : m <= Mx.
Hypothesis kernel : p_kernel P = Haar.
Hypothesis flow : p_flow P = Simple.
Hypothesis leaf_re : p_leaf_resampling P = true.
Hypothesis ess : p_ess P = Some e.
Hypothesis ess1 : 1 < e.
Hypothesis nmin : (p_nmin P <= 1)%nat.
Let O : one_mode P.
Proof. exists e. repeat split; auto. lra. Qed.
Definition even_tree (s : tp) : Prop := settled1 P s /\ grown (p_lo P) (p_hi P) (s_tree s) /\ bal P m Mx (s_tree s) /\ valued m Mx (s_tree s).

Lemma update_even s : even_tree s -> even_tree (update_model s).
Proof.
  intros (S & G & Bl & V). split; [|split; [|split]].
  - apply (update_settled P (whole_cell P) (Q1 P) anyW); auto; try (intros; exact I).
  - apply grown_normalize. auto.
  - eapply bal_same; [apply same_normalize|auto].
  - unfold valued. simpl. rewrite normalize_leaves. destruct V as [V|(E & Ep & V)]; [left; auto|]. right. exists E. split; auto.
    assert (En : t_nodes (self_normalize (s_tree s)) = t_nodes (s_tree s)) by (unfold self_normalize; destruct (fgtQ _ 0); reflexivity).
    intros i n (Hi & Hn). rewrite normalize_leaves in Hi. rewrite En in Hn. destruct (V i n (conj Hi Hn)) as (v & p & V1 & V2 & V3 & V4).
    exists v, p. repeat split; auto. unfold vol, leaf_cell. rewrite En. exact V4.
Qed.
Lemma loop_even pi n timeout tape : bounded P m Mx pi -> Forall (unit_draws P) tape -> forall el s s', even_tree s ->
  tp_loop P pi n timeout tape el s = Done s' -> even_tree s' /\ (weighed pi (s_tree s) \/ ((length (t_leaves (s_tree s)) < n)%nat /\ el < timeout) -> weighed pi (s_tree s') /\ unit_sum (s_tree s')).
Proof.
  intros Bd. induction tape as [|r tape IH]; intros U el s s' Ev E; simpl in E; pose proof Ev as (S & G & Bl & V);
    destruct (cache_count P e s ess ess1 S) as (l & El & Ll); rewrite El in E; rewrite Ll in E;
    destruct (Nat.ltb_spec (length (t_leaves (s_tree s))) n) as [A|A]; destruct (Qltb_spec el timeout) as [C|C]; simpl andb in E; cbv iota in E; try discriminate.
  4: { destruct (turn1 P pi (n - length (t_leaves (s_tree s))) r s B flow S) as (s1 & E1 & S1). rewrite E1 in E. inversion U; subst.
       destruct (turn_refines P m Mx B mpos pi _ r s s1 kernel flow leaf_re O Bd H1 S G Bl V E1) as (G1 & B1 & V1 & W1).
       destruct (IH H2 (rd_clock r) s1 s' (conj S1 (conj G1 (conj B1 V1))) E) as (K1 & K2). split; auto. }
  all: inversion E; subst; (split; [apply update_even; auto|]); intros [W|(W1 & W2)]; [apply (normalize_weighed P); [apply S|exact W]|exfalso; first [lia|lra]].
Qed.
Lemma root_even pi u s : s_tree s = tree_new (p_lo P) (p_hi P) \/ even_tree s -> even_tree (root_turn P pi u s).
Proof.
  intros [E|Ev].
  - assert (L : length (t_leaves (s_tree (root_turn P pi u s))) = 1%nat) by (rewrite (proj1 (same_root P pi u s)), E; reflexivity).
    split; [apply root1; auto|]. split; [apply ok_root; rewrite E; apply grown_new|]. split; [apply one_leaf_bal; auto|left; auto].
  - pose proof Ev as (S & _). rewrite (root_noop P pi (whole_cell P) (Q1 P) (Q1_hist P) u s S). auto.
Qed.
Definition fair (o : tp_op) : Prop := match o with TpCall pi n timeout u tape => bounded P m Mx pi /\ Forall (unit_draws P) tape | _ => True end.
Lemma reach_even ops s : tp_reachable P ops s -> Forall (fun ob => fair (fst ob)) ops -> s_tree s = tree_new (p_lo P) (p_hi P) \/ even_tree s.
Proof.
  assert (Keep : forall s s', s_tree s' = s_tree s -> (s_tree s = tree_new (p_lo P) (p_hi P) \/ even_tree s) -> s_tree s' = tree_new (p_lo P) (p_hi P) \/ even_tree s').
  { intros s1 s2 E [H|(H1 & H2 & H3 & H4)]; [left; congruence|right]. unfold even_tree, settled1, settled in *. rewrite E. auto. }
  induction 1 as [|o ops s s' R IH E|o ops s x s' R IH E]; intros F; [left; reflexivity| |]; inversion F as [|? ? F1 F2]; subst; specialize (IH F2); destruct o as [pi n timeout u tape|k sel draw|]; simpl in E, F1.
  - right. destruct F1 as (Bd & U). eapply (loop_even pi n timeout tape Bd U 0); [apply root_even; exact IH|exact E].
  - destruct (model_sample _ _ _ _ _); inversion E. eapply Keep; eauto; reflexivity.
  - inversion E. left. reflexivity.
  - exfalso. assert (S : s_tree s = tree_new (p_lo P) (p_hi P) \/ settled1 P s) by (destruct IH as [IH|(IH & _)]; auto).
    pose proof (call1 P s pi n timeout u tape B flow S) as C. rewrite ess in C. destruct C as (s2 & [C|C] & _); rewrite C in E; discriminate.
  - destruct (model_sample _ _ _ _ _); inversion E. eapply Keep; eauto; reflexivity.
  - discriminate.
Qed.

(** The volumes of N balanced leaves. *)
Lemma even_small K t j : (exists k, tree_inv (p_dims P) (whole_cell P) k t) -> bal P m Mx t -> 0 <= K -> Mx * power 4 (p_dims P) <= K * K * m -> In j (t_leaves t) ->
  Qnat (length (t_leaves t)) * vol t j <= K * cell_volume (whole_cell P).
Proof.
  intros T Bl Kp Hk Hj. pose proof T as (k & I).
  assert (wpos : 0 < snd (whole_cell P)) by (apply proper_radius; auto).
  assert (Pj : 0 < vol t j) by (eapply vol_positive; eauto).
  assert (Each : forall i, In i (t_leaves t) -> vol t j <= K * vol t i).
  { intros i Hi. assert (Pi : 0 < vol t i) by (eapply vol_positive; eauto). pose proof (Bl i j Hi Hj) as H. set (a := vol t i) in *. set (b := vol t j) in *.
    destruct (Qlt_le_dec (K * a) b) as [X|X]; auto. exfalso. assert (Z : 0 <= K * a) by (apply Qmult_le_0_compat; lra).
    assert (Y : (K * a) * (K * a) < b * b) by (clear - X Z; revert X Z; generalize (K * a); intros; nra).
    assert (Mx * power 4 (p_dims P) * (a * a) <= K * K * m * (a * a)) by (apply Qmult_le_compat_r; [auto|nra]).
    assert (m * ((K * a) * (K * a)) < m * (b * b)) by (apply Qmult_lt_l; auto).
    setoid_replace (K * K * m * (a * a)) with (m * (K * a * (K * a))) in H0 by ring.
    apply Qle_not_lt in H0. apply H0. apply Qlt_le_trans with (1 := H1). exact H. }
  destruct (ti_tiles _ _ _ _ I) as (_ & _ & _ & Tv). rewrite <- Tv. unfold leaf_cells.
  assert (Sum : forall l, (forall i, In i l -> vol t j <= K * vol t i) -> Qnat (length l) * vol t j <= K * total_volume (map (leaf_cell t) l)).
  { clear. induction l as [|a l IH]; intros H; [cbn [map length total_volume fold_right]; rewrite Qnat_0; lra|]. cbn [map length total_volume fold_right]. rewrite Qnat_S.
    specialize (IH (fun i Hi => H i (or_intror Hi))). pose proof (H a (or_introl eq_refl)) as Ha. unfold vol, total_volume in *. lra. }
  apply Sum. exact Each.
Qed.
Lemma power_lt a b n : 0 <= a -> a < b -> (1 <= n)%nat -> power a n < power b n.
Proof.
  intros A L. induction n as [|n IH]; intros N; [lia|]. simpl. destruct n as [|n]; [simpl; lra|]. specialize (IH ltac:(lia)).
  assert (0 <= power a (S n)) by (clear - A; induction (S n); simpl; [lra|]; apply Qmult_le_0_compat; auto). nra.
Qed.
Lemma even_side K D N t i n : (exists k, tree_inv (p_dims P) (whole_cell P) k t) -> bal P m Mx t -> 0 <= K -> Mx * power 4 (p_dims P) <= K * K * m -> 0 <= D -> (0 < N <= length (t_leaves t))%nat ->
  K * cell_volume (whole_cell P) <= power D (p_dims P) * Qnat N -> leaf_of t i n -> 2 * n_radius n <= D.
Proof.
  intros T Bl Kp Hk Dp (N0 & N1) Hd (Hi & En). pose proof (even_small K t i T Bl Kp Hk Hi) as H. pose proof T as (k & I).
  assert (wpos : 0 < snd (whole_cell P)) by (apply proper_radius; auto).
  assert (Pj : 0 < vol t i) by (eapply vol_positive; eauto).
  rewrite (leaf_dims P _ _ _ _ _ I En) in *. destruct (Qlt_le_dec D (2 * n_radius n)) as [X|X]; auto. exfalso.
  pose proof (power_lt D (2 * n_radius n) (p_dims P) Dp X (proper_dims P B)) as Y. set (v := power (2 * n_radius n) (p_dims P)) in *. set (w := power D (p_dims P)) in *.
  assert (L1 : 1 <= Qnat N) by (change 1 with (Qnat 1); apply Qnat_le; lia). assert (L2 : Qnat N <= Qnat (length (t_leaves t))) by (apply Qnat_le; auto).
  set (q := Qnat N) in *. set (q' := Qnat (length (t_leaves t))) in *. clearbody v w q q'. assert (q * v <= q' * v) by nra. nra.
Qed.

Lemma Qsum_perm l l' : Permutation l l' -> Qsum l == Qsum l'.
Proof. induction 1; simpl; try lra. Qed.
Lemma estimate_rows (pi : vec -> Q) (rows : list (cell * vec * Q)) E : (forall c x w, In (c, x, w) rows -> w * E == pi x * cell_volume c) ->
  Qsum (map snd rows) * E == estimate pi (map fst rows).
Proof.
  induction rows as [|((c, x), w) rows IH]; intros H; [simpl; ring|]. cbn [map Qsum fold_right estimate fst snd].
  change (fold_right _ _ (map fst rows)) with (estimate pi (map fst rows)). rewrite <- IH by (intros; apply H; right; auto). rewrite <- (H c x w (or_introl eq_refl)).
  change (fold_right Qplus 0 (map snd rows)) with (Qsum (map snd rows)). ring.
Qed.
Lemma call_rows pi ops s n timeout u tape s' : tp_reachable P ops s -> Forall (fun ob => fair (fst ob)) ops -> bounded P m Mx pi -> Forall (unit_draws P) tape ->
  (length (t_leaves (s_tree s)) < n)%nat -> 0 < timeout -> tp_call P pi n timeout u tape s = Done s' ->
  even_tree s' /\ exists l rows, get_samples P (s_tree s') = Ok l /\ Permutation l (map (fun row => (snd (fst row), Fin (snd row))) rows) /\
    map (fun row => fst (fst row)) rows = leaf_cells (s_tree s') /\ tiles (leaf_cells (s_tree s')) (whole_cell P) /\ 0 < estimate pi (map fst rows) /\ Qsum (map snd rows) == 1 /\
    forall c x w, In (c, x, w) rows -> 0 < snd c /\ in_closed c x /\ w * estimate pi (map fst rows) == pi x * cell_volume c.
Proof.
  intros R F Bd U Ln Ht E. pose proof (root_even pi u s (reach_even ops s R F)) as Ev. unfold tp_call in E.
  destruct (loop_even pi n timeout tape Bd U 0 _ s' Ev E) as (Ev' & W). split; auto.
  destruct W as ((E0 & Ep & W) & (ws & Ews & Sw)); [right; rewrite (proj1 (same_root P pi u s)); auto|].
  pose proof Ev' as (S & _). pose proof (proj1 S) as T. pose proof T as (k & I). set (t := s_tree s') in *.
  destruct (cache_count P e s' ess ess1 S) as (l & El & _). unfold get_samples in El. rewrite ess in El. destruct (Qltb_spec 1 e) as [_|X]; [|lra].
  pose proof (cached_F2 _ _ _ _ I) as F2. injection El as El. fold t in El. rewrite El in F2.
  set (g := fun i => (nth i (t_samples t) [], nth i (t_weights t) NaN)).
  assert (Lg : l = map g (masked_refs t)).
  { clear - F2. induction F2 as [|i (x, w) refs l (A1 & A2) F2 IH]; simpl; auto. f_equal; auto. unfold g. simpl in *.
    rewrite (nth_error_nth _ _ _ A1), (nth_error_nth _ _ _ A2). reflexivity. }
  set (row := fun i => (leaf_cell t i, nth i (t_samples t) ([] : vec), match nth i (t_weights t) NaN with Fin w => w | _ => 0 end)).
  assert (Gr : forall i, In i (t_leaves t) -> g i = (snd (fst (row i)), Fin (snd (row i)))).
  { intros i Hi. destruct (W i Hi) as (x & w & _ & Ew & _). unfold g, row. simpl. rewrite (nth_error_nth _ _ _ Ew). reflexivity. }
  assert (Pm : Permutation l (map (fun row => (snd (fst row), Fin (snd row))) (map row (t_leaves t)))).
  { rewrite Lg, map_map. rewrite (Permutation_map g (masked_refs_perm _ _ _ _ I)). erewrite map_ext_in; [apply Permutation_refl|]. intros i Hi. apply Gr. auto. }
  assert (Row : forall c x w, In (c, x, w) (map row (t_leaves t)) -> 0 < snd c /\ in_closed c x /\ w * E0 == pi x * cell_volume c).
  { intros c x w H. apply in_map_iff in H. destruct H as (i & H & Hi). destruct (W i Hi) as (x0 & w0 & Ex & Ew & Cl & _ & Wi).
    unfold row in H. rewrite (nth_error_nth _ _ _ Ex), (nth_error_nth _ _ _ Ew) in H. inversion H; subst c x w. csplit; auto.
    destruct (leaf_node _ _ _ _ _ I Hi) as (nd & En & _). rewrite (leaf_cell_of _ _ _ En). simpl.
    destruct (tinv_node P (whole_cell P) (proper_radius _ _ B) t i nd T En) as (_ & _ & Rp). exact Rp. }
  assert (S1 : Qsum (map snd (map row (t_leaves t))) == 1).
  { rewrite <- Sw. assert (Em : map snd l = map Fin ws).
    { rewrite <- Ews, <- El. pose proof (mask_length _ _ _ _ I) as ML. apply map_snd_combine.
      rewrite !masked_length; auto; rewrite ?(ti_samples _ _ _ _ I), ?(ti_weights _ _ _ _ I), ML; auto. }
    assert (Pw : Permutation (map Fin ws) (map Fin (map snd (map row (t_leaves t))))).
    { rewrite <- Em. rewrite (Permutation_map snd Pm). rewrite !map_map. simpl. apply Permutation_refl. }
    apply Permutation_sym in Pw. apply (Permutation_map (fun w => match w with Fin q => q | _ => 0 end)) in Pw. rewrite !map_map in Pw. simpl in Pw.
    rewrite map_id in Pw. rewrite map_map. apply Qsum_perm. exact Pw. }
  assert (Es : estimate pi (map fst (map row (t_leaves t))) == E0).
  { rewrite <- (estimate_rows pi (map row (t_leaves t)) E0) by (intros; apply Row; auto). rewrite S1. ring. }
  exists l, (map row (t_leaves t)). split; [unfold get_samples; rewrite ess; destruct (Qltb_spec 1 e); [fold t; congruence|lra]|]. split; [exact Pm|].
  split; [rewrite map_map; reflexivity|]. split; [apply (ti_tiles _ _ _ _ I)|]. split; [rewrite Es; exact Ep|]. split; [exact S1|].
  intros c x w H. destruct (Row c x w H) as (R1 & R2 & R3). csplit; auto. rewrite Es. exact R3.
Qed.
End Calls.
