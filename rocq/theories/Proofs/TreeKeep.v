(** The tree sampler without resampling: values of the leaves, and how the leaves shrink. *)
From Coq Require Import List Bool Arith Lia QArith Lqa Permutation.
Import ListNotations.
From Verif Require Import Prelude.Py Prelude.QBase Prelude.QFacts Model.Population Model.Tree Model.TreeSampler Spec.TreeSpec Spec.Box
  Proofs.PopulationProofs Proofs.TreeCells Proofs.TreeProofs Proofs.TreeMask Proofs.TreeSamplerTree Proofs.TreeSamplerInv Proofs.TreeSamplerLeaves
  Proofs.TreeResample Proofs.TreeDensity Proofs.TreeReturn Proofs.TreeRequest Proofs.TreeGreedy Proofs.TreeFirstCall Proofs.TreeRefine Properties.TreeSamplerProps.
Open Scope Q_scope.

(** The value of a node after its first sample. *)
Lemma first_value P pi n u : p_kernel P = Haar -> node_ok P n -> unit_open P u -> nonneg pi -> n_hist n = HNone ->
  let x := kernel_draw (p_kernel P) (n_center n) (n_radius n) u in
  let nw := taken n x (pi x) (node_density P (n_center n) (n_radius n) x) in
  in_open (node_cell n) x /\ exists v, n_value (fst nw) = Fin v /\ v * power 2 (p_dims P) == pi x * (cell_volume (node_cell n) * cell_volume (node_cell n)).
Proof.
  intros Ek Nok Hu Np H. destruct (node_density_pos P n u ltac:(congruence) Nok Hu) as (X & q & Eq & Pq & Vq). specialize (Vq Ek). cbv zeta.
  pose proof Nok as (D & Pr). split.
  { rewrite Ek. destruct Hu as (L & F). apply draw_open; auto. congruence. }
  set (x := kernel_draw (p_kernel P) (n_center n) (n_radius n) u) in *. unfold taken. rewrite Eq, H. cbn [hist_list app hist_weights map fst snd set_payload n_value].
  destruct (fin_divide (pi x) q (Np x) Pq) as (E & _). rewrite E. unfold fmean. cbn [hist_weights map snd length fsumQ fold_right].
  change (fold_right faddQ (Fin 0) [Fin (pi x / q)]) with (Fin (pi x / q + 0)).
  assert (N1 : 0 < Qnat 1) by reflexivity. assert (Ed : fdivflQ (Fin (pi x / q + 0)) (Fin (Qnat 1)) = Fin ((pi x / q + 0) / Qnat 1)) by reflexivity.
  eexists. split; [reflexivity|].
  assert (Z : pi x / q == pi x * Qpow (2 * n_radius n) (p_dims P)).
  { transitivity (pi x * (q * Qpow (2 * n_radius n) (p_dims P)) / q); [rewrite Vq; field; lra|field; lra]. }
  setoid_replace ((pi x / q + 0) / Qnat 1) with (pi x / q) by (unfold Qnat; simpl; field; lra). rewrite Z, D.
  assert (Ev : cell_volume (node_cell n) == Qpow (2 * n_radius n) (p_dims P)) by (unfold cell_volume, node_cell; simpl; rewrite D, power_Qpow; reflexivity).
  rewrite Ev. assert (Er : Qpow (n_radius n) (p_dims P) * power 2 (p_dims P) == Qpow (2 * n_radius n) (p_dims P)).
  { rewrite <- !power_Qpow. clear. induction (p_dims P) as [|k IH]; simpl; [ring|]. rewrite <- IH. ring. }
  rewrite <- Er. ring.
Qed.


(** The nodes after the new ones have been sampled. *)
Lemma sampled_nodes P pi r new : forall s, NoDup new ->
  let s' := fold_left (fun s ref => node_turn P pi (rd_draw r ref) ref s) new s in
  (forall i, ~ In i new -> nth_error (t_nodes (s_tree s')) i = nth_error (t_nodes (s_tree s)) i) /\
  (forall i n, In i new -> nth_error (t_nodes (s_tree s)) i = Some n ->
     let x := kernel_draw (p_kernel P) (n_center n) (n_radius n) (rd_draw r i) in
     nth_error (t_nodes (s_tree s')) i = Some (fst (taken n x (pi x) (node_density P (n_center n) (n_radius n) x)))).
Proof.
  induction new as [|a new IH]; intros s N; simpl; [split; auto; intros i n []|]. inversion N as [|? ? Na Nn]; subst.
  assert (St : forall i, i <> a -> nth_error (t_nodes (s_tree (node_turn P pi (rd_draw r a) a s))) i = nth_error (t_nodes (s_tree s)) i).
  { intros i D. unfold node_turn. destruct (nth_error (t_nodes (s_tree s)) a) as [n|] eqn:E; auto. simpl. unfold take_sample. rewrite E. simpl. apply upd_nth_error_neq. auto. }
  destruct (IH (node_turn P pi (rd_draw r a) a s) Nn) as (H1 & H2). split.
  - intros i Hi. rewrite H1 by tauto. apply St. intros ->. tauto.
  - intros i n [<- |Hi] E.
    + rewrite (H1 a Na). unfold node_turn. rewrite E. simpl. unfold take_sample. rewrite E. simpl.
      rewrite upd_nth_error_eq; [reflexivity|apply nth_error_Some; congruence].
    + apply H2; auto. rewrite St; auto. intros ->. tauto.
Qed.
Lemma expand_fresh P whole ps : 0 < snd whole -> forall t m acc t' new, (exists k, tree_inv (p_dims P) whole k t) -> expand_nodes P t ps m acc = (t', Ok new) ->
  forall q x, leaf_of t' q x -> leaf_of t q x \/ ((length (t_nodes t) <= q)%nat /\ n_hist x = HNone).
Proof.
  intros W. induction ps as [|p ps IH]; intros t m acc t' new T E q x H; simpl in E; [inversion E; subst; auto|]. pose proof T as (k & I).
  destruct (expand_cases (p_ess P) (p_nmin P) p t) as (t1 & r1 & X & C). rewrite X in E. destruct r1 as [[nw|]|e]; [| |discriminate].
  - destruct C as (n & li & En & El & M & -> & _).
    assert (T1 : exists k, tree_inv (p_dims P) whole k (expand_at t p n li)) by (eapply (tinv_expand P whole W); eauto).
    assert (Len : (length (t_nodes t) <= length (t_nodes (expand_at t p n li)))%nat) by (unfold expand_at; simpl; rewrite app_length, upd_length; lia).
    assert (One : forall q x, leaf_of (expand_at t p n li) q x -> leaf_of t q x \/ ((length (t_nodes t) <= q)%nat /\ n_hist x = HNone)).
    { intros a y Ha. destruct (expand_at_leaf P whole t p n li k a y I En El Ha) as [(_ & Z)|(Z & _)]; [auto|]. right. split; auto. apply (expand_at_new t p n li a Z y (proj2 Ha)). }
    cbv zeta in E. destruct (m <? length (acc ++ nw))%nat; [inversion E; subst; auto|]. destruct (IH _ _ _ _ _ T1 E q x H) as [G|(G1 & G2)]; auto. right. split; auto. lia.
  - subst t1. eapply IH; eauto.
Qed.

(** A turn of the simple flow without resampling, with one sample per leaf: the leaves are old ones, unchanged, or new ones, sampled once. *)
Lemma turn_leaves P pi need r s s' : proper (p_lo P) (p_hi P) -> p_flow P = Simple -> p_leaf_resampling P = false -> one_mode P -> settled1 P s ->
  turn P pi need r s = Done s' ->
  settled1 P s' /\
  (exists t new, expand_nodes P (s_tree s) (lambda_hat (s_tree s) r) (p_parallel P) [] = (t, Ok new) /\ same t (s_tree s')) /\
  forall i n', leaf_of (s_tree s') i n' -> leaf_of (s_tree s) i n' \/
    ((length (t_nodes (s_tree s)) <= i)%nat /\ exists n, node_ok P n /\ n_hist n = HNone /\ node_cell n' = node_cell n /\
     let x := kernel_draw (p_kernel P) (n_center n) (n_radius n) (rd_draw r i) in
     n' = fst (taken n x (pi x) (node_density P (n_center n) (n_radius n) x))).
Proof.
  intros B F NR O S E. destruct (turn1 P pi need r s B F S) as (s0 & E0 & S0). assert (s0 = s') by congruence. subst s0. split; auto.
  pose proof S as (T & G). pose proof T as (k & I). unfold turn in E. rewrite F in E. unfold simple_turn, maybe_resample in E. rewrite NR in E.
  pose proof (proper_radius _ _ B) as W.
  destruct (expand_nodes_good P pi (whole_cell P) (Q1 P) anyU W (Q1_hist P) (fun n0 u0 _ _ H => Q1_take P n0 _ _ _ _ _ H) (lambda_hat (s_tree s) r) (s_tree s) (p_parallel P) [] T G)
    as (t & new & X & T' & G' & Nn & Ln).
  - eapply Permutation_NoDup; [apply Permutation_sym, lambda_perm|eapply leaves_nodup; eauto].
  - constructor.
  - intros p H. split; [|intros []]. eapply Permutation_in; [apply lambda_perm|exact H].
  - intros a [].
  - rewrite X in E. inversion E as [E']. clear E. pose proof (same_nodes P pi r new (with_tree s t)) as Sm. cbn [with_tree s_tree] in Sm.
    split; [exists t, new; auto|]. intros i n' (Hi & En'). destruct Sm as (Sl & _). rewrite Sl in Hi.
    destruct T' as (k' & I'). destruct (leaf_node _ _ _ _ _ I' Hi) as (n & En & Lnf).
    destruct (sampled_nodes P pi r new (with_tree s t) Nn) as (K1 & K2). cbn [with_tree s_tree] in K1, K2.
    destruct (proj1 (G' _ _ En) Lnf) as (x & w & _ & _ & [(In1 & Hn)|((l & El & _ & _ & L1) & Hm)]).
    + right. destruct (expand_fresh P (whole_cell P) _ W _ _ _ _ _ T X i n (conj Hi En)) as [(Hl & Eo)|(Hl & _)].
      * exfalso. destruct (leaf_node _ _ _ _ _ I Hl) as (no & Eno & Lo). assert (no = n) by congruence. subst no.
        destruct (proj1 (G _ _ Eno) Lo) as (x0 & w0 & _ & _ & [([] & _)|((l & El & _) & _)]). congruence.
      * split; auto. exists n. destruct (tinv_node P (whole_cell P) W t i n (ex_intro _ k' I') En) as (_ & Nok). specialize (K2 i n In1 En). cbv zeta in K2.
        rewrite K2 in En'. inversion En'. csplit; auto; reflexivity.
    + assert (Ni : ~ In i new). { intros Hi'. specialize (Hm Hi'). rewrite El, (one_never_refused P l O (L1 O)) in Hm. discriminate. }
      rewrite (K1 i Ni), En in En'. inversion En'; subst n'. left.
      destruct (expand_fresh P (whole_cell P) _ W _ _ _ _ _ T X i n (conj Hi En)) as [G2|(_ & Hn)]; auto. congruence.
Qed.

(** The returned rows of a tree whose leaves hold weights proportional to density * volume. *)
Lemma weighed_rows P e pi s' : proper (p_lo P) (p_hi P) -> p_ess P = Some e -> 1 < e -> settled1 P s' -> weighed pi (s_tree s') -> unit_sum (s_tree s') ->
  exists l rows, get_samples P (s_tree s') = Ok l /\ Permutation l (map (fun row => (snd (fst row), Fin (snd row))) rows) /\
    map (fun row => fst (fst row)) rows = leaf_cells (s_tree s') /\ tiles (leaf_cells (s_tree s')) (whole_cell P) /\ 0 < estimate pi (map fst rows) /\ Qsum (map snd rows) == 1 /\
    forall c x w, In (c, x, w) rows -> 0 < snd c /\ in_closed c x /\ w * estimate pi (map fst rows) == pi x * cell_volume c.
Proof.
  intros B ess ess1 S (E0 & Ep & W) (ws & Ews & Sw).
  pose proof (proj1 S) as T. pose proof T as (k & I). set (t := s_tree s') in *.
  destruct (cache_count P e s' ess ess1 S) as (l & El & _). unfold get_samples in El. rewrite ess in El. destruct (Qltb_spec 1 e) as [_|X]; [|lra].
  pose proof (cached_F2 _ _ _ _ I) as F2. injection El as El. fold t in El. rewrite El in F2.
  set (g := fun i => (nth i (t_samples t) [], nth i (t_weights t) NaN)).
  assert (Lg : l = map g (masked_refs t)).
  { clear - F2. induction F2 as [|i (x, w) refs l (A1 & A2) F2 IH]; simpl; auto. f_equal; auto. unfold g. simpl in *.
    rewrite (nth_error_nth _ _ _ A1), (nth_error_nth _ _ _ A2). reflexivity. }
  set (row := fun i => (leaf_cell t i, nth i (t_samples t) ([] : vec), match nth i (t_weights t) NaN with Fin w => w | _ => 0 end)).
  assert (Gr : forall i, In i (t_leaves t) -> g i = (snd (fst (row i)), Fin (snd (row i)))).
  { intros i Hi. destruct (W i Hi) as (x & w & _ & Ew & _). unfold g, row. simpl. rewrite (nth_error_nth _ _ _ Ew). reflexivity. }
  assert (Pm : Permutation l (map (fun row => (snd (fst row), Fin (snd row))) (map row (t_leaves t)))).
  { rewrite Lg, map_map. rewrite (Permutation_map g (masked_refs_perm _ _ _ _ I)). erewrite map_ext_in; [apply Permutation_refl|]. intros i Hi. apply Gr. auto. }
  assert (Row : forall c x w, In (c, x, w) (map row (t_leaves t)) -> 0 < snd c /\ in_closed c x /\ w * E0 == pi x * cell_volume c).
  { intros c x w H. apply in_map_iff in H. destruct H as (i & H & Hi). destruct (W i Hi) as (x0 & w0 & Ex & Ew & Cl & _ & Wi).
    unfold row in H. rewrite (nth_error_nth _ _ _ Ex), (nth_error_nth _ _ _ Ew) in H. inversion H; subst c x w. csplit; auto.
    destruct (leaf_node _ _ _ _ _ I Hi) as (nd & En & _). rewrite (leaf_cell_of _ _ _ En). simpl.
    destruct (tinv_node P (whole_cell P) (proper_radius _ _ B) t i nd T En) as (_ & _ & Rp). exact Rp. }
  assert (S1 : Qsum (map snd (map row (t_leaves t))) == 1).
  { rewrite <- Sw. assert (Em : map snd l = map Fin ws).
    { rewrite <- Ews, <- El. pose proof (mask_length _ _ _ _ I) as ML. apply map_snd_combine.
      rewrite !masked_length; auto; rewrite ?(ti_samples _ _ _ _ I), ?(ti_weights _ _ _ _ I), ML; auto. }
    assert (Pw : Permutation (map Fin ws) (map Fin (map snd (map row (t_leaves t))))).
    { rewrite <- Em. rewrite (Permutation_map snd Pm). rewrite !map_map. simpl. apply Permutation_refl. }
    apply Permutation_sym in Pw. apply (Permutation_map (fun w => match w with Fin q => q | _ => 0 end)) in Pw. rewrite !map_map in Pw. simpl in Pw.
    rewrite map_id in Pw. rewrite map_map. apply Qsum_perm. exact Pw. }
  assert (Es : estimate pi (map fst (map row (t_leaves t))) == E0).
  { rewrite <- (estimate_rows pi (map row (t_leaves t)) E0) by (intros; apply Row; auto). rewrite S1. ring. }
  exists l, (map row (t_leaves t)). split; [unfold get_samples; rewrite ess; destruct (Qltb_spec 1 e); [fold t; congruence|lra]|]. split; [exact Pm|].
  split; [rewrite map_map; reflexivity|]. split; [apply (ti_tiles _ _ _ _ I)|]. split; [rewrite Es; exact Ep|]. split; [exact S1|].
  intros c x w H. destruct (Row c x w H) as (R1 & R2 & R3). csplit; auto. rewrite Es. exact R3.
Qed.

Section Keep.
Variables (P : tp_params) (m Mx e : Q).
Hypothesis B : proper (p_lo P) (p_hi P).
Hypothesis mpos : 0 < m.
Hypothesis mMx : m <= Mx.
Hypothesis kernel : p_kernel P = Haar.
Hypothesis flow : p_flow P = Simple.
Hypothesis no_re : p_leaf_resampling P = false.
Hypothesis ess : p_ess P = Some e.
Hypothesis ess1 : 1 < e.
Hypothesis nmin : (p_nmin P <= 1)%nat.
Let O : one_mode P.
Proof. exists e. repeat split; auto. lra. Qed.

Definition open_draws (r : tp_round) : Prop := forall i, unit_open P (rd_draw r i).
(** Every leaf that was sampled has value density * volume^2 / 2^d, for a density between the bounds. *)
Definition worth (t : tree) : Prop := forall i n, leaf_of t i n -> exists v p, n_value n = Fin v /\ m <= p /\ p <= Mx /\ v * power 2 (p_dims P) == p * (vol t i * vol t i) /\
  exists x w, n_hist n = HList [(x, w)] /\ in_open (node_cell n) x.
Definition kept (s : tp) : Prop := settled1 P s /\ grown (p_lo P) (p_hi P) (s_tree s) /\ bal P m Mx (s_tree s) /\ worth (s_tree s).
Lemma worth_valued t : worth t -> valued m Mx t.
Proof.
  intros H. right. exists (power 2 (p_dims P)). split; [apply power_pos; reflexivity|]. intros i n L. destruct (H i n L) as (v & p & V1 & V2 & V3 & V4 & _). exists v, p. auto.
Qed.

Lemma turn_kept pi need r s s' : bounded P m Mx pi -> open_draws r -> kept s -> turn P pi need r s = Done s' -> kept s'.
Proof.
  intros Bd U (S & G & Bl & V) E. pose proof (ok_turn P pi need r s G) as G'. rewrite E in G'. cbn [out_state] in G'.
  destruct (turn_leaves P pi need r s s' B flow no_re O S E) as (S' & (t & new & X & Sm) & L).
  assert (Vs : valued m Mx (s_tree s)) by (apply worth_valued; auto).
  assert (May : forall i n, leaf_of (s_tree s) i n -> may_expand (p_ess P) (p_nmin P) (n_hist n) = Ok true).
  { intros i n (Hi & En). destruct (settled_histories P (whole_cell P) (Q1 P) (Q1_hist P) s i S Hi) as (n' & l & x & w & En' & El & _ & _ & _ & (l0 & E0 & _ & _ & One)).
    assert (n' = n) by congruence. subst n'. rewrite El in E0. inversion E0; subst l0. rewrite El. apply one_never_refused; auto. }
  assert (Bt : bal P m Mx t) by (eapply (split_bal P m Mx B mpos s t new r); eauto; exact (proj1 S)).
  assert (W : worth (s_tree s')).
  { pose proof (proj1 S') as (k' & I'). intros i n' Lf. destruct (L i n' Lf) as [Lo|(Hi & n & Nok & Hn & Ec & Ev)].
    - destruct (V i n' Lo) as (v & p & V1 & V2 & V3 & V4 & V5). exists v, p. split; auto. split; auto. split; auto. split; auto. unfold vol in *.
        rewrite (leaf_cell_of _ _ _ (proj2 Lf)). rewrite (leaf_cell_of _ _ _ (proj2 Lo)) in V4. exact V4.
    - cbv zeta in Ev. destruct (first_value P pi n (rd_draw r i) kernel Nok (U i) (proj1 Bd) Hn) as (Op & v & V1 & V2). cbv zeta in V1, V2, Op.
      set (x := kernel_draw (p_kernel P) (n_center n) (n_radius n) (rd_draw r i)) in *. exists v, (pi x). rewrite Ev. split; [exact V1|].
      assert (Cw : in_closed (whole_cell P) x).
      { destruct (ti_tiles _ _ _ _ I') as (_ & Wi & _ & _). apply (Wi (node_cell n')); [|rewrite Ec; apply open_closed; auto].
        unfold leaf_cells. apply in_map_iff. exists i. split; [apply leaf_cell_of; apply Lf|apply Lf]. }
      destruct (proj2 Bd x Cw) as (B1 & B2). split; auto. split; auto. split; [unfold vol; rewrite (leaf_cell_of _ _ _ (proj2 Lf)), Ec; exact V2|].
      exists x, (snd (taken n x (pi x) (node_density P (n_center n) (n_radius n) x))). unfold taken. cbn [fst snd n_hist set_payload]. rewrite Hn. split; [reflexivity|exact Op]. }
  split; auto. split; auto. split; [eapply bal_same; eauto|auto].
Qed.
Lemma update_kept s : kept s -> kept (update_model s).
Proof.
  intros (S & G & Bl & V). split; [|split; [|split]].
  - apply (update_settled P (whole_cell P) (Q1 P) anyW); auto; try (intros; exact I).
  - apply grown_normalize. auto.
  - eapply bal_same; [apply same_normalize|auto].
  - assert (En : t_nodes (self_normalize (s_tree s)) = t_nodes (s_tree s)) by (unfold self_normalize; destruct (fgtQ _ 0); reflexivity).
    intros i n (Hi & Hn). simpl in Hi, Hn. rewrite normalize_leaves in Hi. rewrite En in Hn. destruct (V i n (conj Hi Hn)) as (v & p & V1 & V2 & V3 & V4 & V5).
    exists v, p. split; auto. split; auto. split; auto. split; auto. simpl. unfold vol, leaf_cell. rewrite En. exact V4.
Qed.
Lemma loop_kept pi n timeout tape : bounded P m Mx pi -> Forall open_draws tape -> forall el s s', kept s -> tp_loop P pi n timeout tape el s = Done s' -> kept s'.
Proof.
  intros Bd U el s s' K E. destruct (loop_end _ _ _ _ _ _ _ _ E) as (s1 & el1 & -> & _ & _ & H). apply update_kept. apply (H kept); auto.
  intros need r s0 s2 K0 Ir T. rewrite Forall_forall in U. eapply turn_kept; eauto.
Qed.
Lemma root_kept pi u s : bounded P m Mx pi -> unit_open P u -> s_tree s = tree_new (p_lo P) (p_hi P) \/ kept s -> kept (root_turn P pi u s).
Proof.
  intros Bd Hu [E|Ev].
  - set (n0 := node_new (root_center (p_lo P) (p_hi P)) (root_radius (p_lo P) (p_hi P)) 0 (Some 0%nat) 0 (Fin 0)).
    assert (En : nth_error (t_nodes (s_tree s)) 0 = Some n0) by (rewrite E; reflexivity).
    assert (L : t_leaves (s_tree (root_turn P pi u s)) = [0%nat]) by (rewrite (proj1 (same_root P pi u s)), E; reflexivity).
    assert (Ls : length (p_lo P) = length (p_hi P)) by (apply is_box_length, proper_box, B).
    assert (I : tree_inv (p_dims P) (whole_cell P) 0 (s_tree s)) by (rewrite E; apply new_inv; auto).
    destruct (tinv_node P (whole_cell P) (proper_radius _ _ B) (s_tree s) 0 n0 (ex_intro _ 0%nat I) En) as (_ & Nok).
    split; [apply root1; auto|]. split; [apply ok_root; rewrite E; apply grown_new|]. split; [apply one_leaf_bal; auto; rewrite L; reflexivity|].
    intros i n (Hi & Hn). rewrite L in Hi. destruct Hi as [<- |[]].
    destruct (first_value P pi n0 u kernel Nok Hu (proj1 Bd) eq_refl) as (Op & v & V1 & V2). cbv zeta in V1, V2, Op.
    set (x := kernel_draw (p_kernel P) (n_center n0) (n_radius n0) u) in *.
    assert (Ex : n = fst (taken n0 x (pi x) (node_density P (n_center n0) (n_radius n0) x))).
    { unfold root_turn in Hn. rewrite En in Hn. simpl n_hist in Hn. cbv iota in Hn. simpl s_tree in Hn.
      assert (Ez : forall t, t_nodes (self_normalize t) = t_nodes t) by (intros t; unfold self_normalize; destruct (fgtQ _ 0); reflexivity).
      rewrite Ez in Hn. unfold take_sample in Hn. rewrite En in Hn. cbn [t_nodes put_cache put_node] in Hn. rewrite upd_nth_error_eq in Hn by (apply nth_error_Some; congruence).
      inversion Hn. reflexivity. }
    exists v, (pi x). rewrite Ex. split; [exact V1|]. destruct (proj2 Bd x) as (B1 & B2); [apply open_closed; exact Op|]. split; auto. split; auto.
    split; [unfold vol; rewrite (leaf_cell_of _ _ _ Hn), Ex; exact V2|].
    exists x, (snd (taken n0 x (pi x) (node_density P (n_center n0) (n_radius n0) x))). split; [reflexivity|exact Op].
  - pose proof Ev as (S & _). rewrite (root_noop P pi (whole_cell P) (Q1 P) (Q1_hist P) u s S). auto.
Qed.
Definition open_fair (o : tp_op) : Prop := match o with TpCall pi n timeout u tape => bounded P m Mx pi /\ unit_open P u /\ Forall open_draws tape | _ => True end.
Lemma reach_kept ops s : tp_reachable P ops s -> Forall (fun ob => open_fair (fst ob)) ops -> s_tree s = tree_new (p_lo P) (p_hi P) \/ kept s.
Proof.
  assert (Keep : forall s s', s_tree s' = s_tree s -> (s_tree s = tree_new (p_lo P) (p_hi P) \/ kept s) -> s_tree s' = tree_new (p_lo P) (p_hi P) \/ kept s').
  { intros s1 s2 E [H|(H1 & H2 & H3 & H4)]; [left; congruence|right]. unfold kept, settled1, settled in *. rewrite E. auto. }
  induction 1 as [|o ops s s' R IH E|o ops s x s' R IH E]; intros F; [left; reflexivity| |]; inversion F as [|? ? F1 F2]; subst; specialize (IH F2); destruct o as [pi n timeout u tape|k sel draw|]; simpl in E, F1.
  - right. destruct F1 as (Bd & Hu & U). eapply (loop_kept pi n timeout tape Bd U 0); [apply root_kept; eauto|exact E].
  - destruct (model_sample _ _ _ _ _); inversion E. eapply Keep; eauto; reflexivity.
  - inversion E. left. reflexivity.
  - exfalso. assert (S : s_tree s = tree_new (p_lo P) (p_hi P) \/ settled1 P s) by (destruct IH as [IH|(IH & _)]; auto).
    pose proof (call1 P s pi n timeout u tape B flow S) as C. rewrite ess in C. destruct C as (s2 & [C|C] & _); rewrite C in E; discriminate.
  - destruct (model_sample _ _ _ _ _); inversion E. eapply Keep; eauto; reflexivity.
  - discriminate.
Qed.

(** The weights of a call on a fresh tree. *)
Lemma first_weighed pi n timeout u tape s s' : bounded P m Mx pi -> unit_open P u -> Forall open_draws tape -> s_tree s = tree_new (p_lo P) (p_hi P) ->
  tp_call P pi n timeout u tape s = Done s' -> kept s' /\ weighed pi (s_tree s') /\ unit_sum (s_tree s').
Proof.
  intros Bd Hu U Es E. pose proof (root_kept pi u s Bd Hu (or_introl Es)) as K0. unfold tp_call in E.
  split; [eapply loop_kept; eauto|]. destruct (loop_end _ _ _ _ _ _ _ _ E) as (s1 & el & -> & _ & _ & H).
  assert (Ps : positive_kernel P) by (intros X; congruence). pose proof Bd as (Np & _).
  assert (J : exists c, 0 < c /\ settled P (whole_cell P) (QQ P pi c) s1 /\ (c == 1 \/ fresh s1)).
  { apply (H (fun s => exists c, 0 < c /\ settled P (whole_cell P) (QQ P pi c) s /\ (c == 1 \/ fresh s))).
    - destruct (root_share P pi B Ps flow Np u s Es Hu) as (c & Hc & S & Fr). exists c. auto.
    - intros need r s0 s2 (c & _ & S & C) Ir T. rewrite Forall_forall in U. destruct (turn_share P pi B Ps flow no_re O Np need r s0 c (U _ Ir) S C) as (s3 & T3 & S3).
      exists 1. split; [lra|]. split; [congruence|left; reflexivity]. }
  assert (K1 : kept s1).
  { apply (H kept); auto. intros need r s0 s2 K Ir T. rewrite Forall_forall in U. eapply turn_kept; eauto. }
  destruct J as (c & Hc & S & _). pose proof S as (T & G). pose proof T as (k & I).
  cut (weighed pi (s_tree s1)); [intros W; apply (normalize_weighed P); auto|].
  exists (1 / c). split; [apply Qlt_shift_div_l; lra|]. intros i Hi. destruct (leaf_node _ _ _ _ _ I Hi) as (nd & En & Ln).
  destruct (proj1 (G _ _ En) Ln) as (x & w & Ex & Ew & [([] & _)|(((l & L1 & _ & L2 & _) & q & v & Eq & Pq & -> & Pv & V) & _)]).
  exists x, v. split; auto. split; auto. destruct (tinv_node P (whole_cell P) (proper_radius _ _ B) _ i nd T En) as (_ & Nok & Pr).
  destruct K1 as (_ & _ & _ & K1). destruct (K1 i nd (conj Hi En)) as (_ & _ & _ & _ & _ & _ & x0 & w0 & Eh & Op).
  assert (x0 = x) by (rewrite Eh in L1; inversion L1; subst l; exact L2). subst x0.
  assert (Cl : in_closed (node_cell nd) x) by (apply open_closed; auto).
  rewrite (leaf_cell_of _ _ _ En). split; auto.
  assert (Wh : in_closed (whole_cell P) x).
  { destruct (ti_tiles _ _ _ _ I) as (_ & Wi & _ & _). apply (Wi (node_cell nd)); auto. unfold leaf_cells. apply in_map_iff. exists i. split; auto. apply leaf_cell_of; auto. }
  destruct (proj2 Bd x Wh) as (Pm & _).
  assert (Vq : q * vol (s_tree s1) i == 1).
  { unfold node_density in Eq. rewrite kernel in Eq. unfold node_cell in Op. rewrite (open_inlier _ _ _ Op) in Eq. unfold vol. rewrite (leaf_cell_of _ _ _ En). unfold cell_volume, node_cell. simpl.
    pose proof (Qpow_positive (n_radius nd * 2) (length (n_center nd)) ltac:(lra)) as Pp. unfold fdivQ in Eq.
    destruct (Qeq_bool_spec (Qpow (n_radius nd * 2) (length (n_center nd))) 0); [lra|]. inversion Eq as [Eq']. assert (Z : power (2 * n_radius nd) (length (n_center nd)) == Qpow (n_radius nd * 2) (length (n_center nd))) by (rewrite <- (power_Qpow (n_radius nd * 2)); apply power_eq; ring).
    rewrite Z. field. lra. }
  assert (Ve : v == c * pi x * vol (s_tree s1) i).
  { setoid_replace v with (v * (q * vol (s_tree s1) i)) by (rewrite Vq; ring). setoid_replace (v * (q * vol (s_tree s1) i)) with (v * q * vol (s_tree s1) i) by ring. rewrite V. reflexivity. }
  assert (Vp : 0 < vol (s_tree s1) i) by (apply (vol_positive P (whole_cell P)); auto; apply (proper_radius _ _ B)).
  split; [rewrite Ve; apply Qmult_lt_0_compat; auto; apply Qmult_lt_0_compat; auto; lra|]. rewrite Ve. field. lra.
Qed.
End Keep.
