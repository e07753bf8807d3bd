(** A leaf whose only sample hit a zero of the target is never refined while the other leaves have positive values. *)
From Coq Require Import List Bool Arith Lia QArith Lqa Permutation Sorted.
Import ListNotations.
From Verif Require Import Prelude.Py Prelude.QBase Prelude.QFacts Model.Population Model.Tree Model.TreeSampler Spec.TreeSpec Spec.Box Spec.ResetSpec
  Proofs.PopulationProofs Proofs.TreeCells Proofs.TreeProofs Proofs.TreeMask Proofs.TreeSamplerTree Proofs.TreeSamplerInv Proofs.TreeSamplerLeaves
  Proofs.TreeResample Proofs.TreeDensity Proofs.TreeReturn Proofs.TreeRequest Proofs.TreeGreedy Proofs.TreeFirstCall Proofs.TreeRefine Proofs.TreeKeep.
Open Scope Q_scope.

Section Starve.
Variables (P : tp_params) (e : Q) (pi : vec -> Q) (A : nat) (nA : node).
Hypothesis B : proper (p_lo P) (p_hi P).
Hypothesis kernel : p_kernel P = Haar.
Hypothesis flow : p_flow P = Simple.
Hypothesis no_re : p_leaf_resampling P = false.
Hypothesis ess : p_ess P = Some e.
Hypothesis ess1 : 1 < e.
Hypothesis nmin : (p_nmin P <= 1)%nat.
Hypothesis par : (p_parallel P < 2 ^ p_dims P)%nat.
Hypothesis pi_nn : nonneg pi.
Hypothesis pi_pos : forall x, in_closed (whole_cell P) x -> ~ in_open (node_cell nA) x -> 0 < pi x.
Let O : one_mode P.
Proof. exists e. repeat split; auto. lra. Qed.

Definition one_inside (n : node) : Prop := exists x w, n_hist n = HList [(x, w)] /\ in_open (node_cell n) x.
Definition starved (s : tp) : Prop :=
  settled1 P s /\ leaf_of (s_tree s) A nA /\ (exists z, n_value nA = Fin z /\ z == 0) /\ one_inside nA /\ (2 <= length (t_leaves (s_tree s)))%nat /\
  forall i n, leaf_of (s_tree s) i n -> i <> A -> one_inside n /\ exists v, n_value n = Fin v /\ 0 < v.

Lemma separate_leaves s i n x : settled1 P s -> leaf_of (s_tree s) A nA -> leaf_of (s_tree s) i n -> in_open (node_cell n) x -> in_open (node_cell nA) x -> i = A.
Proof.
  intros ((k & I) & _) (HA & EA) (Hi & Ei) O1 O2. apply In_nth_error in HA, Hi. destruct HA as (a & Ea), Hi as (b & Eb).
  destruct (ti_tiles _ _ _ _ I) as (_ & _ & Sp & _). assert (b = a).
  { apply (Sp b a (node_cell n) (node_cell nA) x); auto; unfold leaf_cells; rewrite nth_error_map.
    - rewrite Eb. simpl. rewrite (leaf_cell_of _ _ _ Ei). reflexivity.
    - rewrite Ea. simpl. rewrite (leaf_cell_of _ _ _ EA). reflexivity. }
  congruence.
Qed.

Lemma turn_starved need r s s' : open_draws P r -> starved s -> turn P pi need r s = Done s' -> starved s'.
Proof.
  intros U (S & LA & (z & VA & Z0) & OA & L2 & H) E. pose proof S as ((k & I) & G).
  destruct (turn_leaves P pi need r s s' B flow no_re O S E) as (S' & (t & new & X & (Sl & Sc)) & L).
  assert (Nv : forall q, In q (t_leaves (s_tree s)) -> leaf_value (s_tree s) q <> NaN).
  { intros q Hq. destruct (leaf_node _ _ _ _ _ I Hq) as (n & En & _). unfold leaf_value. rewrite En. destruct (Nat.eq_dec q A) as [-> |D].
    - assert (n = nA) by (destruct LA; congruence). subst n. rewrite VA. discriminate.
    - destruct (H q n (conj Hq En) D) as (_ & v & -> & _). discriminate. }
  assert (Srt : StronglySorted (after (leaf_value (s_tree s))) (lambda_hat (s_tree s) r)).
  { unfold lambda_hat. destruct (existsb _ _) eqn:Ex.
    - apply existsb_exists in Ex. destruct Ex as (q & Hq & Nq). destruct (leaf_value (s_tree s) q) eqn:V; try discriminate. exfalso. eapply Nv; eauto.
    - apply sort_sorted. auto. }
  pose proof (lambda_perm (s_tree s) r) as Pm. pose proof (leaves_nodup _ _ _ _ I) as ND.
  destruct (lambda_hat (s_tree s) r) as [|h rest] eqn:El; [apply Permutation_length in Pm; simpl in Pm; lia|].
  assert (Hh : In h (t_leaves (s_tree s))) by (apply (Permutation_in _ Pm); left; auto).
  assert (Dh : h <> A).
  { intros ->. assert (Lr : (1 <= length rest)%nat) by (apply Permutation_length in Pm; simpl in Pm; lia). destruct rest as [|b rest]; [simpl in Lr; lia|].
    assert (Hb : In b (t_leaves (s_tree s))) by (apply (Permutation_in _ Pm); right; left; auto).
    assert (Db : b <> A). { intros ->. apply (Permutation_NoDup (Permutation_sym Pm)) in ND. inversion ND as [|? ? N1 _]. apply N1. left. auto. }
    inversion Srt as [|? ? _ F]; subst. inversion F as [|? ? F1 _]; subst. unfold after, leaf_value in F1. rewrite (proj2 LA), VA in F1.
    destruct (leaf_node _ _ _ _ _ I Hb) as (nb & Eb & _). rewrite Eb in F1. destruct (H b nb (conj Hb Eb) Db) as (_ & v & Ev & Pv). rewrite Ev in F1. simpl in F1. apply Qltb_false in F1. lra. }
  destruct (settled_histories P (whole_cell P) (Q1 P) (Q1_hist P) s h S Hh) as (nh & l & x & w & En & Eh & Lf & _ & _ & (l0 & E0 & _ & _ & One)).
  rewrite Eh in E0. inversion E0; subst l0. pose proof Lf as Lf'. unfold is_leaf in Lf'. destruct (n_leaf nh) as [li|] eqn:Eli; [|discriminate].
  destruct (ti_node _ _ _ _ I _ _ En) as (_ & Dd & _).
  assert (Xe : expand (p_ess P) (p_nmin P) h (s_tree s) = (expand_at (s_tree s) h nh li, Ok (Some (seq (length (t_nodes (s_tree s))) (2 ^ p_dims P))))).
  { unfold expand. rewrite En, Eli, Eh, (one_never_refused P l O (One O)), children_length, Dd. reflexivity. }
  simpl in X. rewrite Xe in X. cbv zeta in X. simpl app in X. rewrite seq_length in X. destruct (Nat.ltb_spec (p_parallel P) (2 ^ p_dims P)) as [_|Z]; [|lia].
  inversion X; subst t new. clear X. assert (LhN : (h < length (t_nodes (s_tree s)))%nat) by (apply nth_error_Some; congruence).
  assert (LAN : (A < length (t_nodes (s_tree s)))%nat) by (apply nth_error_Some; destruct LA; congruence).
  assert (Wr : 0 <= snd (whole_cell P)) by (pose proof (proper_radius _ _ B); unfold whole_cell; simpl in *; lra).
  pose proof (expand_inv _ _ _ _ _ _ _ _ _ I Wr Xe) as I1.
  assert (InA : In A (t_leaves (s_tree s'))).
  { rewrite Sl. apply (leaf_in _ _ _ _ A nA I1); [rewrite expand_at_old; auto; apply LA|]. apply (leaf_in _ _ _ _ A nA I); apply LA. }
  pose proof (proj1 S') as (k' & I').
  assert (LA' : leaf_of (s_tree s') A nA).
  { split; auto. destruct (leaf_node _ _ _ _ _ I' InA) as (n' & En' & _). destruct (L A n' (conj InA En')) as [(_ & Eo)|(Z & _)]; [|lia].
    destruct LA. congruence. }
  split; auto. split; auto. split; [exists z; auto|]. split; auto. split.
  { rewrite Sl. unfold expand_at. cbn [t_leaves]. rewrite app_length, upd_length. lia. }
  intros i n' Li Di. destruct (L i n' Li) as [Lo|(Hi & n & Nok & Hn & Ec & Ev)]; [apply H with i; auto|]. cbv zeta in Ev.
  destruct (first_value P pi n (rd_draw r i) kernel Nok (U i) pi_nn Hn) as (Op & v & V1 & V2). cbv zeta in V1, V2, Op.
  set (y := kernel_draw (p_kernel P) (n_center n) (n_radius n) (rd_draw r i)) in *. split.
  { exists y, (snd (taken n y (pi y) (node_density P (n_center n) (n_radius n) y))). rewrite Ec. split; [|exact Op]. rewrite Ev. unfold taken. cbn [fst snd n_hist set_payload]. rewrite Hn. reflexivity. }
  exists v. rewrite Ev. split; [exact V1|].
  assert (Out : ~ in_open (node_cell nA) y). { intros Oa. apply Di. apply (separate_leaves s' i n' y); auto. rewrite Ec. auto. }
  assert (Wh : in_closed (whole_cell P) y).
  { destruct (ti_tiles _ _ _ _ I') as (_ & Wi & _ & _). apply (Wi (node_cell n')); [|rewrite Ec; apply open_closed; auto].
    unfold leaf_cells. apply in_map_iff. exists i. split; [apply leaf_cell_of; apply Li|apply Li]. }
  pose proof (pi_pos y Wh Out) as Pp. destruct Nok as (Dn & Pr).
  assert (Vp : 0 < cell_volume (node_cell n)) by (apply power_pos; unfold node_cell; simpl; lra).
  assert (P2 : 0 < power 2 (p_dims P)) by (apply power_pos; reflexivity).
  assert (0 < v * power 2 (p_dims P)) by (rewrite V2; apply Qmult_lt_0_compat; auto; apply Qmult_lt_0_compat; auto). clear - H0 P2. nra.
Qed.
Lemma update_starved s : starved s -> starved (update_model s).
Proof.
  intros (S & LA & VA & OA & L2 & H). assert (En : t_nodes (self_normalize (s_tree s)) = t_nodes (s_tree s)) by (unfold self_normalize; destruct (fgtQ _ 0); reflexivity).
  assert (Lf : forall i n, leaf_of (s_tree (update_model s)) i n <-> leaf_of (s_tree s) i n) by (intros i n; unfold leaf_of; simpl; rewrite normalize_leaves, En; tauto).
  split; [apply (update_settled P (whole_cell P) (Q1 P) anyW); auto; try (intros; exact I)|]. split; [apply Lf; auto|]. split; auto. split; auto.
  split; [simpl; rewrite normalize_leaves; auto|]. intros i n Li. apply H. apply Lf. auto.
Qed.
Definition calm (o : tp_op) : Prop :=
  match o with TpCall pi' n timeout u tape => pi' = pi /\ Forall (open_draws P) tape | TpSample _ _ _ => True | TpReset => False end.
Lemma call_starved n timeout u tape s o : Forall (open_draws P) tape -> starved s -> tp_call P pi n timeout u tape s = o -> match o with Failed _ _ => False | Done s' => starved s' | Running _ => True end.
Proof.
  intros U St E. pose proof St as (S & _). pose proof (call1 P s pi n timeout u tape B flow (or_intror S)) as C. rewrite ess in C.
  destruct C as (s2 & [C|C] & _); rewrite C in E; subst o; auto.
  unfold tp_call in C. rewrite (root_noop P pi (whole_cell P) (Q1 P) (Q1_hist P) u s S) in C.
  destruct (loop_end _ _ _ _ _ _ _ _ C) as (s1 & el1 & -> & _ & _ & H). apply update_starved. apply (H starved); auto.
  intros need r s0 s3 K0 Ir T. rewrite Forall_forall in U. eapply turn_starved; eauto.
Qed.
Lemma later_starved later s b : leads_to (tp_run P) s later b -> Forall (fun of => calm (fst of)) later -> starved s -> starved b.
Proof.
  assert (Keep : forall s1 s2, s_tree s2 = s_tree s1 -> starved s1 -> starved s2).
  { intros s1 s2 E. unfold starved, settled1, settled. rewrite E. auto. }
  induction 1 as [|o later b c Lb IH E|o later b x c Lb IH E]; intros F Hs; auto; inversion F as [|? ? F1 F2]; subst; specialize (IH F2 Hs);
    destruct o as [pi' n timeout u tape|m sel draw|]; simpl in F1, E; try contradiction.
  - destruct F1 as (-> & U). apply (call_starved n timeout u tape b _ U IH E).
  - destruct (model_sample _ _ _ _ _); inversion E; subst; (eapply Keep; [|exact IH]; reflexivity).
  - destruct F1 as (-> & U). destruct (call_starved n timeout u tape b _ U IH E).
  - destruct (model_sample _ _ _ _ _); inversion E; subst; (eapply Keep; [|exact IH]; reflexivity).
Qed.
(** What is returned then. *)
Lemma starved_rows s : starved s -> exists l xA others, get_samples P (s_tree s) = Ok l /\ Permutation (map fst l) (xA :: others) /\ in_open (node_cell nA) xA /\
  Forall (fun x => ~ in_open (node_cell nA) x) others.
Proof.
  intros (S & LA & VA & (xA & wA & HA & OA) & L2 & H). pose proof S as ((k & I) & G). set (t := s_tree s) in *.
  destruct (cache_count P e s ess ess1 S) as (l & El & _). exists l, xA. 
  assert (Row : forall i, In i (t_leaves t) -> exists n x, nth_error (t_nodes t) i = Some n /\ nth_error (t_samples t) i = Some x /\ in_open (node_cell n) x /\ (i = A -> x = xA)).
  { intros i Hi. destruct (settled_histories P (whole_cell P) (Q1 P) (Q1_hist P) s i S Hi) as (n & h & x & w & En & Eh & Lf & Ex & _ & (l0 & E0 & _ & Lx & _)).
    exists n, x. split; auto. split; auto. rewrite Eh in E0. inversion E0; subst l0. destruct (Nat.eq_dec i A) as [-> |D].
    - assert (n = nA) by (destruct LA; unfold t in *; congruence). subst n. rewrite HA in Eh. inversion Eh; subst h. simpl in Lx. subst x. auto.
    - split; [|intros; contradiction]. destruct (H i n (conj Hi En) D) as ((x1 & w1 & E1 & O1) & _). rewrite Eh in E1. inversion E1; subst h. simpl in Lx. congruence. }
  pose proof El as El'. unfold get_samples in El'. rewrite ess in El'. destruct (Qltb_spec 1 e) as [_|Z]; [|lra]. injection El' as El'. fold t in El'.
  pose proof (cached_F2 _ _ _ _ I) as F2. fold t in F2. rewrite El' in F2. set (g := fun i => nth i (t_samples t) ([] : vec)).
  assert (Lg : map fst l = map g (masked_refs t)).
  { clear - F2. induction F2 as [|i (x, w) refs l (A1 & A2) F2 IH]; simpl; auto. f_equal; auto. unfold g. simpl in *. rewrite (nth_error_nth _ _ _ A1). reflexivity. }
  pose proof (masked_refs_perm _ _ _ _ I) as Pm. pose proof (leaves_nodup _ _ _ _ I) as ND. fold t in Pm, ND.
  destruct LA as (InA & EA). fold t in InA, EA. destruct (in_split _ _ InA) as (l1 & l2 & Es). exists (map g (l1 ++ l2)).
  assert (GA : g A = xA). { destruct (Row A InA) as (n & x & _ & Ex & _ & Q). unfold g. rewrite (nth_error_nth _ _ _ Ex). auto. }
  split; auto. split; [|split; auto].
  - rewrite Lg, (Permutation_map g Pm), Es. rewrite <- GA. change (g A :: map g (l1 ++ l2)) with (map g (A :: l1 ++ l2)). apply Permutation_map, Permutation_sym, Permutation_middle.
  - apply Forall_forall. intros x Hx. apply in_map_iff in Hx. destruct Hx as (i & <- & Hi). assert (Hl : In i (t_leaves t)) by (rewrite Es; apply in_app_iff in Hi; apply in_app_iff; simpl; tauto).
    assert (D : i <> A). { intros ->. rewrite Es in ND. apply NoDup_remove_2 in ND. auto. }
    destruct (Row i Hl) as (n & x & En & Ex & Op & _). unfold g. rewrite (nth_error_nth _ _ _ Ex). intros Oa. apply D. apply (separate_leaves s i n x); auto; split; auto.
Qed.
End Starve.
