(** How many samples a call of the tree pyramid sampler (simple flow) leaves, and when it ends. *)
From Coq Require Import List Bool Arith Lia QArith Lqa Permutation.
Import ListNotations.
From Verif Require Import Prelude.Py Prelude.QBase Prelude.QFacts Model.Population Model.Tree Model.TreeSampler Spec.TreeSpec Spec.Box
  Proofs.TreeCells Proofs.TreeProofs Proofs.TreeMask Proofs.TreeSamplerTree Proofs.TreeSamplerInv Proofs.TreeSamplerLeaves Proofs.TreeReturn.
Open Scope Q_scope.

Lemma expand_at_leaves t p n li : length (t_leaves (expand_at t p n li)) = (length (t_leaves t) + (2 ^ length (n_center n) - 1))%nat.
Proof.
  unfold expand_at. simpl. rewrite app_length, upd_length. f_equal. rewrite children_length.
  destruct (2 ^ length (n_center n))%nat eqn:E; simpl; [auto|]. rewrite seq_length. lia.
Qed.

Section Count.
Variables (P : tp_params) (whole : cell).
Hypothesis whole_pos : 0 < snd whole.
Hypothesis one : one_mode P.
Let d := p_dims P.
Let tinv (t : tree) : Prop := exists k, tree_inv d whole k t.
Definition single (t : tree) (p : nat) : Prop :=
  exists n l, nth_error (t_nodes t) p = Some n /\ is_leaf n = true /\ n_hist n = HList l /\ length l = 1%nat.

Lemma expand_count ps : forall t m acc t' r, tinv t -> NoDup ps -> (forall p, In p ps -> single t p) -> (length acc <= m)%nat ->
  expand_nodes P t ps m acc = (t', r) -> exists new j, r = Ok new /\ length new = (length acc + j * 2 ^ d)%nat /\
    length (t_leaves t') = (length (t_leaves t) + j * (2 ^ d - 1))%nat /\ (ps <> [] -> 1 <= j)%nat /\
    (length acc + (j - 1) * 2 ^ d <= m)%nat.
Proof.
  induction ps as [|p ps IH]; intros t m acc t' r T N Hs La E; simpl in E.
  - inversion E; subst. exists acc, 0%nat. split; auto. split; [lia|]. split; [lia|]. split; [congruence|simpl; lia].
  - inversion N as [|? ? Np Nps]; subst. destruct (Hs p (or_introl eq_refl)) as (n & l & En & Ln & El & L1).
    pose proof T as (k & I). destruct (ti_node _ _ _ _ I _ _ En) as (_ & D & _).
    unfold is_leaf in Ln. destruct (n_leaf n) as [li|] eqn:Eli; [|discriminate].
    assert (Ee : expand (p_ess P) (p_nmin P) p t = (expand_at t p n li, Ok (Some (seq (length (t_nodes t)) (2 ^ d))))).
    { unfold expand. rewrite En, Eli, El, (one_never_refused P l one L1), children_length, D. reflexivity. }
    rewrite Ee in E.
    assert (T' : tinv (expand_at t p n li)) by (eapply (tinv_expand P whole whole_pos); eauto).
    pose proof (expand_at_leaves t p n li) as Ll. rewrite D in Ll. cbv zeta in E.
    destruct (Nat.ltb_spec m (length (acc ++ seq (length (t_nodes t)) (2 ^ d)))) as [X|X]; pose proof X as X'; rewrite app_length, seq_length in X'.
    + inversion E; subst. eexists _, 1%nat. split; [reflexivity|]. rewrite app_length, seq_length. split; [lia|]. split; [rewrite Ll; lia|].
      split; lia.
    + assert (Hs' : forall q, In q ps -> single (expand_at t p n li) q).
      { intros q Hq. destruct (Hs q (or_intror Hq)) as (nq & lq & Eq & Rq). exists nq, lq. split; [|exact Rq].
        rewrite expand_at_old; auto; [intros ->; auto|apply nth_error_Some; congruence]. }
      destruct (IH _ _ _ _ _ T' Nps Hs' X E) as (new & j & -> & H1 & H2 & H3 & H4).
      rewrite app_length, seq_length in H1, H4. exists new, (S j). split; auto. split; [lia|]. split; [rewrite H2, Ll; lia|]. split; [lia|].
        destruct j as [|j]; simpl; [lia|]. simpl in H4. rewrite Nat.sub_0_r in H4. lia.
Qed.
End Count.

Lemma node_turns_leaves P pi r new : forall s, t_leaves (s_tree (fold_left (fun s ref => node_turn P pi (rd_draw r ref) ref s) new s)) = t_leaves (s_tree s).
Proof.
  induction new as [|a new IH]; intros s; simpl; auto. rewrite IH. unfold node_turn. destruct (nth_error _ _) eqn:E; auto. simpl.
  unfold take_sample. rewrite E. reflexivity.
Qed.
Lemma normalize_leaves t : t_leaves (self_normalize t) = t_leaves t.
Proof. unfold self_normalize. destruct (fgtQ _ 0); reflexivity. Qed.
Lemma refresh_leaves l : forall t, t_leaves (fold_left refresh_leaf l t) = t_leaves t.
Proof. induction l as [|a l IH]; intros t; simpl; auto. rewrite IH. unfold refresh_leaf. destruct (nth_error _ _); reflexivity. Qed.
Lemma resample_leaves P pi r t : t_leaves (resample_tree P pi r t) = t_leaves t.
Proof. unfold resample_tree. cbv zeta. rewrite refresh_leaves, normalize_leaves. reflexivity. Qed.
Lemma maybe_leaves P pi r s : t_leaves (s_tree (maybe_resample P pi r s)) = t_leaves (s_tree s).
Proof. unfold maybe_resample. destruct (p_leaf_resampling P); auto. simpl. apply resample_leaves. Qed.

(** The turns of the simple flow when every leaf holds one sample. *)
Lemma turn_count P pi need r s : proper (p_lo P) (p_hi P) -> p_flow P = Simple -> one_mode P -> settled1 P s ->
  exists s' j, turn P pi need r s = Done s' /\ settled1 P s' /\ (1 <= j /\ (j - 1) * 2 ^ p_dims P <= p_parallel P)%nat /\
    length (t_leaves (s_tree s')) = (length (t_leaves (s_tree s)) + j * (2 ^ p_dims P - 1))%nat.
Proof.
  intros B F O S. destruct (turn1 P pi need r s B F S) as (s' & E & S'). pose proof E as Et. unfold turn, simple_turn in E. rewrite F in E.
  destruct (expand_nodes P (s_tree s) (lambda_hat (s_tree s) r) (p_parallel P) []) as [t rr] eqn:X. pose proof S as (T & G). pose proof T as (k & I).
  destruct (expand_count P (whole_cell P) (proper_radius _ _ B) O (lambda_hat (s_tree s) r) (s_tree s) (p_parallel P) [] t rr T) as (new & j & -> & H1 & H2 & H3 & H4); auto.
  - eapply Permutation_NoDup; [apply Permutation_sym, lambda_perm|eapply leaves_nodup; eauto].
  - intros p Hp. apply (Permutation_in _ (lambda_perm _ _)) in Hp.
    destruct (settled_histories P (whole_cell P) (Q1 P) (Q1_hist P) s p S Hp) as (n & l & x & w & En & El & Ln & _ & _ & (l0 & E0 & _ & _ & One)).
    exists n, l. csplit; auto. rewrite El in E0. inversion E0; subst. auto.
  - simpl. lia.
  - exists s', j. split; [exact Et|]. split; auto. simpl in H4. split; [split; auto; apply H3|].
    + intros Hl. pose proof (Permutation_length (lambda_perm (s_tree s) r)) as L. rewrite Hl in L.
      rewrite (ti_leaves_count _ _ _ _ I) in L. discriminate.
    + inversion E. rewrite maybe_leaves, node_turns_leaves. simpl. exact H2.
Qed.

Lemma cache_count P e s : p_ess P = Some e -> 1 < e -> settled1 P s ->
  exists l, get_samples P (s_tree s) = Ok l /\ length l = length (t_leaves (s_tree s)).
Proof.
  intros Ee Le ((k & I) & _). unfold get_samples. rewrite Ee. destruct (Qltb_spec 1 e); [|lra]. eexists. split; [reflexivity|].
  pose proof (mask_length _ _ _ _ I) as ML.
  rewrite combine_length, !masked_length by (rewrite ?(ti_samples _ _ _ _ I), ?(ti_weights _ _ _ _ I), ML; auto).
  rewrite Nat.min_id. eapply count_mask; eauto.
Qed.

Lemma pow_two d : (1 <= d -> 2 <= 2 ^ d)%nat.
Proof. intros H. destruct d as [|d]; [lia|]. simpl. pose proof (Nat.pow_nonzero 2 d ltac:(lia)). lia. Qed.
Lemma proper_dims P : proper (p_lo P) (p_hi P) -> (1 <= p_dims P)%nat.
Proof. intros (N & _). unfold p_dims. destruct (p_lo P); [congruence|simpl; lia]. Qed.

Lemma loop_count P pi e n timeout tape : proper (p_lo P) (p_hi P) -> p_flow P = Simple -> p_ess P = Some e -> 1 < e -> (p_nmin P <= 1)%nat ->
  forall el s, settled1 P s ->
  let m := length (t_leaves (s_tree s)) in
  (exists s', tp_loop P pi n timeout tape el s = Running s' /\ settled1 P s' /\ (length tape + m <= length (t_leaves (s_tree s')) < n)%nat) \/
  (exists s', tp_loop P pi n timeout tape el s = Done s' /\ settled1 P s' /\
     let m' := length (t_leaves (s_tree s')) in
     ((n <= m')%nat \/ timeout <= el \/ exists r, In r tape /\ timeout <= rd_clock r) /\
     (m' = m \/ m' < n + (p_parallel P / 2 ^ p_dims P + 1) * (2 ^ p_dims P - 1))%nat /\ (m <= m')%nat).
Proof.
  intros B F Ee Le Ln. assert (O : one_mode P) by (exists e; repeat split; auto; lra).
  pose proof (pow_two _ (proper_dims P B)) as P2.
  assert (Upd : forall s, settled1 P s -> settled1 P (update_model s)).
  { intros s S. apply (update_settled P (whole_cell P) (Q1 P) anyW); auto; try (intros; exact I). }
  induction tape as [|r tape IH]; intros el s S m; simpl tp_loop; destruct (cache_count P e s Ee Le S) as (l & -> & Ll); rewrite Ll; fold m;
    destruct (Nat.ltb_spec m n) as [A|A]; destruct (Qltb_spec el timeout) as [C|C]; simpl andb; cbv iota.
  2,3,4,6,7,8: right; eexists; (split; [reflexivity|]); (split; [apply Upd; auto|]); simpl; rewrite normalize_leaves; fold m; (split; [first [left; exact A|right; left; apply Qnot_lt_le; exact C]|split; [left; reflexivity|apply Nat.le_refl]]).
  - left. exists s. csplit; auto; try (simpl; lia).
  - destruct (turn_count P pi (n - m) r s B F O S) as (s1 & j & -> & S1 & (J1 & J2) & Lj). fold m in Lj.
    assert (J3 : (j * (2 ^ p_dims P - 1) <= (p_parallel P / 2 ^ p_dims P + 1) * (2 ^ p_dims P - 1))%nat).
    { apply Nat.mul_le_mono_r. assert (j - 1 <= p_parallel P / 2 ^ p_dims P)%nat; [|lia]. apply Nat.div_le_lower_bound; lia. }
    assert (J4 : (1 <= j * (2 ^ p_dims P - 1))%nat) by (apply (Nat.mul_le_mono 1 j 1); lia).
    destruct (IH (rd_clock r) s1 S1) as [(s' & E & S' & L')|(s' & E & S' & T' & B' & M')].
    + left. exists s'. csplit; auto; simpl; lia.
    + right. exists s'. cbv zeta. split; [auto|]. split; [auto|]. split; [|split].
      * destruct T' as [T'|[T'|(r' & I' & T')]]; [left; exact T'|right; right; exists r; simpl; auto|right; right; exists r'; simpl; auto].
      * right. destruct B' as [B'|B']; [|exact B']. cbv zeta in B'. rewrite B', Lj. lia.
      * cbv zeta in M'. lia.
Qed.

(** A target that is zero everywhere. *)
Definition zw (w : fl Q) : Prop := w = NaN \/ exists q, w = Fin q /\ q == 0.
Definition Qz (P : tp_params) (n : node) (x : vec) (w : fl Q) : Prop :=
  zw w /\ exists l, n_hist n = HList l /\ forall y v, In (y, v) l -> zw v.
Lemma zw_sum ws : Forall zw ws -> zw (fsumQ ws).
Proof.
  induction 1 as [|w ws W F IH]; [right; exists 0; split; reflexivity|]. simpl.
  destruct W as [-> |(q & -> & Eq)]; [left; reflexivity|]. destruct IH as [-> |(q' & -> & Eq')]; [left; reflexivity|].
  right. eexists. split; [reflexivity|]. rewrite Eq, Eq'. reflexivity.
Qed.
Lemma zw_pos w : zw w -> fgtQ w 0 = false.
Proof. intros [-> |(q & -> & Eq)]; simpl; auto. apply Qltb_false. lra. Qed.
Lemma zw_div p q : p == 0 -> zw (fdivflQ (Fin p) q).
Proof.
  intros E. destruct q as [a| | |]; simpl; unfold zw; eauto; try (right; exists 0; split; reflexivity).
  unfold fdivQ. destruct (Qeq_bool_spec a 0) as [Z|Z].
  - assert (Qeq_bool p 0 = true) as -> by (apply Qeq_bool_iff; auto). auto.
  - right. eexists. split; [reflexivity|]. rewrite E. field. auto.
Qed.

Lemma Qz_hist P n x w : Qz P n x w -> exists l, n_hist n = HList l.
Proof. intros (_ & l & E & _). eauto. Qed.
Lemma Qz_take P pi n u : (forall x, pi x == 0) ->
  (n_hist n = HNone \/ (exists x w, Qz P n x w) /\ may_expand (p_ess P) (p_nmin P) (n_hist n) = Ok false) ->
  let x := kernel_draw (p_kernel P) (n_center n) (n_radius n) u in
  let nw := taken n x (pi x) (node_density P (n_center n) (n_radius n) x) in
  Qz P (fst nw) x (snd nw).
Proof.
  intros Z H x nw. assert (W : zw (snd nw)) by (unfold nw, taken; simpl; apply zw_div, Z). split; [exact W|].
  eexists. split; [reflexivity|]. intros y v I. apply in_app_iff in I. destruct I as [I|[I|[]]].
  - destruct H as [H|[(x0 & w0 & _ & l & El & Hl) _]]; [rewrite H in I; destruct I|]. rewrite El in I. eapply Hl; exact I.
  - inversion I; subst. exact W.
Qed.
Lemma Qz_re P n x w w' v l x' : Qz P n x w -> zw w' -> n_hist n = HList l -> Qz P (set_payload n w' v (HList (replace_last l (x', w')))) x' w'.
Proof.
  intros (_ & l0 & E0 & Hl) W El. rewrite El in E0. inversion E0; subst l0. split; auto. eexists. split; [reflexivity|].
  intros y u I. apply replace_last_in in I. destruct I as [I|I]; [inversion I; subst; auto|eauto].
Qed.
Lemma zero_turn P pi need r s : proper (p_lo P) (p_hi P) -> p_flow P = Simple -> (forall x, pi x == 0) ->
  settled P (whole_cell P) (Qz P) s -> exists s', turn P pi need r s = Done s' /\ settled P (whole_cell P) (Qz P) s'.
Proof.
  intros B F Z S. apply (turn_settled P pi (whole_cell P) (Qz P) zw anyU anyU); auto.
  - apply proper_radius; auto.
  - apply Qz_hist.
  - intros ws w Fw G _. rewrite (zw_pos _ (zw_sum _ Fw)) in G. discriminate.
  - intros n u _ _ H. apply Qz_take; auto.
  - intros c rr u _ _ _. apply zw_div, Z.
  - intros n x w w' u l H _ W _ El. eapply Qz_re; eauto.
  - split; intros i; exact I.
Qed.
Lemma zero_root P pi u : proper (p_lo P) (p_hi P) -> (forall x, pi x == 0) -> settled P (whole_cell P) (Qz P) (root_turn P pi u (tp_new P)).
Proof.
  intros B Z. apply (root_settled P pi (whole_cell P) (Qz P) zw anyU); auto.
  - apply proper_radius; auto.
  - intros n x w (W & _). exact W.
  - intros n x w w' (_ & l & E & H) W. split; auto. eauto.
  - intros ws w Fw G _. rewrite (zw_pos _ (zw_sum _ Fw)) in G. discriminate.
  - intros n u' _ _ H. apply Qz_take; auto.
  - exact I.
  - apply is_box_length, proper_box, B.
Qed.
Lemma zero_loop P e pi n timeout tape : proper (p_lo P) (p_hi P) -> p_flow P = Simple -> p_ess P = Some e -> e <= 1 ->
  (forall x, pi x == 0) -> (1 <= n)%nat -> Forall (fun r => rd_clock r < timeout) tape ->
  forall el s, el < timeout -> settled P (whole_cell P) (Qz P) s ->
  exists s', tp_loop P pi n timeout tape el s = Running s' /\ get_samples P (s_tree s') = Ok [].
Proof.
  intros B F Ee Le Z Hn Ft. 
  assert (Emp : forall s, settled P (whole_cell P) (Qz P) s -> get_samples P (s_tree s) = Ok []).
  { intros s S. assert (H : forall n x w, Qz P n x w -> exists l, n_hist n = HList l) by (intros n0 x w (_ & l & E & _); eauto).
    destruct (leaf_histories_ok (s_tree s) (t_leaves (s_tree s))) as (hs & Eh).
    { intros i Hi. destruct (settled_histories P (whole_cell P) (Qz P) H s i S Hi) as (n0 & l & x & w & E & El & _). eauto. }
    assert (G : exists l, get_samples P (s_tree s) = Ok l).
    { unfold get_samples. rewrite Ee, Eh. destruct (Qltb 1 e); simpl; eauto. }
    destruct G as (l & G). rewrite G. destruct l as [|(y, v) l]; auto. exfalso.
    destruct (returned_rows P (s_tree s) e _ Ee Le G) as (hs' & Fh & Hin & _). destruct (Hin y v (or_introl eq_refl)) as (Hc & Pv).
    apply in_concat in Hc. destruct Hc as (h & Hh & Hy).
    assert (X : exists i n, In i (t_leaves (s_tree s)) /\ nth_error (t_nodes (s_tree s)) i = Some n /\ n_hist n = HList h).
    { clear - Fh Hh. induction Fh as [|i h0 refs hs (n & F1 & F2) F3 IH]; [destruct Hh|]. destruct Hh as [-> |Hh].
      - exists i, n. split; [left|]; auto.
      - destruct (IH Hh) as (i' & n' & A & X). exists i', n'. split; [right|]; auto. }
    destruct X as (i & n0 & Hi & En & Eh').
    destruct (settled_histories P (whole_cell P) (Qz P) H s i S Hi) as (n1 & l1 & x & w & E1 & El1 & _ & _ & _ & (_ & l2 & El2 & Hz)).
    assert (n1 = n0) by congruence. subst n1. assert (l2 = h) by congruence. subst l2. rewrite (zw_pos _ (Hz y v Hy)) in Pv. discriminate. }
  induction tape as [|r tape IH]; intros el s Hel S; simpl; rewrite (Emp s S); simpl; destruct (Nat.ltb_spec 0 n); try lia;
    assert (Qltb el timeout = true) as -> by (apply Qltb_true; auto); simpl.
  - exists s. auto.
  - inversion Ft as [|? ? F1 F2]; subst.
    destruct (zero_turn P pi (n - 0) r s B F Z S) as (s1 & -> & S1). apply IH; auto.
Qed.
