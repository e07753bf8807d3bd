(** Invariants of the HiDaisee tree and sampler. *)
From Coq Require Import List Bool Arith Lia QArith Lqa Permutation.
Import ListNotations.
From Verif Require Import Prelude.Py Prelude.QBase Prelude.QFacts Prelude.ListFacts Model.Uniform Model.HiDaisee Spec.UniformSpec Spec.SplitSpec
  Proofs.UniformProofs Proofs.HiDaiseeBox.
Open Scope Q_scope.
Ltac csplit := repeat match goal with |- _ /\ _ => split end.

Definition nbox (n : hnode) : list Q * list Q := box (h_center n) (h_radius n).
Definition bx (t : htree) (i : nat) : list Q * list Q := match nth_error (ht_nodes t) i with Some n => nbox n | None => ([], []) end.

(** ** Density of a node *)
Lemma radii_corners c r : radii_ok c r -> corners (fst (box c r)) (snd (box c r)).
Proof. apply corners_radii. Qed.
Lemma vol_positive c r : radii_ok c r -> 0 < box_volume (box c r).
Proof. intros H. apply volume_pos, radii_corners; auto. Qed.
Lemma node_prob_inside n x : radii_ok (h_center n) (h_radius n) -> inside (nbox n) x -> 0 < node_prob n x /\ node_prob n x * box_volume (nbox n) == 1.
Proof.
  intros R H. pose proof (radii_length _ _ R) as L. pose proof (vol_positive _ _ R) as V. unfold node_prob, nbox in *.
  assert (inlier (u_lo (node_box n)) (u_hi (node_box n)) x = true) as ->.
  { pose proof (half_open_length _ _ _ H) as (L1 & L2). apply inlier_half_open; auto. }
  simpl u_volume. rewrite (box_vol _ _ L) in *. split; [apply Qlt_shift_div_l; lra|field; lra].
Qed.
Lemma node_prob_outside n x : radii_ok (h_center n) (h_radius n) -> length x = length (h_center n) -> ~ inside (nbox n) x -> node_prob n x == 0.
Proof.
  intros R Lx H. pose proof (radii_length _ _ R) as L. unfold node_prob. destruct (inlier _ _ x) eqn:E; [|reflexivity].
  exfalso. apply H. unfold inside, nbox, box. simpl. apply inlier_half_open; auto; rewrite ?map2_length; auto; try lia.
Qed.
Lemma inside_length c r x : length c = length r -> inside (box c r) x -> length x = length c.
Proof. intros L H. apply half_open_length in H. destruct H as (H & _). rewrite H. simpl. rewrite map2_length; auto; lia. Qed.
Lemma node_weight n x p : radii_ok (h_center n) (h_radius n) -> inside (nbox n) x -> p / node_prob n x == p * box_volume (nbox n).
Proof. intros R H. destruct (node_prob_inside n x R H) as (P & E). setoid_replace p with (p * (node_prob n x * box_volume (nbox n))) at 1 by (rewrite E; ring). field. lra. Qed.

Lemma row_length lo : forall hi u j, length lo = length hi -> length (uniform_row lo hi u j) = length lo.
Proof. induction lo as [|l lo IH]; intros [|h hi] u j L; simpl in *; try discriminate; auto. Qed.
Lemma draw_length n u : length (h_center n) = length (h_radius n) -> length (node_draw n u) = length (h_center n).
Proof. intros L. unfold node_draw. simpl. unfold vsub, vadd. rewrite row_length; rewrite !map2_length; auto; lia. Qed.

(** ** Nodes up to their values *)
Definition strip (n : hnode) : hnode := set_q n (Fin 0).
Definition sim (a b : list hnode) : Prop := map strip a = map strip b.
Lemma sim_length a b : sim a b -> length a = length b.
Proof. intros H. rewrite <- (map_length strip a), H, map_length. auto. Qed.
Lemma sim_nth a b i n : sim a b -> nth_error a i = Some n -> exists m, nth_error b i = Some m /\ strip m = strip n.
Proof.
  intros H E. pose proof (f_equal (fun l => nth_error l i) H) as X. cbv beta in X. rewrite !nth_error_map, E in X. simpl in X.
  destruct (nth_error b i) as [m|]; [|discriminate]. exists m. split; auto. simpl in X. congruence.
Qed.
Lemma sim_sym a b : sim a b -> sim b a.
Proof. unfold sim. auto. Qed.
Lemma sim_trans a b c : sim a b -> sim b c -> sim a c.
Proof. unfold sim. congruence. Qed.
Lemma sim_upd l i n m : nth_error l i = Some n -> strip m = strip n -> sim (upd l i m) l.
Proof.
  unfold sim. revert i. induction l as [|a l IH]; intros [|i] E H; simpl in *; try discriminate; auto.
  - inversion E; subst. rewrite H. auto.
  - rewrite (IH i); auto.
Qed.
Lemma sim_upd2 a b i m m' : sim a b -> strip m = strip m' -> sim (upd a i m) (upd b i m').
Proof.
  unfold sim. revert b i. induction a as [|x a IH]; intros [|y b] i E H; simpl in *; try discriminate; auto.
  injection E as E1 E2 E3 E4 E5. destruct i; simpl; [rewrite H, E5; auto|]. rewrite (IH b i E5 H). f_equal. unfold strip, set_q. congruence.
Qed.
Lemma strip_fields n m : strip m = strip n -> h_center m = h_center n /\ h_radius m = h_radius n /\ h_kids m = h_kids n /\ h_rows m = h_rows n.
Proof. unfold strip, set_q. intros H. inversion H. auto. Qed.
Lemma refresh_sim nodes i : sim (refresh_q nodes i) nodes.
Proof.
  unfold refresh_q. destruct (nth_error nodes i) as [n|] eqn:E; [|reflexivity]. destruct (h_kids n) as [(a, b)|]; [|reflexivity].
  destruct (nth_error nodes a), (nth_error nodes b); try reflexivity. eapply sim_upd; eauto.
Qed.
Lemma refreshes_sim l : forall nodes, sim (fold_left refresh_q l nodes) nodes.
Proof. induction l as [|i l IH]; intros nodes; simpl; [reflexivity|]. eapply sim_trans; [apply IH|apply refresh_sim]. Qed.

(** ** The tree hanging from a node *)
Inductive rooted (t : htree) : nat -> Prop :=
| rooted_leaf i : In i (ht_leaves t) -> rooted t i
| rooted_node i n a b : ~ In i (ht_leaves t) -> nth_error (ht_nodes t) i = Some n -> h_kids n = Some (a, b) -> (i < a)%nat -> (i < b)%nat ->
    rooted t a -> rooted t b -> rooted t i.

Section Inv.
Variables (d : nat) (whole : list Q * list Q) (pis : (vec -> Q) -> Prop).
Definition row_ok (n : hnode) (x : vec) (w : Q) : Prop := inside (nbox n) x /\ exists pi, pis pi /\ w == pi x * box_volume (nbox n).
Record hinv (t : htree) : Prop := mkInv {
  hi_node : forall i n, nth_error (ht_nodes t) i = Some n -> length (h_center n) = d /\ radii_ok (h_center n) (h_radius n);
  hi_leaf : forall i, In i (ht_leaves t) -> (i < length (ht_nodes t))%nat;
  hi_cut : cuts_up (ht_leaves t) (bx t) whole;
  hi_root : rooted t 0;
  hi_rows : forall i n x w, In i (ht_leaves t) -> nth_error (ht_nodes t) i = Some n -> In (x, w) (h_rows n) -> row_ok n x w }.

Lemma rooted_lt t i : hinv t -> rooted t i -> (i < length (ht_nodes t))%nat.
Proof. intros I R. destruct R as [i H|i n a b _ E _ _ _ _ _]; [apply (hi_leaf t I); auto|]. apply nth_error_Some. congruence. Qed.

Lemma nbox_strip n m : strip m = strip n -> nbox m = nbox n.
Proof. intros H. destruct (strip_fields _ _ H) as (A & B & _). unfold nbox. congruence. Qed.
Lemma cuts_ext {I} (ids : list I) b b' w : (forall i, In i ids -> b' i = b i) -> cuts_up ids b w -> cuts_up ids b' w.
Proof.
  intros E (N & C & U & Cn & V). split; auto. split; [|split; [|split]].
  - intros x. rewrite C. split; intros (i & Hi & H); exists i; split; auto; [rewrite E|rewrite <- E]; auto.
  - intros i j x Hi Hj. rewrite !E by auto. apply U; auto.
  - intros i Hi. rewrite E by auto. auto.
  - rewrite <- V. apply sum_over_ext. intros i Hi. rewrite E; auto. reflexivity.
Qed.
Lemma hinv_sim nodes nodes' leaves : sim nodes' nodes -> hinv (mkHT nodes leaves) -> hinv (mkHT nodes' leaves).
Proof.
  intros S [I1 I2 I3 I4 I5]. simpl in *. constructor; simpl.
  - intros i n E. destruct (sim_nth _ _ _ _ S E) as (m & Em & Hm). destruct (strip_fields _ _ Hm) as (A & B & _). rewrite <- A, <- B. eauto.
  - intros i Hi. rewrite (sim_length _ _ S). auto.
  - revert I3. apply cuts_ext. intros i Hi. unfold bx. simpl. specialize (I2 i Hi). apply nth_error_Some in I2. destruct (nth_error nodes i) as [n|] eqn:E; [|congruence].
    destruct (sim_nth _ _ _ _ (sim_sym _ _ S) E) as (m & -> & Hm). apply nbox_strip. auto.
  - clear - I4 S. induction I4 as [i H|i n a b N E K La Lb Ra IHa Rb IHb]; [apply rooted_leaf; auto|].
    simpl in E. destruct (sim_nth _ _ _ _ (sim_sym _ _ S) E) as (m & Em & Hm). destruct (strip_fields _ _ Hm) as (_ & _ & Km & _).
    eapply rooted_node with (a := a) (b := b); eauto. congruence.
  - intros i n x w Hi E H. destruct (sim_nth _ _ _ _ S E) as (m & Em & Hm). destruct (strip_fields _ _ Hm) as (_ & _ & _ & Rm).
    unfold row_ok. rewrite <- (nbox_strip _ _ Hm). apply (I5 i m); auto. congruence.
Qed.

(** Adding a sample to a leaf. *)
Lemma hinv_row nodes leaves i n x w : hinv (mkHT nodes leaves) -> In i leaves -> nth_error nodes i = Some n -> row_ok n x w ->
  hinv (mkHT (upd nodes i (add_row n x w)) leaves).
Proof.
  intros [I1 I2 I3 I4 I5] Hi En R. simpl in *. assert (Li : (i < length nodes)%nat) by auto. constructor; simpl.
  - intros j m E. destruct (Nat.eq_dec i j) as [->|N]; [rewrite upd_nth_error_eq in E by auto; inversion E; subst; simpl; eauto|rewrite upd_nth_error_neq in E by auto; eauto].
  - intros j Hj. rewrite upd_length. auto.
  - revert I3. apply cuts_ext. intros j Hj. unfold bx. simpl. destruct (Nat.eq_dec i j) as [->|N]; [rewrite upd_nth_error_eq, En by auto; reflexivity|rewrite upd_nth_error_neq by auto; auto].
  - clear I5 R. remember (mkHT nodes leaves) as t0 eqn:Et. induction I4 as [j H|j m a b N E K La Lb Ra IHa Rb IHb]; subst; [apply rooted_leaf; auto|]. simpl in *.
    eapply rooted_node with (a := a) (b := b); eauto. simpl. rewrite upd_nth_error_neq; [eauto|]. intros ->. auto.
  - intros j m y v Hj E H. destruct (Nat.eq_dec i j) as [->|N]; [|rewrite upd_nth_error_neq in E by auto; eauto].
    rewrite upd_nth_error_eq in E by auto. inversion E; subst. simpl in H. apply in_app_or in H. destruct H as [H|[H|[]]].
    + apply (I5 j n y v); auto.
    + inversion H; subst. auto.
Qed.

(** Redistribution of the samples. *)
Lemma push_spec pi k c r : length c = length r -> (k < length c)%nat -> radii_ok c r -> pis pi ->
  forall rows l rr l' r' ok,
  h_center l = shift_center c r k (-1) -> h_radius l = half_radius r k -> h_center rr = shift_center c r k 1 -> h_radius rr = half_radius r k ->
  Forall (fun xw => inside (box c r) (fst xw)) rows ->
  push pi k rows l rr = (l', r', ok) ->
  (h_center l' = h_center l /\ h_radius l' = h_radius l /\ h_kids l' = h_kids l /\ h_q l' = h_q l) /\
  (h_center r' = h_center rr /\ h_radius r' = h_radius rr /\ h_kids r' = h_kids rr /\ h_q r' = h_q rr) /\
  ((forall x w, In (x, w) (h_rows l) -> row_ok l x w) -> forall x w, In (x, w) (h_rows l') -> row_ok l' x w) /\
  ((forall x w, In (x, w) (h_rows rr) -> row_ok rr x w) -> forall x w, In (x, w) (h_rows r') -> row_ok r' x w) /\
  (ok = true -> Permutation (map fst rows ++ map fst (h_rows l) ++ map fst (h_rows rr)) (map fst (h_rows l') ++ map fst (h_rows r'))) /\
  (ok = false <-> exists x w, In (x, w) rows /\ nth k x 0 == nth k c 0).
Proof.
  intros L K R Hpi. pose proof (radii_nth _ _ _ R K) as Pk.
  assert (Mid : nth k (shift_center c r k (-1)) 0 + nth k (half_radius r k) 0 == nth k c 0).
  { unfold shift_center, half_radius. rewrite !upd_nth_eq by lia. field. }
  induction rows as [|(x, w0) rows IH]; intros l rr l' r' ok Cl Rl Cr Rr F E; cbn [push] in E.
  - inversion E; subst. csplit; auto. split; [discriminate|intros (x & w & [] & _)].
  - inversion F as [|? ? Fx F']; subst. simpl in Fx. pose proof (inside_length _ _ _ L Fx) as Lx.
    assert (Radl : radii_ok (h_center l) (h_radius l)) by (rewrite Cl, Rl; eapply half_radii; [|exact R]; apply shift_length).
    assert (Radr : radii_ok (h_center rr) (h_radius rr)) by (rewrite Cr, Rr; eapply half_radii; [|exact R]; apply shift_length).
    assert (HL : inside (nbox l) x <-> nth k x 0 <= nth k c 0).
    { unfold nbox. rewrite Cl, Rl, half_left by auto. split; [intros (_ & H); auto|auto]. }
    assert (HR : inside (nbox rr) x <-> nth k c 0 < nth k x 0).
    { unfold nbox. rewrite Cr, Rr, half_right by auto. split; [intros (_ & H); auto|auto]. }
    destruct (Qltb_spec (nth k x 0) (nth k (h_center l) 0 + nth k (h_radius l) 0)) as [Lt|Ge].
    + rewrite Cl, Rl, Mid in Lt. assert (In_l : inside (nbox l) x) by (apply HL; lra).
      destruct (node_prob_inside l x Radl In_l) as (Pp & _). destruct (Qle_bool_spec (node_prob l x) 0) as [X|X]; [lra|].
      apply IH in E; auto. destruct E as (A & B & C & D & Pm & Ok). split; [exact A|]. split; [exact B|]. csplit; auto.
      * intros Hl. apply C. intros y v H. simpl in H. apply in_app_or in H. destruct H as [H|[H|[]]]; [apply Hl; auto|]. inversion H; subst.
        split; [exact In_l|]. exists pi. split; auto. change (nbox (add_row l y (pi y / node_prob l y))) with (nbox l). apply node_weight; auto.
      * intros H. specialize (Pm H). simpl in Pm. rewrite map_app in Pm. simpl in Pm. rewrite <- Pm. simpl.
        rewrite <- app_assoc. simpl. rewrite !app_assoc. apply Permutation_middle.
      * rewrite Ok. split; intros (y & v & H & Hy); exists y, v; split; auto; [right; auto|]. destruct H as [H|H]; auto. inversion H; subst. lra.
    + rewrite Cl, Rl, Mid in Ge. apply Qnot_lt_le in Ge. destruct (Qlt_le_dec (nth k c 0) (nth k x 0)) as [Gt|Eq].
      * assert (In_r : inside (nbox rr) x) by (apply HR; auto). destruct (node_prob_inside rr x Radr In_r) as (Pp & _).
        destruct (Qle_bool_spec (node_prob rr x) 0) as [X|X]; [lra|].
        apply IH in E; auto. destruct E as (A & B & C & D & Pm & Ok). split; [exact A|]. split; [exact B|]. csplit; auto.
        -- intros Hr. apply D. intros y v H. simpl in H. apply in_app_or in H. destruct H as [H|[H|[]]]; [apply Hr; auto|]. inversion H; subst.
           split; [exact In_r|]. exists pi. split; auto. change (nbox (add_row rr y (pi y / node_prob rr y))) with (nbox rr). apply node_weight; auto.
        -- intros H. specialize (Pm H). simpl in Pm. rewrite map_app in Pm. simpl in Pm. rewrite <- Pm. simpl.
           rewrite !app_assoc. apply Permutation_cons_append.
        -- rewrite Ok. split; intros (y & v & H & Hy); exists y, v; split; auto; [right; auto|]. destruct H as [H|H]; auto. inversion H; subst. lra.
      * assert (Out : ~ inside (nbox rr) x) by (rewrite HR; lra).
        assert (Z : node_prob rr x == 0) by (apply node_prob_outside; auto; rewrite Cr, shift_length; auto).
        destruct (Qle_bool_spec (node_prob rr x) 0) as [X|X]; [|lra]. inversion E; subst. csplit; auto.
        -- discriminate.
        -- split; auto. intros _. exists x, w0. split; [left; auto|lra].
Qed.

Definition rows_at (t : htree) (i : nat) : list (vec * Q) := match nth_error (ht_nodes t) i with Some n => h_rows n | None => [] end.
Lemma hd_rows_at t : hd_rows t = flat_map (rows_at t) (ht_leaves t).
Proof.
  unfold hd_rows, leaf_nodes, rows_at. induction (ht_leaves t) as [|i l IH]; simpl; auto. rewrite flat_map_app, IH. f_equal.
  destruct (nth_error (ht_nodes t) i); simpl; auto. apply app_nil_r.
Qed.
Lemma flat_map_perm {A B} (f : A -> list B) l m : Permutation l m -> Permutation (flat_map f l) (flat_map f m).
Proof. apply Permutation_flat_map. Qed.
Lemma flat_map_in {A B} (f g : A -> list B) l : (forall a, In a l -> f a = g a) -> flat_map f l = flat_map g l.
Proof. induction l as [|a l IH]; simpl; intros H; auto. rewrite H, IH; auto. Qed.

Lemma split_spec pi i k t t' ok n : hinv t -> In i (ht_leaves t) -> nth_error (ht_nodes t) i = Some n -> (k < d)%nat -> pis pi -> split pi i k t = (t', ok) ->
  hinv t' /\ length (ht_nodes t') = S (S (length (ht_nodes t))) /\
  (ok = true -> Permutation (map fst (hd_rows t)) (map fst (hd_rows t')) /\ length (ht_leaves t') = S (length (ht_leaves t))) /\
  (ok = false -> ht_leaves t' = ht_leaves t /\ hd_rows t' = hd_rows t) /\
  (ok = false <-> exists x w, In (x, w) (h_rows n) /\ nth k x 0 == nth k (h_center n) 0).
Proof.
  intros I Hi En Hk Hpi E. pose proof (hi_node t I i n En) as (Dn & Rn). pose proof (radii_length _ _ Rn) as Ln.
  unfold split in E. rewrite En in E. cbv zeta in E.
  set (m := length (ht_nodes t)) in *. assert (Lm : (i < m)%nat) by (apply (hi_leaf t I); auto).
  set (l0 := hnode_new (shift_center (h_center n) (h_radius n) k (-1)) (half_radius (h_radius n) k) (fdivflQ (h_q n) (Fin 2))) in *.
  set (r0 := hnode_new (shift_center (h_center n) (h_radius n) k 1) (half_radius (h_radius n) k) (fdivflQ (h_q n) (Fin 2))) in *.
  destruct (push pi k (h_rows n) l0 r0) as [[l r] ok'] eqn:Ep.
  assert (Fin_rows : Forall (fun xw => inside (box (h_center n) (h_radius n)) (fst xw)) (h_rows n)).
  { apply Forall_forall. intros (x, w) H. apply (hi_rows t I i n x w Hi En H). }
  destruct (push_spec pi k (h_center n) (h_radius n) Ln ltac:(lia) Rn Hpi (h_rows n) l0 r0 l r ok' eq_refl eq_refl eq_refl eq_refl Fin_rows Ep)
    as ((Cl & Rl & Kl & _) & (Cr & Rr & Kr & _) & Wl & Wr & Pm & Ok).
  specialize (Wl ltac:(intros x w [])). specialize (Wr ltac:(intros x w [])). simpl in Cl, Rl, Kl, Cr, Rr, Kr.
  injection E as Et Eo. subst ok'.
  set (n' := mkH (h_center n) (h_radius n) (h_q n) (Some (m, S m)) (if ok then [] else h_rows n)) in *.
  assert (Nth : forall j, nth_error (ht_nodes t') j = if (j =? i)%nat then Some n' else if (j <? m)%nat then nth_error (ht_nodes t) j else if (j =? m)%nat then Some l else if (j =? S m)%nat then Some r else None).
  { intros j. rewrite <- Et. simpl. destruct (Nat.ltb_spec j m) as [L|L].
    - rewrite nth_error_app1 by (rewrite upd_length; auto). destruct (Nat.eqb_spec j i) as [->|N]; [apply upd_nth_error_eq; auto|apply upd_nth_error_neq; auto].
    - destruct (Nat.eqb_spec j i) as [->|N]; [lia|]. rewrite nth_error_app2; rewrite upd_length; [|auto]. change (length (ht_nodes t)) with m.
      destruct (Nat.eqb_spec j m) as [->|N1]; [rewrite Nat.sub_diag; reflexivity|]. destruct (Nat.eqb_spec j (S m)) as [->|N2].
      + replace (S m - m)%nat with 1%nat by lia. reflexivity.
      + apply nth_error_None. simpl. lia. }
  assert (Len : length (ht_nodes t') = S (S m)) by (rewrite <- Et; simpl; rewrite app_length, upd_length; simpl; unfold m; lia).
  assert (Nm : nth_error (ht_nodes t') m = Some l). { rewrite Nth. destruct (Nat.eqb_spec m i); [lia|]. destruct (Nat.ltb_spec m m); [lia|]. rewrite Nat.eqb_refl. auto. }
  assert (Nsm : nth_error (ht_nodes t') (S m) = Some r).
  { rewrite Nth. destruct (Nat.eqb_spec (S m) i); [lia|]. destruct (Nat.ltb_spec (S m) m); [lia|]. destruct (Nat.eqb_spec (S m) m); [lia|]. rewrite Nat.eqb_refl. auto. }
  assert (Ni : nth_error (ht_nodes t') i = Some n') by (rewrite Nth, Nat.eqb_refl; auto).
  assert (Nold : forall j, j <> i -> (j < m)%nat -> nth_error (ht_nodes t') j = nth_error (ht_nodes t) j).
  { intros j N L. rewrite Nth. destruct (Nat.eqb_spec j i); [lia|]. destruct (Nat.ltb_spec j m); [auto|lia]. }
  assert (Bold : forall j, (j < m)%nat -> bx t' j = bx t j).
  { intros j L. unfold bx. destruct (Nat.eq_dec j i) as [->|N]; [rewrite Ni, En; reflexivity|rewrite Nold; auto]. }
  assert (Radl : radii_ok (h_center l) (h_radius l)) by (rewrite Cl, Rl; eapply half_radii; [|exact Rn]; apply shift_length).
  assert (Radr : radii_ok (h_center r) (h_radius r)) by (rewrite Cr, Rr; eapply half_radii; [|exact Rn]; apply shift_length).
  assert (Nodes : forall j nd, nth_error (ht_nodes t') j = Some nd -> length (h_center nd) = d /\ radii_ok (h_center nd) (h_radius nd)).
  { intros j nd. rewrite Nth. destruct (Nat.eqb_spec j i); [intros X; inversion X; subst; auto|]. destruct (Nat.ltb_spec j m); [apply (hi_node t I)|].
    destruct (Nat.eqb_spec j m); [intros X; inversion X; subst; rewrite Cl, shift_length in *; auto|]. destruct (Nat.eqb_spec j (S m)); [|discriminate].
    intros X; inversion X; subst; rewrite Cr, shift_length in *; auto. }
  pose proof (hi_cut t I) as Cut. pose proof (proj1 Cut) as Nd.
  assert (Perm : Permutation (ht_leaves t) (i :: remove1 i (ht_leaves t))) by (apply remove1_perm; auto).
  assert (Other : forall j, In j (remove1 i (ht_leaves t)) -> In j (ht_leaves t) /\ j <> i).
  { intros j Hj. split; [apply (Permutation_in _ (Permutation_sym Perm)); right; auto|]. intros ->. pose proof (Permutation_NoDup Perm Nd) as X. inversion X; auto. }
  assert (Lvs : ht_leaves t' = if ok then remove1 i (ht_leaves t) ++ [m; S m] else ht_leaves t) by (rewrite <- Et; reflexivity).
  split; [|split; [auto|split; [|split; [|exact Ok]]]].
  - constructor.
    + exact Nodes.
    + intros j Hj. rewrite Len. rewrite Lvs in Hj. destruct ok; [|apply (hi_leaf t I) in Hj; lia]. apply in_app_or in Hj.
      destruct Hj as [Hj|[<-|[<-|[]]]]; try lia. apply Other in Hj. destruct Hj as (Hj & _). apply (hi_leaf t I) in Hj. lia.
    + rewrite Lvs. destruct ok; [|revert Cut; apply cuts_ext; intros j Hj; apply Bold, (hi_leaf t I); auto].
      eapply cuts_replace with (b := bx t) (i := i) (ids := ht_leaves t); eauto.
      * intros H. apply (hi_leaf t I) in H. lia.
      * intros H. apply (hi_leaf t I) in H. lia.
      * intros j Hj. apply Other in Hj. destruct Hj as (Hj & _). apply Bold, (hi_leaf t I); auto.
      * intros x. unfold bx. rewrite En, Nm, Nsm. unfold nbox. rewrite Cl, Rl, Cr, Rr, half_left, half_right by (auto; try lia; apply (radii_nth (h_center n)); auto; lia).
        split; [intros H; destruct (Qlt_le_dec (nth k (h_center n) 0) (nth k x 0)); auto|intros [(H & _)|(H & _)]; auto].
      * intros x. unfold bx. rewrite Nm, Nsm. unfold nbox. rewrite Cl, Rl, Cr, Rr, half_left, half_right by (auto; try lia; apply (radii_nth (h_center n)); auto; lia).
        intros (_ & H1) (_ & H2). lra.
      * unfold bx. rewrite Nm. apply radii_corners; auto.
      * unfold bx. rewrite Nsm. apply radii_corners; auto.
      * unfold bx. rewrite En, Nm, Nsm. unfold nbox. rewrite !box_vol by (apply radii_length; auto). rewrite Rl, Rr, half_prod by lia. field.
    + assert (G : forall j, rooted t j -> rooted t' j).
      { induction 1 as [j Hj|j nd a b N E K La Lb Ra IHa Rb IHb].
        - destruct ok; [|apply rooted_leaf; rewrite Lvs; auto]. destruct (Nat.eq_dec j i) as [->|N].
          + eapply rooted_node with (a := m) (b := S m); eauto; try lia.
            * rewrite Lvs. intros H. apply in_app_or in H. destruct H as [H|[H|[H|[]]]]; try lia. apply Other in H. destruct H; auto.
            * apply rooted_leaf. rewrite Lvs. apply in_or_app. right. left. auto.
            * apply rooted_leaf. rewrite Lvs. apply in_or_app. right. right. left. auto.
          + apply rooted_leaf. rewrite Lvs. apply in_or_app. left. apply (Permutation_in _ Perm) in Hj. destruct Hj; [congruence|auto].
        - assert (j <> i) by (intros ->; auto). assert (j < m)%nat by (apply nth_error_Some; congruence).
          eapply rooted_node with (a := a) (b := b); eauto; [|rewrite Nold; eauto].
          rewrite Lvs. destruct ok; auto. intros H'. apply in_app_or in H'. destruct H' as [H'|[H'|[H'|[]]]]; try lia. apply Other in H'. destruct H'; auto. }
      apply G, (hi_root t I).
    + intros j nd x w Hj Ej H. rewrite Lvs in Hj. destruct ok.
      * apply in_app_or in Hj. destruct Hj as [Hj|[<-|[<-|[]]]].
        -- apply Other in Hj. destruct Hj as (Hj & N). rewrite Nold in Ej; auto; [|apply (hi_leaf t I); auto]. apply (hi_rows t I j); auto.
        -- assert (nd = l) by congruence. subst nd. auto.
        -- assert (nd = r) by congruence. subst nd. auto.
      * destruct (Nat.eq_dec j i) as [->|N].
        -- assert (nd = n') by congruence. subst nd. apply (hi_rows t I i n x w); auto.
        -- rewrite Nold in Ej; auto; [|apply (hi_leaf t I); auto]. apply (hi_rows t I j); auto.
  - intros ->. rewrite !hd_rows_at, Lvs. split.
    + rewrite (Permutation_map fst (flat_map_perm (rows_at t) _ _ Perm)). rewrite flat_map_app. simpl flat_map at 1. rewrite !map_app.
      specialize (Pm eq_refl). simpl in Pm. rewrite app_nil_r in Pm.
      rewrite (Permutation_app_comm (map fst (rows_at t i))). unfold rows_at at 2. rewrite En, Pm.
      replace (flat_map (rows_at t') (remove1 i (ht_leaves t))) with (flat_map (rows_at t) (remove1 i (ht_leaves t))).
      * apply Permutation_app_head. simpl. unfold rows_at. rewrite Nm, Nsm, app_nil_r, map_app. reflexivity.
      * apply flat_map_in. intros j Hj. apply Other in Hj. destruct Hj as (Hj & N). unfold rows_at. rewrite Nold; auto. apply (hi_leaf t I); auto.
    + rewrite app_length. simpl. apply Permutation_length in Perm. simpl in Perm. lia.
  - intros ->. rewrite !hd_rows_at, Lvs. split; auto. apply flat_map_in. intros j Hj. unfold rows_at. destruct (Nat.eq_dec j i) as [->|N].
    + rewrite Ni, En. reflexivity.
    + rewrite Nold; auto. apply (hi_leaf t I); auto.
Qed.

(** ** Descending *)
Lemma descend_spec t pick : hinv t -> forall i, rooted t i -> forall fuel j, (length (ht_nodes t) - i <= fuel)%nat ->
  exists path leaf, descend fuel t pick j i = Some (path, leaf) /\ In leaf (ht_leaves t) /\
    (path = [] -> leaf = i) /\ (path <> [] -> List.hd 0%nat path = i) /\ (forall a, In a path -> ~ In a (ht_leaves t)) /\ (~ In i (ht_leaves t) -> path <> []).
Proof.
  intros I i R. induction R as [i H|i n a b N E K La Lb Ra IHa Rb IHb]; intros fuel j F.
  - exists [], i. assert (existsb (Nat.eqb i) (ht_leaves t) = true) as X by (apply existsb_exists; exists i; split; auto; apply Nat.eqb_refl).
    assert (Y : descend fuel t pick j i = Some ([], i)) by (destruct fuel; simpl; rewrite X; auto). split; [exact Y|]. csplit; auto; try contradiction.
  - pose proof (rooted_lt t a I Ra) as Ta. pose proof (rooted_lt t b I Rb) as Tb.
    destruct fuel as [|fuel]; [lia|]. cbn [descend]. assert (existsb (Nat.eqb i) (ht_leaves t) = false) as ->.
    { apply not_true_iff_false. intros X. apply existsb_exists in X. destruct X as (y & Hy & X). apply Nat.eqb_eq in X. subst. auto. }
    rewrite E, K. destruct (nth_error (ht_nodes t) a) as [na|] eqn:Ea; [|apply nth_error_None in Ea; lia].
    destruct (nth_error (ht_nodes t) b) as [nb|] eqn:Eb; [|apply nth_error_None in Eb; lia].
    cbv zeta. destruct (fltQ _ _).
    + destruct (IHa fuel (S j) ltac:(lia)) as (p & leaf & -> & Hl & _ & _ & Hp & _). exists (i :: p), leaf. csplit; auto; try discriminate.
      intros y [<-|Hy]; auto.
    + destruct (IHb fuel (S j) ltac:(lia)) as (p & leaf & -> & Hl & _ & _ & Hp & _). exists (i :: p), leaf. csplit; auto; try discriminate.
      intros y [<-|Hy]; auto.
Qed.

(** ** One turn *)
Lemma turn_spec P pi t rd s : hinv (hs_tree s) -> (hr_dim rd < d)%nat -> pis pi ->
  exists path i n, descend (length (ht_nodes (hs_tree s))) (hs_tree s) (hr_pick rd) 0 0 = Some (path, i) /\ In i (ht_leaves (hs_tree s)) /\
    nth_error (ht_nodes (hs_tree s)) i = Some n /\
    let x := node_draw n (hr_draw rd) in
    (~ inside (nbox n) x /\ exists s', hd_turn P pi t rd s = Failed AssertionError s' /\ hs_tree s' = hs_tree s /\ hs_samples s' = hs_samples s /\ hs_model s' = hs_model s /\
       hs_pi s' = hs_pi s /\ hs_q s' = hs_q s /\ hs_draws s' = S (hs_draws s)) \/
    (inside (nbox n) x /\ exists s', hinv (hs_tree s') /\ hs_samples s' = hs_samples s /\ hs_model s' = hs_model s /\ hs_draws s' = S (hs_draws s) /\
       ((hd_turn P pi t rd s = Done s' /\ Permutation (map fst (hd_rows (hs_tree s'))) (x :: map fst (hd_rows (hs_tree s)))) \/
        (hd_turn P pi t rd s = Failed ValueError s' /\ Permutation (map fst (hd_rows (hs_tree s'))) (x :: map fst (hd_rows (hs_tree s))) /\
         exists y, (y = x \/ exists w, In (y, w) (h_rows n)) /\ nth (hr_dim rd) y 0 == nth (hr_dim rd) (h_center n) 0))).
Proof.
  intros I Hk Hpi. set (tr := hs_tree s) in *. destruct (descend_spec tr (hr_pick rd) I 0%nat (hi_root tr I) (length (ht_nodes tr)) 0 ltac:(lia)) as (path & i & Ed & Hi & _).
  destruct (nth_error (ht_nodes tr) i) as [n|] eqn:En; [|apply nth_error_None in En; pose proof (hi_leaf tr I i Hi); lia].
  exists path, i, n. split; auto. split; auto. split; auto. cbv zeta. destruct (hi_node tr I i n En) as (Dn & Rn). pose proof (radii_length _ _ Rn) as Ln.
  set (x := node_draw n (hr_draw rd)).
  assert (Lx : length x = length (h_center n)).
  { apply draw_length. auto. }
  unfold hd_turn. fold tr. rewrite Ed, En. cbv zeta. fold x.
  assert (Dec : inside (nbox n) x \/ ~ inside (nbox n) x).
  { unfold inside, nbox, box. simpl. destruct (inlier (map2 Qminus (h_center n) (h_radius n)) (map2 Qplus (h_center n) (h_radius n)) x) eqn:Ei;
      [left; apply inlier_half_open; auto|right; intros H; apply inlier_half_open in H; try congruence]; rewrite ?map2_length; auto; lia. }
  destruct Dec as [Hin|Hout].
  2:{ left. split; auto. rewrite (proj2 (Qle_bool_iff _ _)) by (rewrite (node_prob_outside n x Rn Lx Hout); lra). eexists. split; [reflexivity|]. csplit; auto. }
  right. split; auto. destruct (node_prob_inside n x Rn Hin) as (Pp & _). destruct (Qle_bool_spec (node_prob n x) 0) as [X|_]; [lra|].
  set (n1 := add_row n x (pi x / node_prob n x)).
  assert (I1 : hinv (mkHT (upd (ht_nodes tr) i n1) (ht_leaves tr))).
  { destruct tr as (nodes, leaves). apply hinv_row; auto. split; auto. exists pi. split; auto. apply node_weight; auto. }
  set (v := fdivflQ _ _). set (n2 := set_q n1 v).
  set (nodes2 := fold_left refresh_q (refreshed_path path) (upd (ht_nodes (mkHT (upd (ht_nodes tr) i n1) (ht_leaves tr))) i n2)).
  assert (Li : (i < length (ht_nodes tr))%nat) by (apply (hi_leaf tr I); auto).
  assert (S2 : sim nodes2 (upd (ht_nodes tr) i n1)).
  { unfold nodes2. eapply sim_trans; [apply refreshes_sim|]. simpl. eapply sim_upd; [apply upd_nth_error_eq; auto|]. reflexivity. }
  assert (I2 : hinv (mkHT nodes2 (ht_leaves tr))) by (eapply hinv_sim; eauto).
  assert (E1 : nth_error (upd (ht_nodes tr) i n1) i = Some n1) by (apply upd_nth_error_eq; auto).
  destruct (sim_nth _ _ _ _ (sim_sym _ _ S2) E1) as (n3 & E3 & St). destruct (strip_fields _ _ St) as (C3 & R3 & K3 & W3).
  assert (Rows2 : Permutation (map fst (hd_rows (mkHT nodes2 (ht_leaves tr)))) (x :: map fst (hd_rows tr))).
  { rewrite !hd_rows_at. simpl. pose proof (proj1 (hi_cut tr I)) as Nd. assert (Perm := remove1_perm i (ht_leaves tr) Hi).
    rewrite (Permutation_map fst (flat_map_perm _ _ _ Perm)). rewrite (Permutation_map fst (flat_map_perm (rows_at tr) _ _ Perm)). simpl. rewrite !map_app.
    unfold rows_at at 1 3. simpl. rewrite E3, W3, En. simpl. rewrite map_app. simpl.
    replace (flat_map (rows_at (mkHT nodes2 (ht_leaves tr))) (remove1 i (ht_leaves tr))) with (flat_map (rows_at tr) (remove1 i (ht_leaves tr))).
    - rewrite <- app_assoc. simpl. symmetry. apply Permutation_middle.
    - apply flat_map_in. intros j Hj. assert (j <> i) by (intros ->; pose proof (Permutation_NoDup Perm Nd) as Y; inversion Y; auto).
      unfold rows_at. simpl. destruct (nth_error (ht_nodes tr) j) as [nj|] eqn:Ej.
      + assert (Ej' : nth_error (upd (ht_nodes tr) i n1) j = Some nj) by (rewrite upd_nth_error_neq; auto).
        destruct (sim_nth _ _ _ _ (sim_sym _ _ S2) Ej') as (m & -> & Hm). destruct (strip_fields _ _ Hm) as (_ & _ & _ & ->). auto.
      + destruct (nth_error nodes2 j) eqn:Y; auto. apply nth_error_None in Ej. assert (j < length nodes2)%nat by (apply nth_error_Some; congruence).
        rewrite (sim_length _ _ S2), upd_length in *. lia. }
  destruct (_ && _).
  - destruct (split pi i (hr_dim rd) (mkHT nodes2 (ht_leaves tr))) as (tr3, ok) eqn:Es.
    destruct (split_spec pi i (hr_dim rd) _ _ _ n3 I2 Hi E3 Hk Hpi Es) as (I3 & _ & Pt & Pf & Ok). rewrite C3, W3 in Ok.
    destruct ok; eexists (mkHD tr3 _ _ _ _ _); (split; [exact I3|]); (split; [reflexivity|]); (split; [reflexivity|]); (split; [reflexivity|]).
    + left. split; [reflexivity|]. simpl. rewrite <- Rows2. symmetry. apply Pt. auto.
    + right. split; [reflexivity|]. simpl. destruct (Pf eq_refl) as (_ & ->). split; auto.
      destruct (proj1 Ok eq_refl) as (y & w & Hy & Ey). exists y. split; auto. simpl in Hy. apply in_app_or in Hy. destruct Hy as [Hy|[Hy|[]]]; eauto.
      inversion Hy; auto.
  - eexists (mkHD (mkHT nodes2 (ht_leaves tr)) _ _ _ _ _). split; [exact I2|]. split; [reflexivity|]. split; [reflexivity|]. split; [reflexivity|]. left. split; [reflexivity|exact Rows2].
Qed.
End Inv.
