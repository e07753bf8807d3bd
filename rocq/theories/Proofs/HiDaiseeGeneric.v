(** Draws that never hit a boundary: every split plane lies at a dyadic fraction of the box. *)
From Coq Require Import List Bool Arith Lia QArith Lqa Permutation ZArith.
Import ListNotations.
From Verif Require Import Prelude.Py Prelude.QBase Prelude.QFacts Prelude.ListFacts Model.Uniform Model.HiDaisee Spec.UniformSpec Spec.SplitSpec
  Proofs.UniformProofs Proofs.HiDaiseeBox Proofs.HiDaiseeProofs Proofs.HiDaiseeHistory.
Open Scope Q_scope.

Definition two (e : nat) : Q := inject_Z (2 ^ Z.of_nat e).
Lemma two_pos e : 0 < two e.
Proof. unfold two. change 0 with (inject_Z 0). rewrite <- Zlt_Qlt. apply Z.pow_pos_nonneg; lia. Qed.
Lemma two_add e f : two (e + f) == two e * two f.
Proof. unfold two. rewrite Nat2Z.inj_add, Z.pow_add_r by lia. rewrite inject_Z_mult. reflexivity. Qed.
Lemma two_S e : two (S e) == 2 * two e.
Proof. change (S e) with (1 + e)%nat. rewrite two_add. reflexivity. Qed.

Lemma dyadic_ext a b : a == b -> dyadic a -> dyadic b.
Proof. intros E (m & e & H). exists m, e. rewrite <- E. auto. Qed.
Lemma dyadic_add a b : dyadic a -> dyadic b -> dyadic (a + b).
Proof.
  intros (m & e & H) (n & f & K). exists (m * 2 ^ Z.of_nat f + n * 2 ^ Z.of_nat e)%Z, (e + f)%nat. fold (two (e + f)). rewrite two_add, inject_Z_plus, !inject_Z_mult.
  fold (two e) (two f) in *. rewrite <- H, <- K. ring.
Qed.
Lemma dyadic_opp a : dyadic a -> dyadic (- a).
Proof. intros (m & e & H). exists (- m)%Z, e. rewrite inject_Z_opp, <- H. ring. Qed.
Lemma dyadic_mul a b : dyadic a -> dyadic b -> dyadic (a * b).
Proof.
  intros (m & e & H) (n & f & K). exists (m * n)%Z, (e + f)%nat. fold (two (e + f)). rewrite two_add, inject_Z_mult. fold (two e) (two f) in *. rewrite <- H, <- K. ring.
Qed.
Lemma dyadic_sub a b : dyadic a -> dyadic b -> dyadic (a - b).
Proof. intros A B. apply dyadic_add; auto. apply dyadic_opp; auto. Qed.
Lemma dyadic_half a : dyadic a -> dyadic (a / 2).
Proof. intros A. apply (dyadic_mul a (1 # 2)); auto. exists 1%Z, 1%nat. reflexivity. Qed.
Lemma dyadic_inv e : dyadic (1 / two e).
Proof. exists 1%Z, e. fold (two e). pose proof (two_pos e). field. lra. Qed.
Lemma dyadic_two e : dyadic (two e).
Proof. exists (2 ^ Z.of_nat e)%Z, 0%nat. unfold two. change (2 ^ Z.of_nat 0)%Z with 1%Z. change (inject_Z 1) with 1. ring. Qed.

Lemma row_nth lo : forall hi u j k, length lo = length hi -> (k < length lo)%nat -> nth k (uniform_row lo hi u j) 0 == nth k lo 0 + u (j + k)%nat * (nth k hi 0 - nth k lo 0).
Proof.
  induction lo as [|l lo IH]; intros [|h hi] u j k L K; simpl in L, K; try lia. destruct k as [|k]; simpl uniform_row.
  - simpl nth. rewrite Nat.add_0_r. ring.
  - simpl nth. rewrite IH by lia. replace (S j + k)%nat with (j + S k)%nat by lia. reflexivity.
Qed.
Lemma map2_nth (f : Q -> Q -> Q) a : forall b k, length a = length b -> (k < length a)%nat -> nth k (map2 f a b) 0 = f (nth k a 0) (nth k b 0).
Proof. induction a as [|x a IH]; intros [|y b] k L K; simpl in L, K; try lia. destruct k; simpl; auto. apply IH; lia. Qed.

Lemma draw_inside n u : radii_ok (h_center n) (h_radius n) -> (forall j, 0 < u j < 1) -> inside (nbox n) (node_draw n u).
Proof. intros R U. unfold inside, nbox, node_draw. simpl. apply row_half_open; auto. apply radii_corners; auto. Qed.
(** A draw is refused exactly when one of its coordinates is 0. *)
Lemma draw_refused n u : radii_ok (h_center n) (h_radius n) -> (forall j, 0 <= u j < 1) ->
  (~ inside (nbox n) (node_draw n u) <-> exists j, (j < length (h_center n))%nat /\ u j == 0).
Proof.
  intros R U. unfold inside, nbox, node_draw. simpl. pose proof (radii_corners _ _ R) as C. unfold box in C. simpl in C. pose proof (radii_length _ _ R) as L.
  assert (Ll : length (map2 Qminus (h_center n) (h_radius n)) = length (h_center n)) by (rewrite map2_length; auto; lia). rewrite <- Ll. clear Ll L R.
  assert (G : forall lo hi, corners lo hi -> forall s, half_open lo hi (uniform_row lo hi u s) <-> forall j, (j < length lo)%nat -> ~ u (s + j)%nat == 0).
  { intros lo hi H. clear C. induction H as [|l h lo hi H C IH]; intros s; simpl; [split; auto; intros _ j Hj; lia|]. rewrite IH. split.
    - intros (A & _ & B) [|j] Hj E; [rewrite Nat.add_0_r in E; rewrite E in A; lra|]. apply (B j ltac:(lia)). replace (S s + j)%nat with (s + S j)%nat by lia. auto.
    - intros A. pose proof (A 0%nat ltac:(lia)) as A0. rewrite Nat.add_0_r in A0. pose proof (U s) as (U1 & U2). assert (0 < u s) by (apply Qnot_le_lt; intros X; apply A0; lra).
      split; [nra|]. split; [nra|]. intros j Hj E. apply (A (S j) ltac:(lia)). replace (s + S j)%nat with (S s + j)%nat by lia. auto. }
  unfold vsub, vadd. rewrite (G _ _ C 0%nat). clear G. generalize (length (map2 Qminus (h_center n) (h_radius n))). intros m. split.
  - intros H. assert (D : (exists j, (j < m)%nat /\ u j == 0) \/ forall j, (j < m)%nat -> ~ u j == 0).
    { clear H. induction m as [|m [(j & A & B)|IH]]; [right; lia|left; exists j; split; auto|]. destruct (Qeq_dec (u m) 0) as [E|E]; [left; exists m; split; auto|].
      right. intros j Hj. destruct (Nat.eq_dec j m) as [->|]; auto. apply IH. lia. }
    destruct D as [D|D]; auto. exfalso. apply H. intros j Hj. simpl. auto.
  - intros (j & Hj & E) H. apply (H j Hj). auto.
Qed.

Lemma corners_nth lo hi : corners lo hi -> forall k, (k < length lo)%nat -> 0 < nth k hi 0 - nth k lo 0.
Proof. induction 1 as [|l h lo hi H _ IH]; intros k K; simpl in *; [lia|]. destruct k; [lra|]. apply IH. lia. Qed.

Section Gen.
Variables (lo hi : vec).
Let d := length lo.
Hypothesis C : corners lo hi.
Definition rel (k : nat) (z : Q) : Q := (z - nth k lo 0) / (nth k hi 0 - nth k lo 0).
Lemma width k : (k < d)%nat -> 0 < nth k hi 0 - nth k lo 0.
Proof. apply corners_nth; auto. Qed.
Definition on_grid (n : hnode) : Prop := forall k, (k < d)%nat ->
  dyadic (rel k (nth k (h_center n) 0)) /\ exists e, nth k (h_radius n) 0 == (nth k hi 0 - nth k lo 0) / two e.
Definition off_grid (x : vec) : Prop := forall k, (k < d)%nat -> ~ dyadic (rel k (nth k x 0)).
Definition gen (t : htree) : Prop := forall i n, nth_error (ht_nodes t) i = Some n -> on_grid n /\ forall x w, In (x, w) (h_rows n) -> off_grid x.

Lemma on_grid_eq n m : h_center m = h_center n -> h_radius m = h_radius n -> on_grid n -> on_grid m.
Proof. intros A B H k K. rewrite A, B. auto. Qed.
Lemma gen_sim nodes nodes' leaves : sim nodes' nodes -> gen (mkHT nodes leaves) -> gen (mkHT nodes' leaves).
Proof.
  intros Sm G i n E. simpl in E. destruct (sim_nth _ _ _ _ Sm E) as (m & Em & Hm). destruct (strip_fields _ _ Hm) as (A & B & _ & R). destruct (G i m Em) as (G1 & G2).
  split; [apply (on_grid_eq m); auto|]. intros x w. rewrite <- R. apply G2.
Qed.
Lemma gen_new : gen (htree_new lo hi).
Proof.
  intros [|[|i]] n E; simpl in E; inversion E; subst. split; [|intros x w []]. intros k K. simpl. pose proof (width k K) as W. pose proof (corners_length _ _ C) as L.
  rewrite !map2_nth by (unfold d in *; lia). split; [|exists 1%nat; unfold two; change (inject_Z (2 ^ Z.of_nat 1)) with 2; reflexivity].
  apply (dyadic_ext (1 # 2)); [|exists 1%Z, 1%nat; reflexivity]. unfold rel. field. lra.
Qed.
Lemma draw_off n u : on_grid n -> length (h_center n) = d -> length (h_radius n) = d -> (forall j, ~ dyadic (u j)) -> off_grid (node_draw n u).
Proof.
  intros G L1 L2 U k K D. destruct (G k K) as (Dc & e & Er). pose proof (width k K) as W. pose proof (two_pos e) as T. apply (U k).
  unfold node_draw in D. cbn [u_lo u_hi node_box] in D. unfold vsub, vadd in D.
  eapply dyadic_ext in D; [|unfold rel; rewrite row_nth by (rewrite !map2_length; lia); rewrite !map2_nth by lia; simpl Nat.add; reflexivity].
  match type of D with dyadic ((?z - _) / _) => change (dyadic (rel k z)) in D end.
  set (c := nth k (h_center n) 0) in *. set (r := nth k (h_radius n) 0) in *. set (lk := nth k lo 0) in *. set (hk := nth k hi 0) in *.
  assert (E : u k == (rel k (c - r + u k * (c + r - (c - r))) - rel k c + 1 / two e) / 2 * two e).
  { unfold rel. fold lk hk. rewrite Er. field. split; lra. }
  eapply dyadic_ext; [symmetry; exact E|]. apply dyadic_mul; [|apply dyadic_two]. apply dyadic_half. apply dyadic_add; [|apply dyadic_inv]. apply dyadic_sub; auto.
Qed.
Lemma gen_row nodes leaves i n x w : gen (mkHT nodes leaves) -> nth_error nodes i = Some n -> off_grid x -> gen (mkHT (upd nodes i (add_row n x w)) leaves).
Proof.
  intros G En O j m E. simpl in E. assert (i < length nodes)%nat by (apply nth_error_Some; congruence). destruct (Nat.eq_dec i j) as [<-|N].
  - rewrite upd_nth_error_eq in E by auto. inversion E; subst. destruct (G i n En) as (G1 & G2). split; [apply (on_grid_eq n); auto|]. intros y v Hy. simpl in Hy.
    apply in_app_or in Hy. destruct Hy as [Hy|[Hy|[]]]; [eauto|]. inversion Hy; subst. auto.
  - rewrite upd_nth_error_neq in E by auto. apply (G j m E).
Qed.
Lemma child_grid n k s q : on_grid n -> length (h_center n) = d -> length (h_radius n) = d -> (s == 1 \/ s == -(1)) -> on_grid (hnode_new (shift_center (h_center n) (h_radius n) k s) (half_radius (h_radius n) k) q).
Proof.
  intros G L1 L2 Hs j J. destruct (G j J) as (Dc & e & Er). pose proof (width j J) as W. pose proof (two_pos e) as T. simpl. unfold shift_center, half_radius.
  destruct (Nat.eq_dec k j) as [->|N].
  - rewrite !upd_nth_eq by lia. split.
    + set (c := nth j (h_center n) 0) in *. set (r := nth j (h_radius n) 0) in *. apply (dyadic_ext (rel j c + s * (1 / two e / 2))).
      * unfold rel. rewrite Er. field. split; lra.
      * apply dyadic_add; auto. destruct Hs as [Hs|Hs].
        -- apply (dyadic_ext (1 / two e / 2)); [rewrite Hs; ring|]. apply dyadic_half, dyadic_inv.
        -- apply (dyadic_ext (- (1 / two e / 2))); [rewrite Hs; ring|]. apply dyadic_opp, dyadic_half, dyadic_inv.
    + exists (S e). rewrite Er, two_S. field. lra.
  - rewrite !upd_nth_neq by auto. split; auto. exists e. auto.
Qed.
Lemma push_rows pi k rows : forall a b a' b' o, push pi k rows a b = (a', b', o) ->
  (h_center a' = h_center a /\ h_radius a' = h_radius a /\ h_center b' = h_center b /\ h_radius b' = h_radius b) /\
  (forall x w, In (x, w) (h_rows a') -> In (x, w) (h_rows a) \/ exists v, In (x, v) rows) /\
  (forall x w, In (x, w) (h_rows b') -> In (x, w) (h_rows b) \/ exists v, In (x, v) rows).
Proof.
  induction rows as [|(x, w) rows IH]; intros a b a' b' o E; simpl in E; [inversion E; subst; csplit; auto|].
  destruct (Qltb _ _); (destruct (Qle_bool _ 0); [inversion E; subst; csplit; auto|]); apply IH in E; destruct E as ((E1 & E2 & E3 & E4) & A & B); csplit; auto.
  - intros y v Hy. destruct (A y v Hy) as [H|(z & H)]; [|right; exists z; right; auto]. simpl in H. apply in_app_or in H. destruct H as [H|[H|[]]]; auto. inversion H; subst. right. exists w. left. auto.
  - intros y v Hy. destruct (B y v Hy) as [H|(z & H)]; [auto|right; exists z; right; auto].
  - intros y v Hy. destruct (A y v Hy) as [H|(z & H)]; [auto|right; exists z; right; auto].
  - intros y v Hy. destruct (B y v Hy) as [H|(z & H)]; [|right; exists z; right; auto]. simpl in H. apply in_app_or in H. destruct H as [H|[H|[]]]; auto. inversion H; subst. right. exists w. left. auto.
Qed.
Lemma gen_split pi i k t t' ok n : gen t -> nth_error (ht_nodes t) i = Some n -> length (h_center n) = d -> length (h_radius n) = d -> split pi i k t = (t', ok) -> gen t'.
Proof.
  intros G En L1 L2 H. unfold split in H. rewrite En in H. cbv zeta in H. destruct (push _ _ _ _ _) as [[l r] ok'] eqn:Ep. injection H as <- <-.
  destruct (push_rows _ _ _ _ _ _ _ _ Ep) as ((A1 & A2 & A3 & A4) & B1 & B2). destruct (G i n En) as (Gn & Gr).
  assert (Li : (i < length (ht_nodes t))%nat) by (apply nth_error_Some; congruence).
  intros j m E. simpl in E. destruct (Nat.lt_ge_cases j (length (ht_nodes t))) as [J|J].
  - rewrite nth_error_app1 in E by (rewrite upd_length; auto). destruct (Nat.eq_dec i j) as [<-|N].
    + rewrite upd_nth_error_eq in E by auto. inversion E; subst. split; [apply (on_grid_eq n); auto|]. intros x w Hx. simpl in Hx. destruct ok'; [destruct Hx|eauto].
    + rewrite upd_nth_error_neq in E by auto. apply (G j m E).
  - rewrite nth_error_app2 in E by (rewrite upd_length; auto). rewrite upd_length in E. destruct (j - length (ht_nodes t))%nat as [|[|z]]; simpl in E; inversion E; subst; try (destruct z; discriminate).
    + split; [eapply on_grid_eq; [exact A1|exact A2|]; apply child_grid; auto; right; reflexivity|]. intros x w Hx. destruct (B1 x w Hx) as [[]|(v & Hv)]. eauto.
    + split; [eapply on_grid_eq; [exact A3|exact A4|]; apply child_grid; auto; left; reflexivity|]. intros x w Hx. destruct (B2 x w Hx) as [[]|(v & Hv)]. eauto.
Qed.
Lemma gen_turn w pis P pi t rd s : hinv d w pis (hs_tree s) -> pis pi -> (hr_dim rd < d)%nat -> gen (hs_tree s) ->
  (forall j, 0 < hr_draw rd j < 1 /\ ~ dyadic (hr_draw rd j)) ->
  exists s', hd_turn P pi t rd s = Done s' /\ hinv d w pis (hs_tree s') /\ gen (hs_tree s').
Proof.
  intros I Hpi Hk G U. destruct (turn_spec d w pis P pi t rd s I Hk Hpi) as (path & i & n & Ed & Hi & En & T). destruct (hi_node _ _ _ _ I i n En) as (Dn & Rn).
  pose proof (radii_length _ _ Rn) as Ln. destruct (G i n En) as (Gn & Gr).
  assert (Ho : off_grid (node_draw n (hr_draw rd))) by (apply draw_off; auto; [congruence|intros j; apply U]).
  assert (Hin : inside (nbox n) (node_draw n (hr_draw rd))) by (apply draw_inside; auto; intros j; apply U).
  assert (Gs : gen (hs_tree (out_state (hd_turn P pi t rd s)))).
  { set (tr := hs_tree s) in *. unfold hd_turn. fold tr. rewrite Ed, En. cbv zeta. destruct (Qle_bool _ 0); [exact G|].
    set (n1 := add_row n _ _). cbn [ht_nodes]. set (n2 := set_q n1 _).
    assert (Li : (i < length (ht_nodes tr))%nat) by (apply nth_error_Some; congruence).
    set (nodes2 := fold_left refresh_q _ _).
    assert (S2 : sim nodes2 (upd (ht_nodes tr) i n1)).
    { unfold nodes2. eapply sim_trans; [apply refreshes_sim|]. eapply sim_upd; [apply upd_nth_error_eq; auto|]. reflexivity. }
    assert (G2 : gen (mkHT nodes2 (ht_leaves tr))).
    { eapply gen_sim; [exact S2|]. apply gen_row; auto. }
    destruct (_ && _); [|exact G2].
    assert (E1 : nth_error (upd (ht_nodes tr) i n1) i = Some n1) by (apply upd_nth_error_eq; auto).
    destruct (sim_nth _ _ _ _ (sim_sym _ _ S2) E1) as (n3 & E3 & St). destruct (strip_fields _ _ St) as (C3 & R3 & _).
    destruct (split pi i (hr_dim rd) (mkHT nodes2 (ht_leaves tr))) as (tr3, ok) eqn:Es.
    assert (gen tr3) by (apply (gen_split pi i (hr_dim rd) (mkHT nodes2 (ht_leaves tr)) tr3 ok n3); auto; rewrite ?C3, ?R3; simpl; congruence).
    destruct ok; auto. }
  destruct T as [(X & _)|(_ & s' & I' & _ & _ & _ & [(E & _)|(E & _ & y & Hy & Ey)])]; [contradiction| |].
  - exists s'. rewrite E in Gs. auto.
  - exfalso. assert (Hoy : off_grid y) by (destruct Hy as [->|(v & Hv)]; eauto). apply (Hoy _ Hk). destruct (Gn _ Hk) as (Dc & _).
    eapply dyadic_ext; [|exact Dc]. unfold rel. rewrite Ey. reflexivity.
Qed.
End Gen.

(** Histories in which no draw was dyadic. *)
Definition fine_draws (ops : list (hd_op * bool)) : Prop :=
  forall pi n rds b, In (HdCall pi n rds, b) ops -> forall t j, 0 < hr_draw (rds t) j < 1 /\ ~ dyadic (hr_draw (rds t) j).
Lemma fine_reach P : corners (hp_lo P) (hp_hi P) -> forall ops s, hd_reachable P ops s -> dims_ok (length (hp_lo P)) ops -> fine_draws ops -> gen (hp_lo P) (hp_hi P) (hs_tree s).
Proof.
  intros C. set (d := length (hp_lo P)). set (pis := fun _ : vec -> Q => True).
  assert (T : forall pi rds, dim_ok d rds -> (forall t j, 0 < hr_draw (rds t) j < 1 /\ ~ dyadic (hr_draw (rds t) j)) -> forall k t s,
     hinv d (hp_lo P, hp_hi P) pis (hs_tree s) -> gen (hp_lo P) (hp_hi P) (hs_tree s) -> gen (hp_lo P) (hp_hi P) (hs_tree (out_state (hd_turns P pi rds t k s)))).
  { intros pi rds Hd U. induction k as [|k IH]; intros t s I G; simpl; auto.
    destruct (gen_turn _ _ C _ pis P pi t (rds t) s I Logic.I (Hd t) G (U t)) as (s' & E & I' & G'). rewrite E. auto. }
  assert (Cl : forall pi n rds s, dim_ok d rds -> (forall t j, 0 < hr_draw (rds t) j < 1 /\ ~ dyadic (hr_draw (rds t) j)) ->
     hinv d (hp_lo P, hp_hi P) pis (hs_tree s) -> gen (hp_lo P) (hp_hi P) (hs_tree s) -> gen (hp_lo P) (hp_hi P) (hs_tree (out_state (hd_call P pi n rds s)))).
  { intros pi n rds s Hd U I G. unfold hd_call. specialize (T pi rds Hd U (n - length (hs_samples s))%nat (length (hs_samples s)) s I G). destruct (hd_turns _ _ _ _ _ _); auto. }
  intros ops0 s0 R0. induction R0 as [|ops s pi n rds s' R IH E|ops s pi n rds e s' R IH E|ops s n R IH|ops s R IH]; intros D F; try (apply gen_new; auto).
  - assert (D' : dims_ok d ops) by (intros ? ? ? ? H; eapply D; right; eauto). assert (F' : fine_draws ops) by (intros ? ? ? ? H; eapply F; right; eauto).
    specialize (Cl pi n rds s (D _ _ _ _ (or_introl eq_refl)) (F _ _ _ _ (or_introl eq_refl))). rewrite E in Cl. apply Cl; [|apply IH; auto].
    eapply hinv_weaken; [|apply (reach_inv P C ops s R D')]. intros; exact Logic.I.
  - assert (D' : dims_ok d ops) by (intros ? ? ? ? H; eapply D; right; eauto). assert (F' : fine_draws ops) by (intros ? ? ? ? H; eapply F; right; eauto).
    specialize (Cl pi n rds s (D _ _ _ _ (or_introl eq_refl)) (F _ _ _ _ (or_introl eq_refl))). rewrite E in Cl. apply Cl; [|apply IH; auto].
    eapply hinv_weaken; [|apply (reach_inv P C ops s R D')]. intros; exact Logic.I.
  - apply IH; [intros ? ? ? ? H; eapply D; right; eauto|intros ? ? ? ? H; eapply F; right; eauto].
Qed.
Lemma fine_call P : corners (hp_lo P) (hp_hi P) -> forall ops s pi n rds, hd_reachable P ops s -> dims_ok (length (hp_lo P)) ops -> fine_draws ops ->
  dim_ok (length (hp_lo P)) rds -> (forall t j, 0 < hr_draw (rds t) j < 1 /\ ~ dyadic (hr_draw (rds t) j)) -> exists s', hd_call P pi n rds s = Done s'.
Proof.
  intros C ops s pi n rds R D F Hd U. pose proof (fine_reach P C ops s R D F) as G. set (pis := fun _ : vec -> Q => True).
  assert (I : hinv (length (hp_lo P)) (hp_lo P, hp_hi P) pis (hs_tree s)) by (eapply hinv_weaken; [|apply (reach_inv P C ops s R D)]; intros; exact Logic.I).
  assert (T : forall k t s, hinv (length (hp_lo P)) (hp_lo P, hp_hi P) pis (hs_tree s) -> gen (hp_lo P) (hp_hi P) (hs_tree s) -> exists s', hd_turns P pi rds t k s = Done s').
  { induction k as [|k IH]; intros t s0 I0 G0; simpl; [eauto|].
    destruct (gen_turn _ _ C _ pis P pi t (rds t) s0 I0 Logic.I (Hd t) G0 (U t)) as (s' & E & I' & G'). rewrite E. auto. }
  unfold hd_call. destruct (T (n - length (hs_samples s))%nat (length (hs_samples s)) s I G) as (s' & ->). eauto.
Qed.
