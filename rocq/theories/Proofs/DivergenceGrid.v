(** The divergences over a fine grid against the integrals. *)
From Coquelicot Require Import Coquelicot.
From Coq Require Import List Bool Arith Lia Reals Lra.
Import ListNotations.
From Verif Require Import Prelude.Py Prelude.RBase Spec.DivergenceSpec Spec.DrawMeanSpec Spec.IntegralSpec
  Proofs.DivergenceProofs Proofs.DrawMean Proofs.KlDraws Proofs.JsDraws Proofs.LeftSum.
Open Scope R_scope.

Section Seg.
Variables a b : R.
Hypothesis Ab : a < b.
Let clamp x := Rmax a (Rmin b x).
Lemma clamp_in x : a <= clamp x <= b.
Proof. unfold clamp. split; [apply Rmax_l|]. apply Rmax_lub; [lra|apply Rmin_l]. Qed.
Lemma clamp_id x : a <= x <= b -> clamp x = x.
Proof. intros H. unfold clamp. rewrite Rmin_right by lra. apply Rmax_right. lra. Qed.
Lemma clamp_near x y : Rabs (clamp x - clamp y) <= Rabs (x - y).
Proof.
  unfold clamp, Rmax, Rmin, Rabs. destruct (Rle_dec b x), (Rle_dec b y); repeat (match goal with |- context [Rle_dec ?u ?v] => destruct (Rle_dec u v) end);
  repeat (match goal with |- context [Rcase_abs ?u] => destruct (Rcase_abs u) end); lra.
Qed.
Lemma clamp_lip L F : 0 <= L -> lipschitz_on a b L F -> lipschitz L (fun x => F (clamp x)).
Proof.
  intros P H x y. apply Rle_trans with (1 := H _ _ (clamp_in x) (clamp_in y)). apply Rmult_le_compat_l; [auto|apply clamp_near].
Qed.
Lemma lip_nonneg L F : lipschitz_on a b L F -> 0 <= L.
Proof.
  intros H. pose proof (H a b ltac:(lra) ltac:(lra)) as A. pose proof (Rabs_pos (F a - F b)).
  rewrite (Rabs_left (a - b)) in A by lra. destruct (Rle_dec 0 L); [auto|]. exfalso. assert (L * - (a - b) < 0) by nra. lra.
Qed.
Lemma lip_int L F : lipschitz_on a b L F -> ex_RInt F a b.
Proof.
  intros H. apply (ex_RInt_ext (fun x => F (clamp x))).
  - intros x. rewrite Rmin_left, Rmax_right by lra. intros I. rewrite clamp_id by lra. reflexivity.
  - apply (lipschitz_int L). apply clamp_lip; [eapply lip_nonneg, H|exact H].
Qed.
Lemma clamp_int (F : R -> R) : RInt (fun x => F (clamp x)) a b = RInt F a b.
Proof. apply RInt_ext. intros x. rewrite Rmin_left, Rmax_right by lra. intros I. rewrite clamp_id by lra. reflexivity. Qed.

Definition avg (F : R -> R) : R := RInt F a b / (b - a).
Lemma points_in G x : (0 < G)%nat -> In x (segment_points a b G) -> a <= x <= b.
Proof.
  intros Gp I. unfold segment_points in I. apply in_map_iff in I. destruct I as (k & <- & K). apply in_seq in K.
  assert (Gr : 0 < INR G) by now apply lt_0_INR.
  assert (0 <= INR k / INR G <= 1).
  { split; [apply Rmult_le_pos; [apply pos_INR|left; now apply Rinv_0_lt_compat]|].
    apply Rmult_le_reg_r with (INR G); auto. replace (INR k / INR G * INR G) with (INR k) by (field; lra). rewrite Rmult_1_l. apply le_INR. lia. }
  nra.
Qed.
Lemma points_ne G : (0 < G)%nat -> segment_points a b G <> [].
Proof. intros Gp E. apply (f_equal (@length R)) in E. unfold segment_points in E. rewrite map_length, seq_length in E. simpl in E. lia. Qed.
Lemma points_sum F G h k : (0 < G)%nat -> h = (b - a) / INR G ->
  total (map F (map (fun k => a + (b - a) * (INR k / INR G)) (seq 0 k))) * h = left_sum F a h k.
Proof.
  intros Gp E. assert (Gr : 0 < INR G) by now apply lt_0_INR. induction k as [|k IH]; [simpl; ring|].
  rewrite seq_S, !map_app. cbn [left_sum map]. rewrite <- IH. simpl (0 + k)%nat.
  assert (T : forall l m, total (l ++ m) = total l + total m) by (clear; induction l; intros m; simpl; [ring|rewrite IHl; ring]).
  rewrite T. cbn [total fold_right]. replace (a + (b - a) * (INR k / INR G)) with (a + INR k * h) by (rewrite E; field; lra). ring.
Qed.
Lemma avg_near L F G : (0 < G)%nat -> lipschitz_on a b L F -> Rabs (mean_over (segment_points a b G) F - avg F) <= L * (b - a) / INR G.
Proof.
  intros Gp H. assert (Gr : 0 < INR G) by now apply lt_0_INR. set (h := (b - a) / INR G).
  assert (Hp : 0 < h) by (apply Rdiv_lt_0_compat; lra).
  assert (M : mean_over (segment_points a b G) F = left_sum (fun x => F (clamp x)) a h G / (b - a)).
  { rewrite <- (points_sum (fun x => F (clamp x)) G h G Gp eq_refl). unfold mean_over. unfold segment_points at 2. rewrite map_length, seq_length.
    rewrite (total_ext F (fun x => F (clamp x))).
    - unfold h, segment_points. field. lra.
    - intros x I. rewrite clamp_id; [reflexivity|]. now apply (points_in G). }
  pose proof (left_sum_near L _ a h (clamp_lip L F (lip_nonneg L F H) H) ltac:(lra) G) as N.
  replace (a + INR G * h) with b in N by (unfold h; field; lra). rewrite clamp_int in N.
  rewrite M. unfold avg. rewrite Rabs_minus_sym.
  replace (RInt F a b / (b - a) - left_sum (fun x => F (clamp x)) a h G / (b - a))
    with ((RInt F a b - left_sum (fun x => F (clamp x)) a h G) * / (b - a)) by (field; lra).
  assert (I : 0 < / (b - a)) by (apply Rinv_0_lt_compat; lra). rewrite Rabs_mult, (Rabs_right (/ (b - a))) by lra.
  apply Rle_trans with (INR G * (L * h * h) * / (b - a)); [apply Rmult_le_compat_r; lra|].
  right. unfold h. field. lra.
Qed.
Lemma avg_le F H : ex_RInt F a b -> ex_RInt H a b -> (forall x, a <= x <= b -> F x <= H x) -> avg F <= avg H.
Proof.
  intros A B C. unfold avg. apply Rmult_le_compat_r; [left; apply Rinv_0_lt_compat; lra|]. apply RInt_le; auto; [lra|]. intros x I. apply C. lra.
Qed.
Lemma avg_const k : avg (fun _ => k) = k.
Proof. unfold avg. rewrite RInt_const. unfold scal. simpl. unfold mult. simpl. field. lra. Qed.
Lemma avg_scal k F : ex_RInt F a b -> avg (fun x => k * F x) = k * avg F.
Proof.
  intros E. unfold avg. assert (S : RInt (fun x => scal k (F x)) a b = scal k (RInt F a b)) by now apply (RInt_scal F).
  unfold scal in S. simpl in S. unfold mult in S. simpl in S. rewrite S. field. lra.
Qed.
Lemma avg_plus F H : ex_RInt F a b -> ex_RInt H a b -> avg (fun x => F x + H x) = avg F + avg H.
Proof.
  intros A B. unfold avg. assert (S : RInt (fun x => plus (F x) (H x)) a b = plus (RInt F a b) (RInt H a b)) by now apply (RInt_plus F H).
  unfold plus in S. simpl in S. rewrite S. field. lra.
Qed.
Lemma avg_abs F H k : ex_RInt F a b -> ex_RInt H a b -> (forall x, a <= x <= b -> Rabs (F x) <= k * H x) -> Rabs (avg F) <= k * avg H.
Proof.
  intros A B C. rewrite <- avg_scal by auto.
  assert (Ek : forall c, ex_RInt (fun x => c * H x) a b) by (intros c; apply (ex_RInt_scal H); auto).
  apply Rabs_le. split.
  - replace (- avg (fun x => k * H x)) with (avg (fun x => - k * H x)) by (rewrite !avg_scal by auto; ring).
    apply avg_le; auto. intros x I. specialize (C x I). pose proof (Rle_abs (- F x)) as V. rewrite Rabs_Ropp in V. lra.
  - apply avg_le; auto. intros x I. specialize (C x I). pose proof (Rle_abs (F x)). lra.
Qed.

Variables (p q : R -> R) (lo hi Lam : R).
Hypothesis Lo : 0 < lo.
Hypothesis Pl : lipschitz_on a b Lam p.
Hypothesis Ql : lipschitz_on a b Lam q.
Hypothesis Wi : forall x, a <= x <= b -> lo <= p x <= hi /\ lo <= q x <= hi.
Let L := ln (hi / lo).
Let c := hi / lo.
Let g x := p x * ln (p x / q x).

Lemma Lam_nonneg : 0 <= Lam.
Proof. eapply lip_nonneg, Pl. Qed.
Lemma lohi : lo <= hi.
Proof. destruct (Wi a ltac:(lra)). lra. Qed.
Lemma Lpos : 0 <= L.
Proof. pose proof (ratio_bound p q lo hi Lo a (Wi a ltac:(lra))). pose proof (Rabs_pos (ln (p a / q a))). fold L in H. lra. Qed.

(** a product u * ln v where u varies by at most e, |ln v| <= K and ln v varies by at most d *)
Lemma prod_near u v u' v' K e d : 0 <= u' <= hi -> Rabs (u - u') <= e -> Rabs v <= K -> Rabs (v - v') <= d ->
  Rabs (u * v - u' * v') <= e * K + hi * d.
Proof.
  intros A B C D. replace (u * v - u' * v') with ((u - u') * v + u' * (v - v')) by ring.
  apply Rle_trans with (1 := Rabs_triang _ _). rewrite !Rabs_mult, (Rabs_right u') by lra.
  pose proof (Rabs_pos (u - u')). pose proof (Rabs_pos v). pose proof (Rabs_pos (v - v')).
  apply Rplus_le_compat; apply Rmult_le_compat; lra.
Qed.
Lemma g_lip : lipschitz_on a b (Lam * (L + 2 * c)) g.
Proof.
  intros x y X Y. destruct (Wi x X) as [P1 Q1]. destruct (Wi y Y) as [P2 Q2]. pose proof (Pl x y X Y) as DP. pose proof (Ql x y X Y) as DQ.
  pose proof (Rabs_pos (x - y)) as Dp. pose proof Lam_nonneg as La. set (d := Rabs (x - y)) in *.
  assert (N : Rabs (ln (p x / q x) - ln (p y / q y)) <= 2 * (Lam * d) / lo).
  { rewrite !lnd by lra. replace (ln (p x) - ln (q x) - (ln (p y) - ln (q y))) with ((ln (p x) - ln (p y)) + - (ln (q x) - ln (q y))) by ring.
    apply Rle_trans with (1 := Rabs_triang _ _). rewrite Rabs_Ropp.
    pose proof (ln_near lo (p x) (p y) Lo ltac:(lra) ltac:(lra)). pose proof (ln_near lo (q x) (q y) Lo ltac:(lra) ltac:(lra)).
    assert (I : 0 < / lo) by now apply Rinv_0_lt_compat. unfold Rdiv in *.
    pose proof (Rmult_le_compat_r (/ lo) _ _ (Rlt_le _ _ I) DP). pose proof (Rmult_le_compat_r (/ lo) _ _ (Rlt_le _ _ I) DQ). lra. }
  pose proof (prod_near (p x) (ln (p x / q x)) (p y) (ln (p y / q y)) L (Lam * d) (2 * (Lam * d) / lo) ltac:(lra) DP (ratio_bound p q lo hi Lo x (Wi x X)) N) as B.
  apply Rle_trans with (1 := B). right. unfold c. field. lra.
Qed.
Lemma mix_near r x y : 0 < r -> a <= x <= b -> a <= y <= b -> Rabs (ln (p x + q x * r) - ln (p y + q y * r)) <= Lam * Rabs (x - y) / lo.
Proof.
  intros R X Y. destruct (Wi x X) as [P1 Q1]. destruct (Wi y Y) as [P2 Q2]. pose proof (Pl x y X Y) as DP. pose proof (Ql x y X Y) as DQ.
  assert (B : forall u v, lo <= u -> lo <= v -> lo * (1 + r) <= u + v * r) by (intros u v U V; nra).
  assert (S : 0 < lo * (1 + r)) by (apply Rmult_lt_0_compat; lra).
  apply Rle_trans with (1 := ln_near (lo * (1 + r)) _ _ S (B _ _ (proj1 P1) (proj1 Q1)) (B _ _ (proj1 P2) (proj1 Q2))).
  replace (p x + q x * r - (p y + q y * r)) with ((p x - p y) + r * (q x - q y)) by ring.
  replace (Lam * Rabs (x - y) / lo) with ((Lam * Rabs (x - y) + r * (Lam * Rabs (x - y))) / (lo * (1 + r))) by (field; lra).
  apply Rmult_le_compat_r; [left; now apply Rinv_0_lt_compat|]. apply Rle_trans with (1 := Rabs_triang _ _).
  rewrite Rabs_mult, (Rabs_right r) by lra. apply Rplus_le_compat; [auto|]. apply Rmult_le_compat_l; lra.
Qed.
Let fa r x := js_a (p x) (q x) r.
Let fb r x := js_b (p x) (q x) r.
Lemma log_near_p x y : a <= x <= b -> a <= y <= b -> Rabs (ln (p x) - ln (p y)) <= Lam * Rabs (x - y) / lo.
Proof.
  intros X Y. destruct (Wi x X) as [P1 Q1]. destruct (Wi y Y) as [P2 Q2]. apply Rle_trans with (1 := ln_near lo (p x) (p y) Lo ltac:(lra) ltac:(lra)).
  apply Rmult_le_compat_r; [left; now apply Rinv_0_lt_compat|]. now apply Pl.
Qed.
Lemma log_near_q x y : a <= x <= b -> a <= y <= b -> Rabs (ln (q x) - ln (q y)) <= Lam * Rabs (x - y) / lo.
Proof.
  intros X Y. destruct (Wi x X) as [P1 Q1]. destruct (Wi y Y) as [P2 Q2]. apply Rle_trans with (1 := ln_near lo (q x) (q y) Lo ltac:(lra) ltac:(lra)).
  apply Rmult_le_compat_r; [left; now apply Rinv_0_lt_compat|]. now apply Ql.
Qed.
Lemma fa_lip r : lo / hi <= r <= hi / lo -> lipschitz_on a b (Lam * (2 * L + 2 * c)) (fa r).
Proof.
  intros R x y X Y. destruct (Wi x X) as [P1 Q1]. destruct (Wi y Y) as [P2 Q2]. pose proof (Pl x y X Y) as DP.
  assert (Rp : 0 < r) by (assert (0 < lo / hi) by (apply Rdiv_lt_0_compat; lra); lra).
  assert (M : forall z, a <= z <= b -> 0 < q z * r) by (intros z Z; destruct (Wi z Z); apply Rmult_lt_0_compat; lra).
  pose proof (M x X). pose proof (M y Y).
  assert (N : Rabs (ln (2 * p x / (p x + q x * r)) - ln (2 * p y / (p y + q y * r))) <= 2 * (Lam * Rabs (x - y)) / lo).
  { rewrite !lnd, !ln_mult by lra.
    replace (ln 2 + ln (p x) - ln (p x + q x * r) - (ln 2 + ln (p y) - ln (p y + q y * r))) with ((ln (p x) - ln (p y)) + - (ln (p x + q x * r) - ln (p y + q y * r))) by ring.
    apply Rle_trans with (1 := Rabs_triang _ _). rewrite Rabs_Ropp. pose proof (log_near_p x y X Y). pose proof (mix_near r x y Rp X Y). unfold Rdiv in *. lra. }
  assert (K : Rabs (ln (2 * p x / (p x + q x * r))) <= 2 * L).
  { apply Rle_trans with (1 := mid_log (p x) (q x * r) ltac:(lra) ltac:(lra)). exact (log_gap p q lo hi Lo x r (Wi x X) R). }
  pose proof (prod_near (p x) _ (p y) _ (2 * L) (Lam * Rabs (x - y)) (2 * (Lam * Rabs (x - y)) / lo) ltac:(lra) DP K N) as B.
  apply Rle_trans with (1 := B). right. unfold c. field. lra.
Qed.
Lemma fb_lip r : lo / hi <= r <= hi / lo -> lipschitz_on a b (Lam * (2 * L + 2 * c)) (fb r).
Proof.
  intros R x y X Y. destruct (Wi x X) as [P1 Q1]. destruct (Wi y Y) as [P2 Q2]. pose proof (Ql x y X Y) as DP.
  assert (Rp : 0 < r) by (assert (0 < lo / hi) by (apply Rdiv_lt_0_compat; lra); lra).
  assert (M : forall z, a <= z <= b -> 0 < q z * r) by (intros z Z; destruct (Wi z Z); apply Rmult_lt_0_compat; lra).
  pose proof (M x X). pose proof (M y Y).
  assert (N : Rabs (ln (2 * (q x * r) / (p x + q x * r)) - ln (2 * (q y * r) / (p y + q y * r))) <= 2 * (Lam * Rabs (x - y)) / lo).
  { rewrite !lnd, !ln_mult by lra.
    replace (ln 2 + (ln (q x) + ln r) - ln (p x + q x * r) - (ln 2 + (ln (q y) + ln r) - ln (p y + q y * r))) with ((ln (q x) - ln (q y)) + - (ln (p x + q x * r) - ln (p y + q y * r))) by ring.
    apply Rle_trans with (1 := Rabs_triang _ _). rewrite Rabs_Ropp. pose proof (log_near_q x y X Y). pose proof (mix_near r x y Rp X Y). unfold Rdiv in *. lra. }
  assert (K : Rabs (ln (2 * (q x * r) / (p x + q x * r))) <= 2 * L).
  { rewrite (Rplus_comm (p x)). apply Rle_trans with (1 := mid_log (q x * r) (p x) ltac:(lra) ltac:(lra)). rewrite Rabs_minus_sym. exact (log_gap p q lo hi Lo x r (Wi x X) R). }
  pose proof (prod_near (q x) _ (q y) _ (2 * L) (Lam * Rabs (x - y)) (2 * (Lam * Rabs (x - y)) / lo) ltac:(lra) DP K N) as B.
  apply Rle_trans with (1 := B). right. unfold c. field. lra.
Qed.

Lemma avg_p : lo <= avg p <= hi.
Proof.
  split; [rewrite <- (avg_const lo)|rewrite <- (avg_const hi)]; apply avg_le; try apply ex_RInt_const; try (eapply lip_int; exact Pl); intros x I; apply Wi, I.
Qed.
Lemma avg_q : lo <= avg q <= hi.
Proof.
  split; [rewrite <- (avg_const lo)|rewrite <- (avg_const hi)]; apply avg_le; try apply ex_RInt_const; try (eapply lip_int; exact Ql); intros x I; apply Wi, I.
Qed.
Lemma int_avg (F : R -> R) : RInt F a b = (b - a) * avg F.
Proof. unfold avg. assert (H : forall v : R, v = (b - a) * (v / (b - a))) by (intros v; field; lra). apply H. Qed.

Lemma kl_integral_of : kl_integral p q a b = kl_of (avg g) (avg p) (avg q).
Proof.
  unfold kl_integral, segment_integral. cbv zeta. pose proof avg_p as Ap. pose proof avg_q as Aq.
  rewrite (int_avg p), (int_avg q). set (P := avg p) in *. set (Q := avg q) in *.
  assert (E : RInt (fun x => p x / ((b - a) * P) * ln (p x / ((b - a) * P) / (q x / ((b - a) * Q)))) a b
    = RInt (fun x => / ((b - a) * P) * g x + (ln Q - ln P) * / ((b - a) * P) * p x) a b).
  { apply RInt_ext. intros x. rewrite Rmin_left, Rmax_right by lra. intros I. destruct (Wi x ltac:(lra)) as [A B]. unfold g.
    assert (0 < b - a) by lra. assert (0 < (b - a) * P) by (apply Rmult_lt_0_compat; lra). assert (0 < (b - a) * Q) by (apply Rmult_lt_0_compat; lra).
    rewrite !lnd by (try apply Rdiv_lt_0_compat; lra). rewrite !ln_mult by lra. apply Rminus_diag_uniq. field. lra. }
  rewrite E, int_avg. pose proof (lip_int _ _ g_lip) as Gi. pose proof (lip_int _ _ Pl) as Pi.
  assert (Es : forall k F, ex_RInt F a b -> ex_RInt (fun x => k * F x) a b) by (intros k F H; apply (ex_RInt_scal F); auto).
  rewrite avg_plus, !avg_scal by auto. fold P. unfold kl_of. field. lra.
Qed.
Lemma kl_grid_near G : (0 < G)%nat ->
  Rabs (kl_div (map p (segment_points a b G)) (map q (segment_points a b G)) - kl_integral p q a b) <= 2 * Lam * (b - a) * (c + L + 1) / (lo * INR G).
Proof.
  intros Gp. assert (Gr : 0 < INR G) by now apply lt_0_INR. set (pts := segment_points a b G).
  assert (Ne : pts <> []) by now apply points_ne.
  assert (W : forall x, In x pts -> within p q lo hi x) by (intros x I; apply Wi, (points_in G); auto).
  rewrite kl_integral_of, (kl_div_of p q lo hi Lo pts Ne W). fold g.
  pose proof (over_bounds pts Ne lo hi p (fun x I => proj1 (W x I))). pose proof (over_bounds pts Ne lo hi q (fun x I => proj2 (W x I))).
  pose proof avg_p as Ap. pose proof avg_q as Aq. pose proof Lpos as Lp.
  assert (K : Rabs (avg g) <= L * avg p).
  { apply avg_abs; [eapply lip_int, g_lip|eapply lip_int, Pl|]. intros x I. exact (term_bound p q lo hi Lo x (Wi x I)). }
  pose proof (kl_of_near lo L (mean_over pts g) (mean_over pts p) (mean_over pts q) (avg g) (avg p) (avg q) Lo ltac:(lra) ltac:(lra) ltac:(lra) ltac:(lra) K) as N.
  apply Rle_trans with (1 := N).
  pose proof (avg_near _ _ G Gp g_lip) as N1. pose proof (avg_near _ _ G Gp Pl) as N2. pose proof (avg_near _ _ G Gp Ql) as N3. fold pts in N1, N2, N3.
  replace (2 * Lam * (b - a) * (c + L + 1) / (lo * INR G)) with
    ((Lam * (L + 2 * c) * (b - a) / INR G + (L + 1) * (Lam * (b - a) / INR G) + Lam * (b - a) / INR G) / lo) by (field; lra).
  apply Rmult_le_compat_r; [left; now apply Rinv_0_lt_compat|].
  apply Rplus_le_compat; [|exact N3]. apply Rplus_le_compat; [exact N1|]. apply Rmult_le_compat_l; [lra|exact N2].
Qed.

Lemma js_integral_of : let r := avg p / avg q in js_integral p q a b = js_of (avg (fa r)) (avg (fb r)) (avg p) (avg q).
Proof.
  intros r. unfold js_integral, segment_integral. cbv zeta. pose proof avg_p as Ap. pose proof avg_q as Aq. pose proof ln2_pos as L2.
  pose proof (ratio_range lo hi Lo _ _ Ap Aq) as Rb. fold r in Rb.
  rewrite (int_avg p), (int_avg q). set (P := avg p) in *. set (Q := avg q) in *.
  assert (BP : 0 < (b - a) * P) by (apply Rmult_lt_0_compat; lra). assert (BQ : 0 < (b - a) * Q) by (apply Rmult_lt_0_compat; lra).
  assert (Es : forall k F, ex_RInt F a b -> ex_RInt (fun x => k * F x) a b) by (intros k F H; apply (ex_RInt_scal F); auto).
  assert (E1 : RInt (fun x => p x / ((b - a) * P) * ln (p x / ((b - a) * P) / ((p x / ((b - a) * P) + q x / ((b - a) * Q)) / 2))) a b = avg (fa r) / P).
  { transitivity (RInt (fun x => / ((b - a) * P) * fa r x) a b).
    - apply RInt_ext. intros x. rewrite Rmin_left, Rmax_right by lra. intros I. destruct (Wi x ltac:(lra)) as [A B]. unfold fa, js_a.
      assert (0 < p x * Q) by (apply Rmult_lt_0_compat; lra). assert (0 < q x * P) by (apply Rmult_lt_0_compat; lra).
      assert (E : p x / ((b - a) * P) / ((p x / ((b - a) * P) + q x / ((b - a) * Q)) / 2) = 2 * p x / (p x + q x * r)) by (unfold r; field; repeat split; lra).
      rewrite E. apply Rminus_diag_uniq. field. lra.
    - rewrite int_avg, avg_scal by (eapply lip_int, fa_lip, Rb). apply Rminus_diag_uniq. field. lra. }
  assert (E2 : RInt (fun x => q x / ((b - a) * Q) * ln (q x / ((b - a) * Q) / ((p x / ((b - a) * P) + q x / ((b - a) * Q)) / 2))) a b = avg (fb r) / Q).
  { transitivity (RInt (fun x => / ((b - a) * Q) * fb r x) a b).
    - apply RInt_ext. intros x. rewrite Rmin_left, Rmax_right by lra. intros I. destruct (Wi x ltac:(lra)) as [A B]. unfold fb, js_b.
      assert (0 < p x * Q) by (apply Rmult_lt_0_compat; lra). assert (0 < q x * P) by (apply Rmult_lt_0_compat; lra).
      assert (E : q x / ((b - a) * Q) / ((p x / ((b - a) * P) + q x / ((b - a) * Q)) / 2) = 2 * (q x * r) / (p x + q x * r)) by (unfold r; field; repeat split; lra).
      rewrite E. apply Rminus_diag_uniq. field. lra.
    - rewrite int_avg, avg_scal by (eapply lip_int, fb_lip, Rb). apply Rminus_diag_uniq. field. lra. }
  rewrite E1, E2. unfold js_of. field. lra.
Qed.
Lemma js_grid_near G : (0 < G)%nat ->
  Rabs (js_div (map p (segment_points a b G)) (map q (segment_points a b G)) - js_integral p q a b) <= 2 * Lam * (b - a) * (c + 2 * L + 1) / (lo * ln 2 * INR G).
Proof.
  intros Gp. assert (Gr : 0 < INR G) by now apply lt_0_INR. set (pts := segment_points a b G). pose proof ln2_pos as L2.
  assert (Ne : pts <> []) by now apply points_ne.
  assert (W : forall x, In x pts -> within p q lo hi x) by (intros x I; apply Wi, (points_in G); auto).
  pose proof avg_p as Ap. pose proof avg_q as Aq. pose proof Lpos as Lp. pose proof (ratio_range lo hi Lo _ _ Ap Aq) as Rb.
  rewrite js_integral_of. set (r := avg p / avg q) in *.
  assert (KA : Rabs (avg (fa r)) <= 2 * L * avg p).
  { apply avg_abs; [eapply lip_int, fa_lip, Rb|eapply lip_int, Pl|]. intros x I. exact (fa_bound p q lo hi Lo x r (Wi x I) Rb). }
  assert (KB : Rabs (avg (fb r)) <= 2 * L * avg q).
  { apply avg_abs; [eapply lip_int, fb_lip, Rb|eapply lip_int, Ql|]. intros x I. exact (fb_bound p q lo hi Lo x r (Wi x I) Rb). }
  apply Rle_trans with (1 := js_near p q lo hi Lo pts _ _ (avg p) (avg q) Ne W Ap Aq KA KB). fold L r.
  pose proof (avg_near _ _ G Gp (fa_lip r Rb)) as N1. pose proof (avg_near _ _ G Gp (fb_lip r Rb)) as N2.
  pose proof (avg_near _ _ G Gp Pl) as N3. pose proof (avg_near _ _ G Gp Ql) as N4. fold pts in N1, N2, N3, N4.
  replace (2 * Lam * (b - a) * (c + 2 * L + 1) / (lo * ln 2 * INR G)) with
    ((Lam * (2 * L + 2 * c) * (b - a) / INR G + Lam * (2 * L + 2 * c) * (b - a) / INR G + 2 * (L + 1) * (Lam * (b - a) / INR G) + 2 * (L + 1) * (Lam * (b - a) / INR G)) / (2 * ln 2 * lo)) by (field; lra).
  apply Rmult_le_compat_r; [left; apply Rinv_0_lt_compat; apply Rmult_lt_0_compat; lra|].
  apply Rplus_le_compat; [|apply Rmult_le_compat_l; [lra|exact N4]]. apply Rplus_le_compat; [|apply Rmult_le_compat_l; [lra|exact N3]].
  apply Rplus_le_compat; [exact N1|exact N2].
Qed.
End Seg.
