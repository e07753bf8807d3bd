(** The Jensen-Shannon value as a function of averages, and its error. *)
From Coq Require Import List Bool Arith Lia Reals Lra.
Import ListNotations.
From Verif Require Import Prelude.Py Prelude.RBase Spec.DivergenceSpec Spec.DrawMeanSpec Proofs.DivergenceProofs Proofs.DrawMean Proofs.KlDraws.
Open Scope R_scope.

(** the two terms at a point, for a ratio r of the two totals *)
Definition js_a (u v r : R) : R := u * ln (2 * u / (u + v * r)).
Definition js_b (u v r : R) : R := v * ln (2 * (v * r) / (u + v * r)).
Definition js_of (A B P Q : R) : R := (A / P + B / Q) / (2 * ln 2).

Lemma ln_mono u v : 0 < u -> u <= v -> ln u <= ln v.
Proof. intros U [V| ->]; [left; now apply ln_increasing|lra]. Qed.
Lemma mid_log a b : 0 < a -> 0 < b -> Rabs (ln (2 * a / (a + b))) <= Rabs (ln a - ln b).
Proof.
  intros A B. rewrite lnd by lra. rewrite ln_mult by lra.
  replace (a + b) with (2 * ((a + b) / 2)) by field. rewrite ln_mult by lra.
  replace (ln 2 + ln a - (ln 2 + ln ((a + b) / 2))) with (ln a - ln ((a + b) / 2)) by ring.
  destruct (Rle_dec a b) as [H|H].
  - pose proof (ln_mono a ((a + b) / 2) A ltac:(lra)). pose proof (ln_mono ((a + b) / 2) b ltac:(lra) ltac:(lra)).
    rewrite !Rabs_left1 by lra. lra.
  - pose proof (ln_mono b ((a + b) / 2) B ltac:(lra)). pose proof (ln_mono ((a + b) / 2) a ltac:(lra) ltac:(lra)).
    rewrite !Rabs_right by lra. lra.
Qed.
(** the slope in the ratio *)
Lemma js_a_ratio u v r s : 0 < u -> 0 < v -> 0 < r -> 0 < s -> Rabs (js_a u v r - js_a u v s) <= Rabs (ln r - ln s) * u.
Proof.
  intros U V R S. assert (H : forall r s, 0 < s -> s <= r -> Rabs (js_a u v r - js_a u v s) <= Rabs (ln r - ln s) * u).
  { clear r s R S. intros r s S H. assert (0 < v * s) by (apply Rmult_lt_0_compat; lra). assert (v * s <= v * r) by (apply Rmult_le_compat_l; lra).
    unfold js_a. rewrite !lnd by lra. rewrite <- Rmult_minus_distr_l, Rabs_mult, (Rabs_right u), Rmult_comm by lra.
    apply Rmult_le_compat_r; [lra|].
    pose proof (ln_mono s r S H). rewrite (Rabs_right (ln r - ln s)) by lra.
    pose proof (ln_mono (u + v * s) (u + v * r) ltac:(lra) ltac:(lra)).
    assert (ln (u + v * r) - ln (u + v * s) <= ln r - ln s).
    { rewrite <- !lnd by lra. apply ln_mono; [apply Rdiv_lt_0_compat; lra|].
      apply Rmult_le_reg_r with ((u + v * s) * s); [apply Rmult_lt_0_compat; lra|].
      replace ((u + v * r) / (u + v * s) * ((u + v * s) * s)) with (u * s + v * r * s) by (field; lra).
      replace (r / s * ((u + v * s) * s)) with (u * r + v * r * s) by (field; lra). apply Rplus_le_compat_r. apply Rmult_le_compat_l; lra. }
    rewrite Rabs_left1; lra. }
  destruct (Rle_dec s r); [now apply H|]. rewrite Rabs_minus_sym, (Rabs_minus_sym (ln r)). apply H; lra.
Qed.
Lemma js_swap u v r : 0 < u -> 0 < v -> 0 < r -> js_b u v r = js_a v u (/ r).
Proof.
  intros U V R. unfold js_a, js_b. f_equal. f_equal. assert (0 < v * r) by (apply Rmult_lt_0_compat; lra). field. repeat split; lra.
Qed.
Lemma js_b_ratio u v r s : 0 < u -> 0 < v -> 0 < r -> 0 < s -> Rabs (js_b u v r - js_b u v s) <= Rabs (ln r - ln s) * v.
Proof.
  intros U V R S. rewrite !js_swap by auto. apply Rle_trans with (Rabs (ln (/ r) - ln (/ s)) * v).
  - apply js_a_ratio; auto using Rinv_0_lt_compat.
  - right. f_equal. rewrite !ln_Rinv by auto. rewrite <- Rabs_Ropp. f_equal. ring.
Qed.

Lemma js_of_near lo L A B P Q A0 B0 A' B' P' Q' : 0 < lo -> lo <= P -> lo <= P' -> lo <= Q -> lo <= Q' -> 0 <= L ->
  Rabs (A - A0) <= Rabs (ln (P / Q) - ln (P' / Q')) * P -> Rabs (B - B0) <= Rabs (ln (P / Q) - ln (P' / Q')) * Q ->
  Rabs A' <= 2 * L * P' -> Rabs B' <= 2 * L * Q' ->
  Rabs (js_of A B P Q - js_of A' B' P' Q') <=
  (Rabs (A0 - A') + Rabs (B0 - B') + 2 * (L + 1) * Rabs (P - P') + 2 * (L + 1) * Rabs (Q - Q')) / (2 * ln 2 * lo).
Proof.
  intros Lo P1 P2 Q1 Q2 Lp HA HB KA KB. pose proof ln2_pos as L2. unfold js_of.
  set (D := Rabs (ln (P / Q) - ln (P' / Q'))) in *.
  assert (Db : D <= Rabs (P - P') / lo + Rabs (Q - Q') / lo).
  { unfold D. rewrite !lnd by lra. replace (ln P - ln Q - (ln P' - ln Q')) with ((ln P - ln P') + - (ln Q - ln Q')) by ring.
    apply Rle_trans with (1 := Rabs_triang _ _). rewrite Rabs_Ropp. apply Rplus_le_compat; apply ln_near; auto. }
  assert (step : forall u u0 w, lo <= w -> Rabs (u - u0) <= D * w -> Rabs (u / w - u0 / w) <= D).
  { intros u u0 w W H. replace (u / w - u0 / w) with ((u - u0) * / w) by (field; lra). rewrite Rabs_mult.
    assert (0 < / w) by (apply Rinv_0_lt_compat; lra). rewrite (Rabs_right (/ w)) by lra.
    apply Rmult_le_reg_r with w; [lra|]. rewrite Rmult_assoc, Rinv_l by lra. lra. }
  pose proof (step A A0 P P1 HA) as N1. pose proof (step B B0 Q Q1 HB) as N2.
  pose proof (quot_near lo (2 * L) A0 P A' P' Lo P1 P2 KA) as N3. pose proof (quot_near lo (2 * L) B0 Q B' Q' Lo Q1 Q2 KB) as N4.
  replace ((A / P + B / Q) / (2 * ln 2) - (A' / P' + B' / Q') / (2 * ln 2))
    with (((A / P - A0 / P) + ((B / Q - B0 / Q) + ((A0 / P - A' / P') + (B0 / Q - B' / Q')))) * / (2 * ln 2)) by (field; lra).
  assert (I2 : 0 < / (2 * ln 2)) by (apply Rinv_0_lt_compat; lra). rewrite Rabs_mult, (Rabs_right (/ (2 * ln 2))) by lra.
  replace ((Rabs (A0 - A') + Rabs (B0 - B') + 2 * (L + 1) * Rabs (P - P') + 2 * (L + 1) * Rabs (Q - Q')) / (2 * ln 2 * lo))
    with (((Rabs (P - P') / lo + Rabs (Q - Q') / lo) + ((Rabs (P - P') / lo + Rabs (Q - Q') / lo) +
          ((Rabs (A0 - A') / lo + 2 * L * Rabs (P - P') / lo) + (Rabs (B0 - B') / lo + 2 * L * Rabs (Q - Q') / lo)))) * / (2 * ln 2)) by (field; lra).
  apply Rmult_le_compat_r; [lra|].
  apply Rle_trans with (1 := Rabs_triang _ _). apply Rplus_le_compat; [lra|].
  apply Rle_trans with (1 := Rabs_triang _ _). apply Rplus_le_compat; [lra|].
  apply Rle_trans with (1 := Rabs_triang _ _). apply Rplus_le_compat; lra.
Qed.
Lemma square_four a b c d : square (a + b + c + d) <= 4 * (square a + square b + square c + square d).
Proof.
  pose proof (Rle_0_sqr (a - b)) as A. pose proof (Rle_0_sqr (b - c)) as B. pose proof (Rle_0_sqr (a - c)) as C.
  pose proof (Rle_0_sqr (a - d)) as D. pose proof (Rle_0_sqr (b - d)) as E. pose proof (Rle_0_sqr (c - d)) as F.
  unfold square, Rsqr in *. lra.
Qed.
Lemma over_near {X} (xs : list X) f g h k : xs <> [] -> (forall x, In x xs -> Rabs (f x - g x) <= k * h x) ->
  Rabs (mean_over xs f - mean_over xs g) <= k * mean_over xs h.
Proof.
  intros N H. rewrite <- over_scal.
  assert (E : mean_over xs f - mean_over xs g = mean_over xs (fun x => f x - g x)).
  { unfold Rminus. rewrite over_plus. f_equal. replace (- mean_over xs g) with ((- 1) * mean_over xs g) by ring. rewrite <- over_scal.
    apply over_ext. intros; ring. }
  rewrite E. apply Rabs_le. split.
  - replace (- mean_over xs (fun x => k * h x)) with (mean_over xs (fun x => (- 1) * (k * h x))) by (rewrite over_scal; ring).
    apply over_le; auto. intros x I. specialize (H x I). pose proof (Rle_abs (- (f x - g x))) as V. rewrite Rabs_Ropp in V. lra.
  - apply over_le; auto. intros x I. specialize (H x I). pose proof (Rle_abs (f x - g x)) as V. lra.
Qed.
Lemma over_abs {X} (xs : list X) f h k : xs <> [] -> (forall x, In x xs -> Rabs (f x) <= k * h x) -> Rabs (mean_over xs f) <= k * mean_over xs h.
Proof.
  intros N H. pose proof (over_near xs f (fun _ => 0) h k N) as O. rewrite over_const, Rminus_0_r in O by auto. apply O.
  intros x I. rewrite Rminus_0_r. apply H, I.
Qed.

Section Pos.
Context {X : Type}.
Variables (p q : X -> R) (lo hi : R).
Let L := ln (hi / lo).
Hypothesis Lo : 0 < lo.
Notation within := (within p q lo hi).
Let fa r x := js_a (p x) (q x) r.
Let fb r x := js_b (p x) (q x) r.

Lemma log_gap x r : within x -> lo / hi <= r <= hi / lo -> Rabs (ln (p x) - ln (q x * r)) <= 2 * L.
Proof.
  intros W R. pose proof (ratio_bound p q lo hi Lo x W) as B. destruct W as [W1 W2]. assert (Hp : 0 < hi) by lra.
  assert (Ql : 0 < lo / hi) by (apply Rdiv_lt_0_compat; lra).
  rewrite ln_mult by lra. rewrite lnd in B by lra. fold L in B.
  assert (C : Rabs (ln r) <= L).
  { pose proof (ln_mono (lo / hi) r Ql (proj1 R)) as M1. pose proof (ln_mono r (hi / lo) ltac:(lra) (proj2 R)) as M2.
    unfold L. rewrite !lnd in * by lra. apply Rabs_le. lra. }
  replace (ln (p x) - (ln (q x) + ln r)) with ((ln (p x) - ln (q x)) + - ln r) by ring.
  apply Rle_trans with (1 := Rabs_triang _ _). rewrite Rabs_Ropp. lra.
Qed.
Lemma fa_bound x r : within x -> lo / hi <= r <= hi / lo -> Rabs (fa r x) <= 2 * L * p x.
Proof.
  intros W R. pose proof (log_gap x r W R) as G. destruct W as [W1 W2].
  assert (Ql : 0 < lo / hi) by (apply Rdiv_lt_0_compat; lra). assert (0 < q x * r) by (apply Rmult_lt_0_compat; lra).
  unfold fa, js_a. rewrite Rabs_mult, (Rabs_right (p x)), Rmult_comm by lra. apply Rmult_le_compat_r; [lra|].
  apply Rle_trans with (1 := mid_log (p x) (q x * r) ltac:(lra) ltac:(lra)). exact G.
Qed.
Lemma fb_bound x r : within x -> lo / hi <= r <= hi / lo -> Rabs (fb r x) <= 2 * L * q x.
Proof.
  intros W R. pose proof (log_gap x r W R) as G. destruct W as [W1 W2].
  assert (Ql : 0 < lo / hi) by (apply Rdiv_lt_0_compat; lra). assert (0 < q x * r) by (apply Rmult_lt_0_compat; lra).
  unfold fb, js_b. rewrite Rabs_mult, (Rabs_right (q x)), Rmult_comm by lra. apply Rmult_le_compat_r; [lra|].
  rewrite (Rplus_comm (p x)).
  apply Rle_trans with (1 := mid_log (q x * r) (p x) ltac:(lra) ltac:(lra)). rewrite Rabs_minus_sym. exact G.
Qed.
Lemma js_div_of xs : xs <> [] -> (forall x, In x xs -> within x) ->
  let r := mean_over xs p / mean_over xs q in
  js_div (map p xs) (map q xs) = js_of (mean_over xs (fa r)) (mean_over xs (fb r)) (mean_over xs p) (mean_over xs q).
Proof.
  intros Ne W r. unfold js_div, rel_entropy, rescaled. rewrite (common_all p q lo hi Lo xs W), !map_map. cbn [fst snd].
  rewrite ?map_map. cbn [fst snd].
  assert (Np : 0 < INR (length xs)) by now apply len_pos. pose proof ln2_pos as L2.
  assert (Pp : 0 < total (map p xs)).
  { apply total_pos; [now apply map_nonnil|]. rewrite Forall_map, Forall_forall. intros x I. destruct (W x I). lra. }
  assert (Qp : 0 < total (map q xs)).
  { apply total_pos; [now apply map_nonnil|]. rewrite Forall_map, Forall_forall. intros x I. destruct (W x I). lra. }
  assert (Er : r = total (map p xs) / total (map q xs)) by (unfold r, mean_over; field; lra). rewrite Er. clear r Er.
  set (P := total (map p xs)) in *. set (Q := total (map q xs)) in *.
  rewrite (total_ext (fun x => p x / P * ln (p x / P / ((p x / P + q x / Q) / 2))) (fun x => / P * fa (P / Q) x)).
  - rewrite (total_ext (fun x => q x / Q * ln (q x / Q / ((p x / P + q x / Q) / 2))) (fun x => / Q * fb (P / Q) x)).
    + rewrite !total_scale. unfold js_of, mean_over. fold P Q. field. lra.
    + intros x I. destruct (W x I) as [A B]. unfold fb, js_b.
      assert (E : q x / Q / ((p x / P + q x / Q) / 2) = 2 * (q x * (P / Q)) / (p x + q x * (P / Q))).
      { assert (0 < p x * Q) by (apply Rmult_lt_0_compat; lra). assert (0 < q x * P) by (apply Rmult_lt_0_compat; lra). field. repeat split; lra. }
      rewrite E. field. lra.
  - intros x I. destruct (W x I) as [A B]. unfold fa, js_a.
    assert (E : p x / P / ((p x / P + q x / Q) / 2) = 2 * p x / (p x + q x * (P / Q))).
    { assert (0 < p x * Q) by (apply Rmult_lt_0_compat; lra). assert (0 < q x * P) by (apply Rmult_lt_0_compat; lra). field. repeat split; lra. }
    rewrite E. field. lra.
Qed.

Lemma ratio_range a b : lo <= a <= hi -> lo <= b <= hi -> lo / hi <= a / b <= hi / lo.
Proof.
  intros A B. split.
  - apply Rmult_le_reg_r with (hi * b); [apply Rmult_lt_0_compat; lra|].
    replace (lo / hi * (hi * b)) with (lo * b) by (field; lra). replace (a / b * (hi * b)) with (a * hi) by (field; lra). apply Rmult_le_compat; lra.
  - apply Rmult_le_reg_r with (lo * b); [apply Rmult_lt_0_compat; lra|].
    replace (hi / lo * (lo * b)) with (hi * b) by (field; lra). replace (a / b * (lo * b)) with (a * lo) by (field; lra). apply Rmult_le_compat; lra.
Qed.

(** Against any reference averages. *)
Lemma js_near xs A' B' P' Q' : xs <> [] -> (forall x, In x xs -> within x) -> lo <= P' <= hi -> lo <= Q' <= hi ->
  Rabs A' <= 2 * L * P' -> Rabs B' <= 2 * L * Q' ->
  Rabs (js_div (map p xs) (map q xs) - js_of A' B' P' Q') <=
  (Rabs (mean_over xs (fa (P' / Q')) - A') + Rabs (mean_over xs (fb (P' / Q')) - B')
   + 2 * (L + 1) * Rabs (mean_over xs p - P') + 2 * (L + 1) * Rabs (mean_over xs q - Q')) / (2 * ln 2 * lo).
Proof.
  intros Ne W Pb Qb KA KB. rewrite (js_div_of xs Ne W).
  pose proof (over_bounds xs Ne lo hi p (fun x I => proj1 (W x I))). pose proof (over_bounds xs Ne lo hi q (fun x I => proj2 (W x I))).
  assert (R1 : 0 < mean_over xs p / mean_over xs q) by (apply Rdiv_lt_0_compat; lra). assert (R2 : 0 < P' / Q') by (apply Rdiv_lt_0_compat; lra).
  assert (Lp : 0 <= L).
  { unfold L. rewrite <- ln_1. apply ln_mono; [lra|]. apply Rmult_le_reg_r with lo; auto. replace (hi / lo * lo) with hi by (field; lra). lra. }
  apply js_of_near; try lra.
  - apply over_near; auto. intros x I. destruct (W x I). apply js_a_ratio; lra.
  - apply over_near; auto. intros x I. destruct (W x I). apply js_b_ratio; lra.
Qed.

Variable pts : list X.
Hypothesis Ne : pts <> [].
Hypothesis Wi : forall x, In x pts -> within x.
Lemma js_mean_square n : (0 < n)%nat ->
  mean_draws pts n (fun xs => square (js_div (map p xs) (map q xs) - js_div (map p pts) (map q pts)))
  <= 8 * square (hi / (lo * ln 2)) * (square L + square (L + 1)) / INR n.
Proof.
  intros Np. assert (Nr : 0 < INR n) by now apply lt_0_INR. pose proof ln2_pos as L2.
  pose proof (L_nonneg p q lo hi Lo pts Ne Wi) as Lp. fold L in Lp. pose proof (hi_pos p q lo hi pts Ne Wi) as Hp.
  pose proof (over_bounds pts Ne lo hi p (fun x I => proj1 (Wi x I))) as Pb. pose proof (over_bounds pts Ne lo hi q (fun x I => proj2 (Wi x I))) as Qb.
  set (P' := mean_over pts p) in *. set (Q' := mean_over pts q) in *. pose proof (ratio_range P' Q' Pb Qb) as Rb. set (r := P' / Q') in *.
  assert (Pa : forall x, In x pts -> Rabs (p x) <= hi) by (intros x I; destruct (Wi x I); rewrite Rabs_right; lra).
  assert (Qa : forall x, In x pts -> Rabs (q x) <= hi) by (intros x I; destruct (Wi x I); rewrite Rabs_right; lra).
  assert (Aa : forall x, In x pts -> Rabs (fa r x) <= 2 * L * hi).
  { intros x I. apply Rle_trans with (1 := fa_bound x r (Wi x I) Rb). destruct (Wi x I). apply Rmult_le_compat_l; lra. }
  assert (Ba : forall x, In x pts -> Rabs (fb r x) <= 2 * L * hi).
  { intros x I. apply Rle_trans with (1 := fb_bound x r (Wi x I) Rb). destruct (Wi x I). apply Rmult_le_compat_l; lra. }
  assert (KA : Rabs (mean_over pts (fa r)) <= 2 * L * P') by (apply over_abs; auto; intros x I; apply fa_bound; auto).
  assert (KB : Rabs (mean_over pts (fb r)) <= 2 * L * Q') by (apply over_abs; auto; intros x I; apply fb_bound; auto).
  pose proof (sample_mean_square pts Ne (fa r) n (2 * L * hi) Np Aa) as S1.
  pose proof (sample_mean_square pts Ne (fb r) n (2 * L * hi) Np Ba) as S2.
  pose proof (sample_mean_square pts Ne p n hi Np Pa) as S3.
  pose proof (sample_mean_square pts Ne q n hi Np Qa) as S4.
  set (d1 := fun xs => mean_over xs (fa r) - mean_over pts (fa r)). set (d2 := fun xs => mean_over xs (fb r) - mean_over pts (fb r)).
  set (d3 := fun xs => mean_over xs p - mean_over pts p). set (d4 := fun xs => mean_over xs q - mean_over pts q).
  set (k := 4 * / ((2 * ln 2 * lo) * (2 * ln 2 * lo))).
  assert (Dp : 0 < 2 * ln 2 * lo) by (apply Rmult_lt_0_compat; lra).
  assert (Kp : 0 < k) by (apply Rmult_lt_0_compat; [lra|apply Rinv_0_lt_compat; nra]).
  set (m := 2 * (L + 1)).
  apply Rle_trans with (mean_draws pts n (fun xs => k * square (d1 xs) + (k * square (d2 xs) + (k * square m * square (d3 xs) + k * square m * square (d4 xs))))).
  - apply draws_le; auto. intros xs Len M.
    assert (Nx : xs <> []) by (intros ->; simpl in Len; lia).
    assert (W : forall x, In x xs -> within x) by (intros x I; apply Wi, M, I).
    rewrite (js_div_of pts Ne Wi). fold P' Q' r.
    pose proof (js_near xs (mean_over pts (fa r)) (mean_over pts (fb r)) P' Q' Nx W Pb Qb KA KB) as N. fold r in N.
    change (mean_over xs (fa r) - mean_over pts (fa r)) with (d1 xs) in N. change (mean_over xs (fb r) - mean_over pts (fb r)) with (d2 xs) in N.
    change (mean_over xs p - P') with (d3 xs) in N. change (mean_over xs q - Q') with (d4 xs) in N. fold m in N.
    apply Rle_trans with (1 := square_abs _ _ (Rle_trans _ _ _ (Rabs_pos _) N) N).
    set (e1 := d1 xs). set (e2 := d2 xs). set (e3 := d3 xs). set (e4 := d4 xs).
    replace (square ((Rabs e1 + Rabs e2 + m * Rabs e3 + m * Rabs e4) / (2 * ln 2 * lo)))
      with (/ ((2 * ln 2 * lo) * (2 * ln 2 * lo)) * square (Rabs e1 + Rabs e2 + m * Rabs e3 + m * Rabs e4)) by (unfold square; field; lra).
    apply Rle_trans with (/ ((2 * ln 2 * lo) * (2 * ln 2 * lo)) * (4 * (square (Rabs e1) + square (Rabs e2) + square (m * Rabs e3) + square (m * Rabs e4)))).
    + apply Rmult_le_compat_l; [left; apply Rinv_0_lt_compat; nra|apply square_four].
    + right. assert (Sm : forall e, square (m * Rabs e) = square m * square e) by (intros e; rewrite <- (square_Rabs e); unfold square; ring).
      rewrite !Sm, !square_Rabs. unfold k. ring.
  - rewrite !draws_plus, !draws_scal.
    apply Rle_trans with (k * (2 * L * hi * (2 * L * hi) / INR n) + (k * (2 * L * hi * (2 * L * hi) / INR n) +
      (k * square m * (hi * hi / INR n) + k * square m * (hi * hi / INR n)))).
    + assert (0 <= k * square m) by (apply Rmult_le_pos; [lra|apply Rle_0_sqr]).
      apply Rplus_le_compat; [apply Rmult_le_compat_l; [lra|exact S1]|]. apply Rplus_le_compat; [apply Rmult_le_compat_l; [lra|exact S2]|].
      apply Rplus_le_compat; apply Rmult_le_compat_l; auto.
    + right. unfold k, m, square. field. lra.
Qed.
End Pos.
