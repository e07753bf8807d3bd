(** The Kullback-Leibler value as a function of three averages, and its error. *)
From Coq Require Import List Bool Arith Lia Reals Lra.
Import ListNotations.
From Verif Require Import Prelude.Py Prelude.RBase Spec.DivergenceSpec Spec.DrawMeanSpec Proofs.DivergenceProofs Proofs.DrawMean.
Open Scope R_scope.

Lemma lnd a b : 0 < a -> 0 < b -> ln (a / b) = ln a - ln b.
Proof. intros A B. unfold Rdiv. rewrite ln_mult, ln_Rinv by auto using Rinv_0_lt_compat. ring. Qed.
Lemma ln_near lo x y : 0 < lo -> lo <= x -> lo <= y -> Rabs (ln x - ln y) <= Rabs (x - y) / lo.
Proof.
  assert (H : forall lo x y, 0 < lo -> lo <= x -> lo <= y -> ln x - ln y <= Rabs (x - y) / lo).
  { intros l u v A B C. rewrite <- lnd by lra. apply Rle_trans with (u / v - 1); [apply ln_le_sub, Rdiv_lt_0_compat; lra|].
    replace (u / v - 1) with ((u - v) * / v) by (field; lra). unfold Rdiv.
    apply Rle_trans with (Rabs (u - v) * / v).
    - apply Rmult_le_compat_r; [left; apply Rinv_0_lt_compat; lra|apply Rle_abs].
    - apply Rmult_le_compat_l; [apply Rabs_pos|apply Rinv_le_contravar; lra]. }
  intros A B C. apply Rabs_le. split; [|now apply H]. pose proof (H lo y x A C B) as K. rewrite Rabs_minus_sym in K. lra.
Qed.

Lemma quot_near lo L T P T' P' : 0 < lo -> lo <= P -> lo <= P' -> Rabs T' <= L * P' ->
  Rabs (T / P - T' / P') <= Rabs (T - T') / lo + L * Rabs (P - P') / lo.
Proof.
  intros A B C D. replace (T / P - T' / P') with ((T - T') * / P + (T' * / P') * ((P' - P) * / P)) by (field; lra).
  apply Rle_trans with (1 := Rabs_triang _ _). rewrite !Rabs_mult.
  assert (I : 0 < / P <= / lo) by (split; [apply Rinv_0_lt_compat; lra|apply Rinv_le_contravar; lra]).
  rewrite (Rabs_right (/ P)) by lra. rewrite (Rabs_minus_sym P' P).
  assert (I' : 0 < / P') by (apply Rinv_0_lt_compat; lra). rewrite (Rabs_right (/ P')) by lra.
  assert (Tl : Rabs T' * / P' <= L).
  { apply Rmult_le_reg_r with P'; [lra|]. rewrite Rmult_assoc, Rinv_l by lra. lra. }
  pose proof (Rabs_pos (T - T')). pose proof (Rabs_pos (P - P')). pose proof (Rabs_pos T').
  apply Rplus_le_compat; [unfold Rdiv; apply Rmult_le_compat_l; [auto|apply I]|]. unfold Rdiv. rewrite (Rmult_assoc L).
  assert (0 <= Rabs T' * / P') by (apply Rmult_le_pos; lra).
  apply Rmult_le_compat; auto; [apply Rmult_le_pos; lra|]. apply Rmult_le_compat_l; lra.
Qed.

(** the value as a function of the averages of p ln (p/q), p and q *)
Definition kl_of (T P Q : R) : R := T / P - ln P + ln Q.
Lemma kl_of_near lo L T P Q T' P' Q' : 0 < lo -> lo <= P -> lo <= P' -> lo <= Q -> lo <= Q' -> Rabs T' <= L * P' ->
  Rabs (kl_of T P Q - kl_of T' P' Q') <= (Rabs (T - T') + (L + 1) * Rabs (P - P') + Rabs (Q - Q')) / lo.
Proof.
  intros A B C D E F. unfold kl_of. pose proof (quot_near lo L T P T' P' A B C F) as N1.
  pose proof (ln_near lo P P' A B C) as N2. pose proof (ln_near lo Q Q' A D E) as N3.
  replace (T / P - ln P + ln Q - (T' / P' - ln P' + ln Q')) with ((T / P - T' / P') + (- (ln P - ln P') + (ln Q - ln Q'))) by ring.
  apply Rle_trans with (1 := Rabs_triang _ _).
  apply Rle_trans with (Rabs (T / P - T' / P') + (Rabs (ln P - ln P') + Rabs (ln Q - ln Q'))).
  - apply Rplus_le_compat_l. rewrite <- (Rabs_Ropp (ln P - ln P')). apply Rabs_triang.
  - unfold Rdiv in *. lra.
Qed.

Lemma square_abs x y : 0 <= y -> Rabs x <= y -> square x <= square y.
Proof.
  intros P H. unfold square. replace (x * x) with (Rabs x * Rabs x) by (rewrite <- Rabs_mult; apply Rabs_right, Rle_ge, Rle_0_sqr).
  pose proof (Rabs_pos x). nra.
Qed.
Lemma square_Rabs x : square (Rabs x) = square x.
Proof. unfold square. rewrite <- Rabs_mult. apply Rabs_right, Rle_ge, Rle_0_sqr. Qed.
Lemma square_three a b c : square (a + b + c) <= 3 * (square a + square b + square c).
Proof.
  pose proof (Rle_0_sqr (a - b)) as A. pose proof (Rle_0_sqr (b - c)) as B. pose proof (Rle_0_sqr (a - c)) as C.
  unfold square, Rsqr in *. lra.
Qed.

Section Pos.
Context {X : Type}.
Variables (p q : X -> R) (lo hi : R).
Let L := ln (hi / lo).
Let g x := p x * ln (p x / q x).
Definition within (x : X) : Prop := lo <= p x <= hi /\ lo <= q x <= hi.
Hypothesis Lo : 0 < lo.

Lemma common_all xs : (forall x, In x xs -> within x) -> common (map p xs) (map q xs) = map (fun x => (p x, q x)) xs.
Proof.
  induction xs as [|x xs IH]; intros H; simpl; [reflexivity|]. destruct (H x (or_introl eq_refl)) as [A B].
  destruct (Rlt_dec 0 (p x)); [|lra]. destruct (Rlt_dec 0 (q x)); [|lra]. rewrite IH; auto. intros y I. apply H. now right.
Qed.
Lemma ratio_bound x : within x -> Rabs (ln (p x / q x)) <= L.
Proof.
  intros [A B]. unfold L. rewrite !lnd by lra.
  assert (M : forall u v, 0 < u -> u <= v -> ln u <= ln v) by (intros u v U [V| ->]; [left; now apply ln_increasing|lra]).
  pose proof (M lo (p x) Lo (proj1 A)). pose proof (M (p x) hi ltac:(lra) (proj2 A)).
  pose proof (M lo (q x) Lo (proj1 B)). pose proof (M (q x) hi ltac:(lra) (proj2 B)). apply Rabs_le. lra.
Qed.
Lemma term_bound x : within x -> Rabs (g x) <= L * p x.
Proof.
  intros W. pose proof (ratio_bound x W) as R. destruct W as [A B]. unfold g. rewrite Rabs_mult, (Rabs_right (p x)) by lra.
  rewrite Rmult_comm. apply Rmult_le_compat_r; lra.
Qed.
Lemma kl_div_of xs : xs <> [] -> (forall x, In x xs -> within x) ->
  kl_div (map p xs) (map q xs) = kl_of (mean_over xs g) (mean_over xs p) (mean_over xs q).
Proof.
  intros Ne W. unfold kl_div, rel_entropy, rescaled. rewrite (common_all xs W), !map_map. cbn [fst snd].
  assert (Np : 0 < INR (length xs)) by now apply len_pos.
  assert (Pp : 0 < total (map p xs)).
  { apply total_pos; [now apply map_nonnil|]. rewrite Forall_map, Forall_forall. intros x I. destruct (W x I). lra. }
  assert (Qp : 0 < total (map q xs)).
  { apply total_pos; [now apply map_nonnil|]. rewrite Forall_map, Forall_forall. intros x I. destruct (W x I). lra. }
  set (P := total (map p xs)) in *. set (Q := total (map q xs)) in *.
  rewrite (total_ext _ (fun x => / P * g x + (ln Q - ln P) * / P * p x)).
  - rewrite total_plus, !total_scale. fold P. unfold kl_of, mean_over. fold P Q. rewrite !lnd by lra. field. lra.
  - intros x I. destruct (W x I) as [A B]. unfold g. rewrite !lnd by (try apply Rdiv_lt_0_compat; lra). field. lra.
Qed.

Variable pts : list X.
Hypothesis Ne : pts <> [].
Hypothesis Wi : forall x, In x pts -> within x.
Lemma L_nonneg : 0 <= L.
Proof. destruct pts as [|x r]; [congruence|]. pose proof (ratio_bound x (Wi x (or_introl eq_refl))). pose proof (Rabs_pos (ln (p x / q x))). lra. Qed.
Lemma hi_pos : lo <= hi.
Proof. destruct pts as [|x r]; [congruence|]. destruct (Wi x (or_introl eq_refl)). lra. Qed.
Lemma mean_term_bound xs : xs <> [] -> (forall x, In x xs -> within x) -> Rabs (mean_over xs g) <= L * mean_over xs p.
Proof.
  intros N W. rewrite <- over_scal. apply Rabs_le. split.
  - replace (- mean_over xs (fun x => L * p x)) with (mean_over xs (fun x => (- 1) * (L * p x))) by (rewrite over_scal; ring).
    apply over_le; auto. intros x I. pose proof (term_bound x (W x I)) as B. pose proof (Rle_abs (g x)) as U. pose proof (Rle_abs (- g x)) as V. rewrite Rabs_Ropp in V. lra.
  - apply over_le; auto. intros x I. pose proof (term_bound x (W x I)) as B. pose proof (Rle_abs (g x)) as U. pose proof (Rle_abs (- g x)) as V. rewrite Rabs_Ropp in V. lra.
Qed.

Lemma kl_mean_square n : (0 < n)%nat ->
  mean_draws pts n (fun xs => square (kl_div (map p xs) (map q xs) - kl_div (map p pts) (map q pts)))
  <= 3 * square (hi / lo) * (square L + square (L + 1) + 1) / INR n.
Proof.
  intros Np. assert (Nr : 0 < INR n) by now apply lt_0_INR. pose proof L_nonneg as Lp. pose proof hi_pos as Hp.
  assert (Pa : forall x, In x pts -> Rabs (p x) <= hi) by (intros x I; destruct (Wi x I); rewrite Rabs_right; lra).
  assert (Qa : forall x, In x pts -> Rabs (q x) <= hi) by (intros x I; destruct (Wi x I); rewrite Rabs_right; lra).
  assert (Ga : forall x, In x pts -> Rabs (g x) <= L * hi).
  { intros x I. apply Rle_trans with (1 := term_bound x (Wi x I)). destruct (Wi x I). apply Rmult_le_compat_l; lra. }
  pose proof (sample_mean_square pts Ne g n (L * hi) Np Ga) as S1.
  pose proof (sample_mean_square pts Ne p n hi Np Pa) as S2.
  pose proof (sample_mean_square pts Ne q n hi Np Qa) as S3.
  set (d1 := fun xs => mean_over xs g - mean_over pts g) in *. set (d2 := fun xs => mean_over xs p - mean_over pts p) in *.
  set (d3 := fun xs => mean_over xs q - mean_over pts q) in *.
  set (k := 3 * / (lo * lo)). assert (Kp : 0 < k) by (apply Rmult_lt_0_compat; [lra|apply Rinv_0_lt_compat; nra]).
  apply Rle_trans with (mean_draws pts n (fun xs => k * square (d1 xs) + (k * square (L + 1) * square (d2 xs) + k * square (d3 xs)))).
  - apply draws_le; auto. intros xs Len M.
    assert (Nx : xs <> []) by (intros ->; simpl in Len; lia).
    assert (W : forall x, In x xs -> within x) by (intros x I; apply Wi, M, I).
    rewrite (kl_div_of xs Nx W), (kl_div_of pts Ne Wi).
    pose proof (over_bounds xs Nx lo hi p (fun x I => proj1 (W x I))). pose proof (over_bounds xs Nx lo hi q (fun x I => proj2 (W x I))).
    pose proof (over_bounds pts Ne lo hi p (fun x I => proj1 (Wi x I))). pose proof (over_bounds pts Ne lo hi q (fun x I => proj2 (Wi x I))).
    pose proof (kl_of_near lo L (mean_over xs g) (mean_over xs p) (mean_over xs q) (mean_over pts g) (mean_over pts p) (mean_over pts q)
      Lo ltac:(lra) ltac:(lra) ltac:(lra) ltac:(lra) (mean_term_bound pts Ne Wi)) as N.
    fold (d1 xs) (d2 xs) (d3 xs) in N. pose proof (Rabs_pos (d1 xs)). pose proof (Rabs_pos (d2 xs)). pose proof (Rabs_pos (d3 xs)).
    assert (0 < / lo) by now apply Rinv_0_lt_compat.
    apply Rle_trans with (1 := square_abs _ _ (Rle_trans _ _ _ (Rabs_pos _) N) N).
    replace (square ((Rabs (d1 xs) + (L + 1) * Rabs (d2 xs) + Rabs (d3 xs)) / lo)) with (/ (lo * lo) * square (Rabs (d1 xs) + (L + 1) * Rabs (d2 xs) + Rabs (d3 xs)))
      by (unfold square; field; lra).
    apply Rle_trans with (/ (lo * lo) * (3 * (square (Rabs (d1 xs)) + square ((L + 1) * Rabs (d2 xs)) + square (Rabs (d3 xs))))).
    + apply Rmult_le_compat_l; [left; apply Rinv_0_lt_compat; nra|apply square_three].
    + right. rewrite !square_Rabs. replace (square ((L + 1) * Rabs (d2 xs))) with (square (L + 1) * square (d2 xs)) by (rewrite <- (square_Rabs (d2 xs)); unfold square; ring).
      unfold k. ring.
  - rewrite draws_plus, draws_plus, !draws_scal.
    apply Rle_trans with (k * (L * hi * (L * hi) / INR n) + (k * square (L + 1) * (hi * hi / INR n) + k * (hi * hi / INR n))).
    + apply Rplus_le_compat; [apply Rmult_le_compat_l; [lra|exact S1]|]. apply Rplus_le_compat; [|apply Rmult_le_compat_l; [lra|exact S3]].
      apply Rmult_le_compat_l; [|exact S2]. apply Rmult_le_pos; [lra|apply Rle_0_sqr].
    + right. unfold k, square. field. lra.
Qed.
End Pos.
