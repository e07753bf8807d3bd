(** Weights and effective sample size of nested sampling. *)
From Coq Require Import List Bool Arith Lia Reals Lra.
Import ListNotations.
From Verif Require Import Prelude.Py Prelude.QBase Prelude.RBase Model.Nested Spec.NestedSpec.
Open Scope R_scope.

Lemma shrink_enclosed N i : shrink N i = enclosed N i.
Proof. unfold shrink, enclosed. f_equal. unfold Rdiv. lra. Qed.

Lemma shells_spec N n : (0 < n)%nat -> shells N n = map (shell N) (seq 0 n).
Proof.
  intros H. destruct n as [|n]; [lia|]. unfold shells. cbn [seq map]. f_equal.
  - unfold shrink. simpl. replace (- 0 / INR N) with 0 by (unfold Rdiv; lra). apply exp_0.
  - replace (S n - 1)%nat with n by lia. apply map_ext_in. intros i Hi. apply in_seq in Hi. destruct i as [|j]; [lia|].
    replace (S j - 1)%nat with j by lia. rewrite !shrink_enclosed. reflexivity.
Qed.

Lemma enclosed_dec N i : (0 < N)%nat -> enclosed N (S i) < enclosed N i.
Proof.
  intros H. unfold enclosed. apply exp_increasing. apply Ropp_lt_contravar. unfold Rdiv. apply Rmult_lt_compat_r.
  - apply Rinv_0_lt_compat. now apply lt_0_INR.
  - apply lt_INR. lia.
Qed.
Lemma shell_pos N i : (0 < N)%nat -> 0 < shell N i.
Proof. intros H. destruct i as [|i]; cbn [shell]; [lra|]. pose proof (enclosed_dec N i H). lra. Qed.

Lemma shells_total N n : Rsum (map (shell N) (seq 0 (S n))) = 2 - enclosed N n.
Proof.
  induction n as [|n IH].
  - simpl. unfold enclosed. simpl. replace (- (0 / INR N)) with 0 by (unfold Rdiv; lra). rewrite exp_0. lra.
  - rewrite seq_S, map_app. assert (A : forall l m, Rsum (l ++ m) = Rsum l + Rsum m).
    { clear. induction l as [|x l IHl]; intros m; simpl; [lra|]. rewrite IHl. lra. }
    rewrite A, IH. cbn [map Rsum shell Nat.add]. lra.
Qed.
Lemma shells_exceed N n : (0 < N)%nat -> (2 <= n)%nat -> 1 < Rsum (shells N n).
Proof.
  intros HN H. rewrite shells_spec by lia. destruct n as [|[|n]]; try lia. rewrite shells_total.
  assert (enclosed N (S n) < 1).
  { unfold enclosed. rewrite <- exp_0. apply exp_increasing. assert (0 < INR (S n) / INR N); [|lra].
    apply Rdiv_lt_0_compat; apply lt_0_INR; lia. }
  lra.
Qed.

Lemma map2_map_r {A B C D} (f : A -> C -> D) (g : B -> C) l m : map2 f l (map g m) = map2 (fun a b => f a (g b)) l m.
Proof. revert m. induction l as [|a l IH]; intros [|b m]; simpl; auto. now rewrite IH. Qed.
Lemma Rsum_scale c l : Rsum (map (fun x => x * c) l) = Rsum l * c.
Proof. induction l as [|x l IH]; simpl; [lra|]. rewrite IH. lra. Qed.
Lemma Rsum_nonneg l : Forall (fun x => 0 <= x) l -> 0 <= Rsum l.
Proof. induction 1; simpl; lra. Qed.

Definition terms (N : nat) (L : list R) : list R := map2 (fun l i => l * shell N i) L (seq 0 (length L)).

Lemma terms_nth N L i : (i < length L)%nat -> nth i (terms N L) 0 = nth i L 0 * shell N i.
Proof.
  unfold terms. assert (G : forall L o i, (i < length L)%nat -> nth i (map2 (fun l i => l * shell N i) L (seq o (length L))) 0 = nth i L 0 * shell N (o + i)).
  { clear. induction L as [|l L IH]; intros o [|i] H; cbn [length seq map2 nth] in *; try (simpl in H; lia).
    - now rewrite Nat.add_0_r.
    - rewrite IH by lia. now replace (S o + i)%nat with (o + S i)%nat by lia. }
  intros H. now rewrite G.
Qed.
Lemma terms_length N L : length (terms N L) = length L.
Proof.
  unfold terms. generalize 0%nat. induction L as [|l L IH]; intros o; simpl; auto.
Qed.
Lemma terms_nonneg N L : (0 < N)%nat -> Forall (fun l => 0 <= l) L -> Forall (fun l => 0 <= l) (terms N L).
Proof.
  intros HN. unfold terms. generalize 0%nat. induction L as [|l L IH]; intros o F; simpl; constructor; inversion F; subst.
  - pose proof (shell_pos N o HN). nra.
  - apply IH; auto.
Qed.
Lemma terms_positive N L : (0 < N)%nat -> Forall (fun l => 0 <= l) L -> Exists (fun l => 0 < l) L -> 0 < Rsum (terms N L).
Proof.
  intros HN. unfold terms. generalize 0%nat. induction L as [|l L IH]; intros o F E; [inversion E|].
  inversion F; subst. cbn [length seq map2 Rsum].
  assert (NN : 0 <= Rsum (map2 (fun l i => l * shell N i) L (seq (S o) (length L)))).
  { apply Rsum_nonneg. clear - HN H2. generalize (S o). induction L as [|l' L IH]; intros o'; simpl; constructor; inversion H2; subst.
    - pose proof (shell_pos N o' HN). nra.
    - auto. }
  pose proof (shell_pos N o HN). inversion E; subst.
  - nra.
  - specialize (IH (S o) H2 H3). nra.
Qed.

Lemma weights_finite N L : (0 < N)%nat -> Forall (fun l => 0 <= l) L -> Exists (fun l => 0 < l) L ->
  exists ws, nested_weights N L = map Fin ws /\ length ws = length L /\ Forall (fun w => 0 <= w) ws /\ Rsum ws = 1 /\
    (forall i, (i < length L)%nat -> nth i ws 0 * Rsum (terms N L) = nth i L 0 * shell N i).
Proof.
  intros HN F E. pose proof (terms_positive N L HN F E) as Z.
  assert (NE : (0 < length L)%nat) by (destruct L; [inversion E|simpl; lia]).
  exists (map (fun x => x * / Rsum (terms N L)) (terms N L)). split; [|split; [|split; [|split]]].
  - unfold nested_weights. rewrite shells_spec by auto. rewrite map2_map_r. fold (terms N L). cbv zeta.
    rewrite map_map. apply map_ext. intros x. unfold fdivR, Reqb. destruct (Req_EM_T (Rsum (terms N L)) 0); [lra|reflexivity].
  - now rewrite map_length, terms_length.
  - apply Forall_forall. intros w Hw. apply in_map_iff in Hw. destruct Hw as (x & <- & Hx).
    pose proof (terms_nonneg N L HN F) as T. rewrite Forall_forall in T. specialize (T x Hx).
    assert (0 < / Rsum (terms N L)) by (apply Rinv_0_lt_compat; lra). nra.
  - rewrite Rsum_scale. apply Rinv_r. lra.
  - intros i Hi. replace 0 with (0 * / Rsum (terms N L)) at 1 by ring.
    rewrite (map_nth (fun x => x * / Rsum (terms N L))), terms_nth by auto. field. lra.
Qed.

Lemma weights_zero N L : Forall (fun l => l = 0) L -> L <> [] -> Forall (fun w => w = NaN) (nested_weights N L).
Proof.
  intros F NE. unfold nested_weights. cbv zeta. set (S0 := shells N (length L)).
  assert (Z : Forall (fun x => x = 0) (map2 Rmult L S0)).
  { clearbody S0. clear NE. revert S0. induction F as [|l L H F IH]; intros [|a S0]; simpl; constructor; auto. subst; lra. }
  assert (ZS : Rsum (map2 Rmult L S0) = 0). { induction Z; simpl; lra. }
  rewrite ZS. rewrite Forall_map. eapply Forall_impl; [|exact Z]. intros x ->. cbv beta. unfold fdivR, Reqb.
  destruct (Req_EM_T 0 0); [reflexivity|lra].
Qed.

(** effective sample size *)
Lemma plogp_sum ws : Forall (fun w => 0 < w) ws ->
  fsumR (map (fun w => fmulR (Fin w) (fln (Fin w))) ws) = Fin (Rsum (map (fun w => w * ln w) ws)).
Proof.
  induction 1 as [|w ws H F IH]; [reflexivity|]. cbn [map fsumR Rsum]. rewrite IH. cbn [fln]. unfold Rltb.
  destruct (Rlt_dec 0 w); [reflexivity|lra].
Qed.
Lemma ln_le_minus x : 0 < x -> ln x <= x - 1.
Proof.
  intros H. destruct (Req_dec (ln x) 0) as [E|N].
  - rewrite E. rewrite <- (exp_ln x H), E, exp_0. lra.
  - pose proof (exp_ineq1 (ln x) N) as A. rewrite exp_ln in A by auto. lra.
Qed.
Lemma entropy_bound ws n : 0 < n -> Forall (fun w => 0 < w) ws ->
  - Rsum (map (fun w => w * ln w) ws) <= Rsum ws * ln n + (INR (length ws) / n - Rsum ws).
Proof.
  intros Hn. induction 1 as [|w ws H F IH]; [simpl; lra|]. cbn [map Rsum]. change (length (w :: ws)) with (S (length ws)). rewrite S_INR.
  assert (B : - (w * ln w) <= w * ln n + (1 / n - w)).
  { pose proof (ln_le_minus (/ (n * w))) as A. assert (P : 0 < n * w) by nra. specialize (A (Rinv_0_lt_compat _ P)).
    rewrite ln_Rinv, ln_mult in A by auto. apply Rmult_le_compat_l with (r := w) in A; [|lra].
    replace (w * (/ (n * w) - 1)) with (1 / n - w) in A by (field; lra). lra. }
  unfold Rdiv in *. rewrite Rmult_plus_distr_r. lra.
Qed.
Lemma NESS_range ws : Forall (fun w => 0 < w) ws -> Rsum ws = 1 ->
  exists a, nested_NESS ws = Fin a /\ 0 < a <= 1.
Proof.
  intros F E. assert (NE : (0 < length ws)%nat) by (destruct ws; [simpl in E; lra|simpl; lia]).
  apply lt_0_INR in NE. unfold nested_NESS. rewrite plogp_sum by auto. cbn [foppR].
  exists (exp (- Rsum (map (fun w => w * ln w) ws)) / INR (length ws)). split.
  - unfold fdivR, Reqb. destruct (Req_EM_T (INR (length ws)) 0); [lra|reflexivity].
  - set (h := - Rsum (map (fun w => w * ln w) ws)).
    assert (H : h <= ln (INR (length ws))).
    { pose proof (entropy_bound ws (INR (length ws)) NE F) as B. rewrite E in B. fold h in B.
      replace (INR (length ws) / INR (length ws)) with 1 in B by (field; lra). lra. }
    assert (X : exp h <= INR (length ws)).
    { rewrite <- (exp_ln (INR (length ws)) NE). destruct H as [H| ->]; [left; now apply exp_increasing|right; reflexivity]. }
    split.
    + apply Rdiv_lt_0_compat; [apply exp_pos|auto].
    + apply Rmult_le_reg_r with (INR (length ws)); auto. unfold Rdiv. rewrite Rmult_assoc, Rinv_l by lra. lra.
Qed.
Lemma fsumR_nan l : In NaN l -> fsumR l = NaN.
Proof.
  induction l as [|x l IH]; [intros []|]. intros [->|H]; simpl; [reflexivity|]. rewrite (IH H). now destruct x.
Qed.
Lemma NESS_zero ws : In 0 ws -> nested_NESS ws = NaN.
Proof.
  intros H. unfold nested_NESS. rewrite fsumR_nan; [reflexivity|]. apply in_map_iff. exists 0. split; auto.
  cbn [fln]. unfold Rltb, Reqb. destruct (Rlt_dec 0 0); [lra|]. destruct (Req_EM_T 0 0); [|lra]. cbn. unfold fscale_inf, Rltb.
  destruct (Rlt_dec 0 0); [lra|reflexivity].
Qed.
