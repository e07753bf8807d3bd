(** The effective sample size of nested sampling is bounded. *)
From Coq Require Import List Bool Arith Lia Reals Lra.
Import ListNotations.
From Verif Require Import Prelude.Py Prelude.QBase Prelude.RBase Model.Nested.
From Verif Require Import Spec.NestedSpec Spec.EstimateSpec Proofs.NestedWeights Proofs.NestedEstimate.
Open Scope R_scope.

Lemma enclosed_0 N : enclosed N 0 = 1.
Proof. unfold enclosed. simpl. unfold Rdiv. rewrite Rmult_0_l, Ropp_0. apply exp_0. Qed.
Lemma enclosed_S N k : enclosed N (S k) = enclosed N 1 * enclosed N k.
Proof. unfold enclosed. rewrite <- exp_plus. f_equal. rewrite S_INR. simpl. unfold Rdiv. lra. Qed.
Lemma rate_bound N : (0 < N)%nat -> / (INR N + 1) <= 1 - enclosed N 1.
Proof.
  intros HN. apply lt_0_INR in HN. unfold enclosed. rewrite exp_Ropp. simpl.
  assert (P : 0 < 1 / INR N) by (apply Rdiv_lt_0_compat; lra).
  assert (E : 1 + 1 / INR N < exp (1 / INR N)) by (apply exp_ineq1; lra).
  assert (F : / exp (1 / INR N) <= / (1 + 1 / INR N)) by (apply Rinv_le_contravar; lra).
  replace (/ (1 + 1 / INR N)) with (1 - / (INR N + 1)) in F by (field; lra). lra.
Qed.

(** Sum of the positions, from k on, weighted by ws. *)
Fixpoint position_sum (k : nat) (ws : list R) : R := match ws with [] => 0 | w :: r => INR k * w + position_sum (S k) r end.
Lemma position_bound N b L : (0 < N)%nat -> 0 <= b -> Forall (fun l => 0 <= l <= b) L ->
  forall k, position_sum (S k) (terms_from N (S k) L) <= b * (INR k * enclosed N k + enclosed N k / (1 - enclosed N 1)).
Proof.
  intros HN Hb. pose proof (rate_bound N HN) as RB. assert (IP : 0 < / (INR N + 1)) by (apply Rinv_0_lt_compat; apply lt_0_INR in HN; lra).
  induction 1 as [|l L H F IH]; intros k; cbn [terms_from position_sum].
  - apply Rmult_le_pos; auto. apply Rplus_le_le_0_compat; [apply Rmult_le_pos; [apply pos_INR|left; apply enclosed_pos]|].
    left. apply Rdiv_lt_0_compat; [apply enclosed_pos|lra].
  - specialize (IH (S k)). pose proof (enclosed_dec N k HN) as D. cbn [shell]. pose proof (pos_INR (S k)) as PK.
    assert (A : INR (S k) * (l * (enclosed N k - enclosed N (S k))) <= INR (S k) * (b * (enclosed N k - enclosed N (S k)))).
    { apply Rmult_le_compat_l; auto. apply Rmult_le_compat_r; lra. }
    eapply Rle_trans; [apply Rplus_le_compat; [exact A|exact IH]|]. right. rewrite enclosed_S, S_INR. field. lra.
Qed.
Lemma position_scale c : forall ws k, position_sum k (map (fun w => w * c) ws) = position_sum k ws * c.
Proof. induction ws as [|w ws IH]; intros k; simpl; [lra|]. rewrite IH. lra. Qed.

(** Gibbs' inequality against the geometric law of ratio enclosed N 1. *)
Lemma gibbs_geometric N : (0 < N)%nat -> forall ws k, Forall (fun w => 0 < w) ws ->
  - Rsum (map (fun w => w * ln w) ws) <=
  Rsum ws * - ln (1 - enclosed N 1) + position_sum k ws / INR N + (enclosed N k - enclosed N (k + length ws)) - Rsum ws.
Proof.
  intros HN. pose proof (rate_bound N HN) as RB. apply lt_0_INR in HN. assert (IP : 0 < / (INR N + 1)) by (apply Rinv_0_lt_compat; lra).
  intros ws k F. revert k. induction F as [|w ws H F IH]; intros k; cbn [map Rsum position_sum length].
  - rewrite Nat.add_0_r. unfold Rdiv. lra.
  - specialize (IH (S k)). replace (S k + length ws)%nat with (k + S (length ws))%nat in IH by lia.
    set (q := (1 - enclosed N 1) * enclosed N k). assert (Q : 0 < q) by (apply Rmult_lt_0_compat; [lra|apply enclosed_pos]).
    assert (B : - (w * ln w) <= w * - ln q + (q - w)).
    { pose proof (ln_le_minus (q * / w)) as A. assert (P : 0 < q * / w) by (apply Rmult_lt_0_compat; auto; now apply Rinv_0_lt_compat). specialize (A P).
      rewrite ln_mult, ln_Rinv in A by (auto; now apply Rinv_0_lt_compat). apply Rmult_le_compat_l with (r := w) in A; [|lra].
      replace (w * (q * / w - 1)) with (q - w) in A by (field; lra). lra. }
    assert (LQ : ln q = ln (1 - enclosed N 1) - INR k / INR N).
    { unfold q. rewrite ln_mult by (try lra; apply enclosed_pos). unfold enclosed at 2. rewrite ln_exp. lra. }
    rewrite LQ in B. assert (QE : q = enclosed N k - enclosed N (S k)) by (unfold q; rewrite (enclosed_S N k); lra). rewrite QE in B.
    replace ((INR k * w + position_sum (S k) ws) / INR N) with (w * (INR k / INR N) + position_sum (S k) ws / INR N) by (field; lra). lra.
Qed.

Lemma terms_pos N a L : (0 < N)%nat -> 0 < a -> Forall (fun l => a <= l) L -> forall k, Forall (fun t => 0 < t) (terms_from N k L).
Proof. intros HN Ha. induction 1 as [|l L H F IH]; intros k; simpl; constructor; auto. pose proof (shell_pos N k HN). nra. Qed.

Lemma ess_bound N a b L : (0 < N)%nat -> 0 < a -> L <> [] -> Forall (fun l => a <= l <= b) L ->
  exists ws ness, nested_weights N L = map Fin ws /\ length ws = length L /\ nested_NESS ws = Fin ness /\ 0 < ness /\
    ness * INR (length L) <= (INR N + 1) * exp (2 * (b / a)).
Proof.
  intros HN Ha NE F. destruct L as [|l L]; [congruence|].
  assert (Hb : a <= b) by (inversion F; lra).
  assert (F0 : Forall (fun x => 0 <= x) (l :: L)). { eapply Forall_impl; [|exact F]. simpl. intros; lra. }
  assert (E0 : Exists (fun x => 0 < x) (l :: L)). { constructor. inversion F; lra. }
  destruct (weights_terms N (l :: L) HN F0 E0) as (W & Z). set (T := terms_from N 0 (l :: L)) in *. set (z := Rsum T) in *.
  assert (TP : Forall (fun t => 0 < t) T). { apply (terms_pos N a); auto. eapply Forall_impl; [|exact F]. simpl. intros; lra. }
  assert (WP : Forall (fun w => 0 < w) (map (fun x => x * / z) T)).
  { apply Forall_map. eapply Forall_impl; [|exact TP]. simpl. intros x X. apply Rmult_lt_0_compat; auto. now apply Rinv_0_lt_compat. }
  assert (S1 : Rsum (map (fun x => x * / z) T) = 1). { rewrite Rsum_scale. apply Rinv_r. lra. }
  destruct (NESS_range _ WP S1) as (e & EN & (Pe & _)). exists (map (fun x => x * / z) T), e.
  split; [exact W|]. split; [now unfold T; rewrite map_length, terms_from_length|]. split; auto. split; auto.
  (* the value of e *)
  unfold nested_NESS in EN. rewrite plogp_sum in EN by auto. cbn [foppR] in EN. rewrite map_length in EN. unfold T in EN at 2. rewrite terms_from_length in EN.
  assert (PL : 0 < INR (length (l :: L))) by (apply lt_0_INR; simpl; lia).
  unfold fdivR, Reqb in EN. destruct (Req_EM_T (INR (length (l :: L))) 0) as [X|_]; [lra|].
  assert (EE : forall x y : R, Fin x = Fin y -> x = y) by (intros x y X; congruence). apply EE in EN. rewrite <- EN.
  set (h := - Rsum (map (fun w => w * ln w) (map (fun x => x * / z) T))) in *.
  replace (exp h / INR (length (l :: L)) * INR (length (l :: L))) with (exp h) by (field; lra).
  pose proof (gibbs_geometric N HN _ 0%nat WP) as G. fold h in G. rewrite S1, enclosed_0, position_scale in G.
  pose proof (enclosed_pos N (0 + length (map (fun x => x * / z) T))) as EP.
  pose proof (rate_bound N HN) as RB. pose proof (lt_0_INR N HN) as PN.
  assert (IP : 0 < / (INR N + 1)) by (apply Rinv_0_lt_compat; lra).
  (* the total of the terms is at least a *)
  assert (Fl : a <= l <= b) by (inversion F; auto). assert (FL : Forall (fun x => a <= x <= b) L) by (inversion F; auto).
  assert (ZA : a <= z). { unfold z, T. cbn [terms_from Rsum shell]. pose proof (tail_nonneg N L HN ltac:(inversion F0; auto) 1%nat). lra. }
  (* the mean position *)
  assert (PB : position_sum 0 T <= b * / (1 - enclosed N 1)).
  { unfold T. cbn [terms_from position_sum]. pose proof (position_bound N b L HN ltac:(lra)) as Q.
    assert (FL' : Forall (fun x => 0 <= x <= b) L) by (eapply Forall_impl; [|exact FL]; simpl; intros; lra). specialize (Q FL' 0%nat). rewrite enclosed_0 in Q. simpl INR in *.
    unfold Rdiv in Q. lra. }
  assert (IR : / (1 - enclosed N 1) <= INR N + 1).
  { rewrite <- (Rinv_inv (INR N + 1)). apply Rinv_le_contravar; lra. }
  assert (N1 : 1 <= INR N) by (apply (le_INR 1); lia).
  assert (PB2 : position_sum 0 T * / z / INR N <= 2 * (b / a)).
  { assert (I1 : position_sum 0 T <= b * (INR N + 1)). { eapply Rle_trans; [exact PB|]. apply Rmult_le_compat_l; lra. }
    assert (I2 : / z <= / a) by (apply Rinv_le_contravar; lra).
    assert (I3 : 0 < / z) by (apply Rinv_0_lt_compat; lra).
    apply Rmult_le_reg_r with (INR N); auto. unfold Rdiv at 1. rewrite Rmult_assoc, Rinv_l, Rmult_1_r by lra.
    apply Rle_trans with (b * (INR N + 1) * / z); [apply Rmult_le_compat_r; lra|].
    apply Rle_trans with (b * (INR N + 1) * / a); [apply Rmult_le_compat_l; auto; apply Rmult_le_pos; lra|].
    replace (2 * (b / a) * INR N) with (b * (2 * INR N) * / a) by (field; lra). apply Rmult_le_compat_r; [left; now apply Rinv_0_lt_compat|]. apply Rmult_le_compat_l; lra. }
  assert (H : h <= ln (INR N + 1) + 2 * (b / a)).
  { assert (LN : - ln (1 - enclosed N 1) <= ln (INR N + 1)).
    { rewrite <- ln_Rinv by lra. destruct IR as [IR| ->]; [left; apply ln_increasing; auto; apply Rinv_0_lt_compat; lra|right; reflexivity]. }
    lra. }
  replace ((INR N + 1) * exp (2 * (b / a))) with (exp (ln (INR N + 1) + 2 * (b / a))) by (rewrite exp_plus, exp_ln by lra; reflexivity).
  clearbody h. destruct H as [H|H]; [left; now apply exp_increasing|right; now rewrite H].
Qed.
