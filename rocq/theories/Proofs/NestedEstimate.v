(** Sums of the weights of nested sampling. *)
From Coq Require Import List Bool Arith Lia Reals Lra.
Import ListNotations.
From Verif Require Import Prelude.Py Prelude.QBase Prelude.RBase Model.Nested.
From Verif Require Import Spec.NestedSpec Spec.EstimateSpec Proofs.NestedWeights.
Open Scope R_scope.

Fixpoint terms_from (N k : nat) (L : list R) : list R := match L with [] => [] | l :: r => l * shell N k :: terms_from N (S k) r end.
Lemma terms_from_eq N L : terms N L = terms_from N 0 L.
Proof. unfold terms. generalize 0%nat. induction L as [|l L IH]; intros k; simpl; auto. now rewrite IH. Qed.
Lemma terms_from_app N L M : forall k, terms_from N k (L ++ M) = terms_from N k L ++ terms_from N (k + length L) M.
Proof. induction L as [|l L IH]; intros k; simpl; [now rewrite Nat.add_0_r|]. rewrite IH. now replace (S k + length L)%nat with (k + S (length L))%nat by lia. Qed.
Lemma terms_from_length N L : forall k, length (terms_from N k L) = length L.
Proof. induction L; intros k; simpl; auto. Qed.
Lemma Rsum_cat l m : Rsum (l ++ m) = Rsum l + Rsum m.
Proof. induction l as [|x l IH]; simpl; [lra|]. rewrite IH. lra. Qed.

Lemma enclosed_pos N i : 0 < enclosed N i.
Proof. apply exp_pos. Qed.
(** The shells after the first are disjoint pieces of what was enclosed. *)
Lemma tail_bound N b L : (0 < N)%nat -> 0 <= b -> Forall (fun l => l <= b) L -> forall k, Rsum (terms_from N (S k) L) <= b * (enclosed N k - enclosed N (k + length L)).
Proof.
  intros HN Hb. induction 1 as [|l L H F IH]; intros k; cbn [terms_from Rsum length].
  - rewrite Nat.add_0_r. lra.
  - specialize (IH (S k)). replace (k + S (length L))%nat with (S k + length L)%nat by lia.
    pose proof (shell_pos N (S k) HN) as SP. cbn [shell] in *. cbn [Rsum fold_right]. nra.
Qed.
Lemma tail_nonneg N L : (0 < N)%nat -> Forall (fun l => 0 <= l) L -> forall k, 0 <= Rsum (terms_from N k L).
Proof.
  intros HN. induction 1 as [|l L H F IH]; intros k; simpl; [lra|]. specialize (IH (S k)). pose proof (shell_pos N k HN). nra.
Qed.

Lemma weighted_mean_app {X} (f : X -> R) ws vs xs ys : length ws = length xs ->
  weighted_mean f (ws ++ vs) (xs ++ ys) = weighted_mean f ws xs + weighted_mean f vs ys.
Proof. revert xs. induction ws as [|w ws IH]; intros [|x xs] H; simpl in *; try discriminate; [lra|]. rewrite IH by lia. lra. Qed.
Lemma weighted_mean_scale {X} (f : X -> R) c ws xs : weighted_mean f (map (fun w => w * c) ws) xs = weighted_mean f ws xs * c.
Proof. revert xs. induction ws as [|w ws IH]; intros [|x xs]; simpl; try lra. rewrite IH. lra. Qed.
Lemma weighted_mean_bound {X} (f : X -> R) B ws xs : 0 <= B -> (forall x, Rabs (f x) <= B) -> Forall (fun w => 0 <= w) ws -> Rabs (weighted_mean f ws xs) <= B * Rsum ws.
Proof.
  intros HB H F. revert xs. induction F as [|w ws W F IH]; intros xs; simpl; [rewrite Rabs_R0; lra|].
  pose proof (Rsum_nonneg ws F). destruct xs as [|x xs]; [rewrite Rabs_R0; nra|].
  eapply Rle_trans; [apply Rabs_triang|]. specialize (IH xs). rewrite Rabs_mult, (Rabs_right w) by lra. specialize (H x). nra.
Qed.
Lemma weighted_mean_nonneg {X} (f : X -> R) ws xs : (forall x, 0 <= f x) -> Forall (fun w => 0 <= w) ws -> 0 <= weighted_mean f ws xs.
Proof.
  intros H F. revert xs. induction F as [|w ws W F IH]; intros xs; simpl; [lra|]. destruct xs as [|x xs]; [lra|]. specialize (IH xs). specialize (H x). nra.
Qed.

Lemma weights_terms N L : (0 < N)%nat -> Forall (fun l => 0 <= l) L -> Exists (fun l => 0 < l) L ->
  nested_weights N L = map Fin (map (fun x => x * / Rsum (terms_from N 0 L)) (terms_from N 0 L)) /\ 0 < Rsum (terms_from N 0 L).
Proof.
  intros HN F E. pose proof (terms_positive N L HN F E) as Z. assert (NE : (0 < length L)%nat) by (destruct L; [inversion E|simpl; lia]).
  rewrite <- terms_from_eq. split; auto. unfold nested_weights. rewrite shells_spec by auto. rewrite map2_map_r. fold (terms N L). cbv zeta.
  rewrite map_map. apply map_ext. intros x. unfold fdivR, Reqb. destruct (Req_EM_T (Rsum (terms N L)) 0); [lra|reflexivity].
Qed.

(** The weight of the first sample. *)
Lemma first_weight N l L b : (0 < N)%nat -> 0 < l -> l <= b -> Forall (fun x => 0 <= x <= b) L ->
  exists ws, nested_weights N (l :: L) = map Fin ws /\ length ws = S (length L) /\ Forall (fun w => 0 <= w) ws /\ Rsum ws = 1 /\ l / (l + b) <= nth 0 ws 0.
Proof.
  intros HN Hl Hb F. assert (F0 : Forall (fun x => 0 <= x) (l :: L)). { constructor; [lra|]. eapply Forall_impl; [|exact F]. simpl. intros; lra. }
  assert (Ex : Exists (fun x => 0 < x) (l :: L)) by (constructor; auto).
  destruct (weights_terms N (l :: L) HN F0 Ex) as (E & Z).
  pose proof (tail_bound N b L HN ltac:(lra) ltac:(eapply Forall_impl; [|exact F]; simpl; intros; lra) 0%nat) as T.
  assert (E0 : enclosed N 0 = 1). { unfold enclosed. simpl. replace (- (0 / INR N)) with 0 by (unfold Rdiv; lra). apply exp_0. }
  pose proof (enclosed_pos N (0 + length L)) as EP. rewrite E0 in T.
  set (S0 := Rsum (terms_from N 0 (l :: L))) in *. assert (ES : S0 = l + Rsum (terms_from N 1 L)) by (unfold S0; simpl; lra).
  exists (map (fun x => x * / S0) (terms_from N 0 (l :: L))). split; [exact E|]. split; [rewrite map_length, terms_from_length; reflexivity|].
  assert (P : 0 < / S0) by (apply Rinv_0_lt_compat; lra).
  split; [|split].
  - apply Forall_forall. intros w Hw. apply in_map_iff in Hw. destruct Hw as (x & <- & Hx). rewrite <- terms_from_eq in Hx.
    pose proof (terms_nonneg N (l :: L) HN F0) as T0. rewrite Forall_forall in T0. specialize (T0 x Hx). nra.
  - rewrite Rsum_scale. fold S0. apply Rinv_r. lra.
  - cbn [terms_from map nth]. cbn [shell]. rewrite Rmult_1_r. unfold Rdiv. apply Rmult_le_compat_l; [lra|]. apply Rinv_le_contravar; [lra|]. nra.
Qed.

(** Estimates before and after more samples. *)
Lemma settles {X} (f : X -> R) B N a b L M xs ys : (0 < N)%nat -> 0 < a -> (forall x, Rabs (f x) <= B) -> 0 <= B ->
  Forall (fun l => a <= l <= b) (L ++ M) -> L <> [] -> length xs = length L ->
  exists ws vs, nested_weights N L = map Fin ws /\ nested_weights N (L ++ M) = map Fin vs /\
    Rabs (weighted_mean f vs (xs ++ ys) - weighted_mean f ws xs) <= 2 * B * (b / a) * enclosed N (length L - 1).
Proof.
  intros HN Ha Hf HB F NE Lx. assert (F1 := F). apply Forall_app in F1. destruct F1 as (FL & FM).
  assert (NN : forall l, Forall (fun l => a <= l <= b) l -> Forall (fun l => 0 <= l) l) by (intros l H; eapply Forall_impl; [|exact H]; simpl; intros; lra).
  destruct L as [|l0 L]; [congruence|]. set (L1 := l0 :: L) in *.
  assert (P0 : 0 < l0 /\ a <= l0 /\ l0 <= b) by (inversion FL; subst; lra).
  destruct (weights_terms N L1 HN (NN _ FL) ltac:(constructor; apply P0)) as (E1 & Z1).
  destruct (weights_terms N (L1 ++ M) HN (NN _ F) ltac:(constructor; apply P0)) as (E2 & Z2).
  exists (map (fun x => x * / Rsum (terms_from N 0 L1)) (terms_from N 0 L1)), (map (fun x => x * / Rsum (terms_from N 0 (L1 ++ M))) (terms_from N 0 (L1 ++ M))).
  split; [exact E1|]. split; [exact E2|]. rewrite !weighted_mean_scale, terms_from_app, weighted_mean_app by (now rewrite terms_from_length).
  rewrite terms_from_app, Rsum_cat in Z2. rewrite Rsum_cat.
  set (T := Rsum (terms_from N 0 L1)) in *. set (U := Rsum (terms_from N (0 + length L1) M)) in *.
  set (A := weighted_mean f (terms_from N 0 L1) xs). set (C := weighted_mean f (terms_from N (0 + length L1) M) ys).
  assert (NT : forall k l, Forall (fun l => 0 <= l) l -> Forall (fun w => 0 <= w) (terms_from N k l)).
  { intros k l H. revert k. induction H as [|x l Hx H IH]; intros k; simpl; constructor; auto. pose proof (shell_pos N k HN). nra. }
  assert (BA : Rabs A <= B * T) by (apply weighted_mean_bound; auto).
  assert (BC : Rabs C <= B * U) by (apply weighted_mean_bound; auto).
  assert (TA : a <= T). { unfold T, L1. cbn [terms_from Rsum shell]. pose proof (tail_nonneg N L HN ltac:(apply NN; inversion FL; auto) 1%nat). simpl. lra. }
  assert (U0 : 0 <= U) by (apply tail_nonneg; auto).
  assert (UB : U <= b * enclosed N (length L)).
  { unfold U. cbn [Nat.add length L1]. pose proof (tail_bound N b M HN ltac:(lra) ltac:(eapply Forall_impl; [|exact FM]; simpl; intros; lra) (length L)) as TB.
    pose proof (enclosed_pos N (length L + length M)). unfold L1. simpl length. nra. }
  replace (length L1 - 1)%nat with (length L) by (unfold L1; simpl; lia).
  assert (IT : 0 < / T) by (apply Rinv_0_lt_compat; lra). assert (IU : 0 < / (T + U)) by (apply Rinv_0_lt_compat; lra).
  replace ((A + C) * / (T + U) - A * / T) with (C * / (T + U) - A * (U * / (T + U) * / T)) by (field; lra).
  assert (Q1 : Rabs (C * / (T + U)) <= B * (U * / (T + U))).
  { rewrite Rabs_mult, (Rabs_right (/ (T + U))) by lra. nra. }
  assert (Q2 : Rabs (A * (U * / (T + U) * / T)) <= B * (U * / (T + U))).
  { assert (0 <= U * / (T + U)) by nra. rewrite Rabs_mult, (Rabs_right (U * / (T + U) * / T)) by nra.
    apply Rle_trans with (B * T * (U * / (T + U) * / T)); [apply Rmult_le_compat_r; [nra|exact BA]|]. right. field. lra. }
  assert (Q3 : U * / (T + U) <= b / a * enclosed N (length L)).
  { apply Rle_trans with (U * / a); [apply Rmult_le_compat_l; auto; apply Rinv_le_contravar; lra|].
    unfold Rdiv. assert (0 < / a) by (apply Rinv_0_lt_compat; lra). nra. }
  eapply Rle_trans; [apply Rabs_triang|]. rewrite Rabs_Ropp. assert (0 <= U * / (T + U)) by nra.
  assert (B * (U * / (T + U)) <= B * (b / a * enclosed N (length L))) by (apply Rmult_le_compat_l; auto). lra.
Qed.
