(** Lemmas about the expected value error metric. *)
From Coq Require Import List Bool Arith Lia QArith Lqa.
Import ListNotations.
From Verif Require Import Prelude.Py Prelude.QBase Prelude.QFacts Prelude.ListFacts Model.Statistics
  Spec.MeanSpec Spec.FloatSpec Proofs.NessProofs.
Open Scope Q_scope.

Definition evq (samples : list vec) (p : list Q) (j : nat) : Q :=
  Qsum (map2 (fun x a => nth j x 0 * (a / Qsum p)) samples p).

Lemma ev_coord_fin samples p j : ~ Qsum p == 0 ->
  ev_coord samples (normalise p) j = Fin (evq samples p j).
Proof.
  intros H. unfold ev_coord, normalise, evq. generalize dependent (Qsum p). intros s H.
  revert p. induction samples as [|x samples IH]; destruct p as [|a p]; simpl; auto.
  rewrite IH. unfold fdivQ. destruct (Qeq_bool_spec s 0); [contradiction|]. reflexivity.
Qed.

Lemma evq_mean samples p j : ~ Qsum p == 0 -> evq samples p j == weighted_mean j samples p.
Proof.
  intros H. unfold evq, weighted_mean. change (total_weight p) with (Qsum p).
  generalize dependent (Qsum p). intros s H.
  assert (E : Qsum (map2 (fun x a => nth j x 0 * (a / s)) samples p) == weighted_sum j samples p / s).
  { revert p. induction samples as [|x samples IH]; destruct p as [|a p]; simpl; try (field; auto; fail).
    rewrite IH. field. auto. }
  exact E.
Qed.

Lemma evmse_fin d samples p q : ~ Qsum p == 0 -> ~ Qsum q == 0 ->
  evmse d samples p q = Fin (Qsum (map (fun j => (evq samples p j + - evq samples q j) * (evq samples p j + - evq samples q j)) (seq 0 d))).
Proof.
  intros Hp Hq. unfold evmse. induction (seq 0 d) as [|j l IH]; simpl; auto.
  rewrite IH, !ev_coord_fin by auto. reflexivity.
Qed.

Lemma Qsum_ext {A} (f g : A -> Q) l : (forall x, In x l -> f x == g x) -> Qsum (map f l) == Qsum (map g l).
Proof. induction l; simpl; intros H; [lra|]. rewrite IHl, H; auto. lra. Qed.

Lemma sq_distance_sum d a b :
  sq_distance d a b == Qsum (map (fun j => (a j - b j) * (a j - b j)) (seq 0 d)).
Proof.
  induction d; [simpl; lra|]. rewrite seq_S, map_app, Qsum_app. cbn [sq_distance]. rewrite IHd.
  cbn [map Qsum Nat.add]. ring.
Qed.

Lemma sq_distance_nonneg d a b : 0 <= sq_distance d a b.
Proof. induction d; cbn [sq_distance]; [lra|]. assert (0 <= (a d - b d) * (a d - b d)) by (set (z := a d - b d); nra). lra. Qed.

Lemma sq_distance_zero d a b : sq_distance d a b == 0 <-> (forall j, (j < d)%nat -> a j == b j).
Proof.
  induction d; simpl.
  - split; [intros; lia|reflexivity].
  - pose proof (sq_distance_nonneg d a b) as N. split.
    + assert (M : 0 <= (a d - b d) * (a d - b d)) by (set (z := a d - b d); nra).
      intros H. assert (Z : (a d - b d) * (a d - b d) == 0) by lra.
      assert (Y : sq_distance d a b == 0) by lra. intros j Hj.
      destruct (Nat.eq_dec j d) as [->|]; [|apply IHd; auto; lia].
      apply Qmult_integral in Z. lra.
    + intros H. rewrite (proj2 IHd) by (intros; apply H; lia).
      rewrite (H d) by lia. ring.
Qed.

Lemma evmse_value d samples p q : ~ Qsum p == 0 -> ~ Qsum q == 0 ->
  exists v, evmse d samples p q = Fin v /\
    v == sq_distance d (fun j => weighted_mean j samples p) (fun j => weighted_mean j samples q).
Proof.
  intros Hp Hq. rewrite evmse_fin by auto. eexists. split; [reflexivity|].
  rewrite sq_distance_sum. apply Qsum_ext. intros j _. rewrite !evq_mean by auto. ring.
Qed.

Lemma evmse_metric d samples p q : 0 < Qsum p -> 0 < Qsum q ->
  exists v, evmse d samples p q = Fin v /\ 0 <= v /\
    v == sq_distance d (fun j => weighted_mean j samples p) (fun j => weighted_mean j samples q) /\
    (v == 0 <-> forall j, (j < d)%nat -> weighted_mean j samples p == weighted_mean j samples q).
Proof.
  intros Hp Hq. destruct (evmse_value d samples p q) as (v & E & V); try lra.
  exists v. split; auto. split; [rewrite V; apply sq_distance_nonneg|]. split; auto.
  rewrite V. apply sq_distance_zero.
Qed.

Lemma weighted_sum_scale c j x w : weighted_sum j x (map (Qmult c) w) == c * weighted_sum j x w.
Proof. revert w; induction x as [|a x IH]; destruct w as [|b w]; simpl; try lra. rewrite IH; ring. Qed.

Lemma mean_scale c j x w : ~ c == 0 -> ~ Qsum w == 0 -> weighted_mean j x (map (Qmult c) w) == weighted_mean j x w.
Proof.
  intros Hc Hw. unfold weighted_mean. rewrite weighted_sum_scale.
  change (total_weight (map (Qmult c) w)) with (Qsum (map (fun x => c * x) w)).
  change (total_weight w) with (Qsum w). rewrite (Qsum_scale c w). field. auto.
Qed.

Lemma sq_distance_ext d a b a' b' : (forall j, a j == a' j) -> (forall j, b j == b' j) ->
  sq_distance d a b == sq_distance d a' b'.
Proof. intros H1 H2. induction d; simpl; [lra|]. rewrite IHd, H1, H2. lra. Qed.

Lemma evmse_scale d samples p q c c' : 0 < Qsum p -> 0 < Qsum q -> 0 < c -> 0 < c' ->
  feqQ (evmse d samples (map (Qmult c) p) (map (Qmult c') q)) (evmse d samples p q).
Proof.
  intros Hp Hq H H'.
  assert (Sp : Qsum (map (Qmult c) p) == c * Qsum p) by apply Qsum_scale.
  assert (Sq : Qsum (map (Qmult c') q) == c' * Qsum q) by apply Qsum_scale.
  destruct (evmse_value d samples (map (Qmult c) p) (map (Qmult c') q)) as (v & -> & V); [rewrite Sp; nra|rewrite Sq; nra|].
  destruct (evmse_value d samples p q) as (v' & -> & V'); try lra.
  simpl. rewrite V, V'. apply sq_distance_ext; intros j; apply mean_scale; lra.
Qed.

Lemma fsq_sub_sym a b : feqQ (fsq (fsubQ a b)) (fsq (fsubQ b a)).
Proof. destruct a, b; simpl; auto. ring. Qed.

Lemma evmse_sym d samples p q : feqQ (evmse d samples p q) (evmse d samples q p).
Proof.
  unfold evmse. apply fsumQ_comp. induction (seq 0 d); simpl; constructor; auto. apply fsq_sub_sym.
Qed.

Lemma evmse_proportional d samples q c : 0 < c -> 0 < Qsum q ->
  exists v, evmse d samples (map (Qmult c) q) q = Fin v /\ v == 0.
Proof.
  intros Hc Hq. assert (Sq : Qsum (map (Qmult c) q) == c * Qsum q) by apply Qsum_scale.
  destruct (evmse_value d samples (map (Qmult c) q) q) as (v & E & V); try (rewrite Sq; nra); try lra.
  exists v. split; auto. rewrite V. apply sq_distance_zero. intros j _. apply mean_scale; lra.
Qed.

Lemma evmse_example : 0 < Qsum [1; 3] /\ 0 < Qsum [2; 2] /\
  exists v, evmse 2 [[0; 1]; [4; 1]] [1; 3] [2; 2] = Fin v /\ v == 1.
Proof. split; [simpl; lra|]. split; [simpl; lra|]. eexists. split; vm_compute; reflexivity. Qed.
