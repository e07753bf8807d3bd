(** Riemann sums over partitions into small cubes. *)
From Coq Require Import List Bool Arith Lia QArith Qabs Lqa Permutation.
Import ListNotations.
From Verif Require Import Prelude.QBase Prelude.QFacts Spec.TreeSpec Spec.RefineSpec Proofs.TreeCells.
Open Scope Q_scope.

Definition bands (f : list Q -> Q) (h : Q) (rows : list (cell * list Q)) : list (cell * (Q * Q)) :=
  map (fun cx => (fst cx, (f (snd cx) - h, f (snd cx) + h))) rows.
Lemma bands_cells f h rows : map fst (bands f h rows) = map fst rows.
Proof. unfold bands. rewrite map_map. reflexivity. Qed.
Lemma bands_low f h rows : mass (map (fun e => (fst e, fst (snd e))) (bands f h rows)) == estimate f rows - h * total_volume (map fst rows).
Proof.
  induction rows as [|(c, x) rows IH]; [simpl; ring|]. cbn [bands map mass estimate total_volume fold_right fst snd].
  change (fold_right _ 0 (map _ (map _ rows))) with (mass (map (fun e => (fst e, fst (snd e))) (bands f h rows))). rewrite IH.
  unfold estimate, total_volume. ring.
Qed.
Lemma bands_high f h rows : mass (map (fun e => (fst e, snd (snd e))) (bands f h rows)) == estimate f rows + h * total_volume (map fst rows).
Proof.
  induction rows as [|(c, x) rows IH]; [simpl; ring|]. cbn [bands map mass estimate total_volume fold_right fst snd].
  change (fold_right _ 0 (map _ (map _ rows))) with (mass (map (fun e => (fst e, snd (snd e))) (bands f h rows))). rewrite IH.
  unfold estimate, total_volume. ring.
Qed.
Lemma cell_diameter c x y : 0 < snd c -> in_closed c x -> in_closed c y -> forall j, Qabs (nth j x 0 - nth j y 0) <= 2 * snd c.
Proof.
  intros R Hx. revert y. unfold in_closed in *. induction Hx as [|a v l x Ha Hx IH]; intros y Hy j.
  - inversion Hy; subst. destruct j; cbn [nth]; rewrite Qabs_pos; lra.
  - inversion Hy as [|? v' ? y' Hv Hy']; subst. destruct j as [|j]; [|exact (IH y' Hy' j)]. cbn [nth]. apply Qabs_Qle_condition. lra.
Qed.
Lemma bands_ok f whole L D rows : lipschitz f whole L -> within (map fst rows) whole ->
  (forall c x, In (c, x) rows -> 0 < snd c /\ 2 * snd c <= D /\ in_closed c x) ->
  forall c a b, In (c, (a, b)) (bands f (L * D) rows) -> 0 < snd c /\ forall y, in_closed c y -> a <= f y /\ f y <= b.
Proof.
  intros (Lp & Lf) W H c a b Hb. unfold bands in Hb. apply in_map_iff in Hb. destruct Hb as ((c', x) & E & Hx). simpl in E. inversion E; subst. clear E.
  destruct (H _ _ Hx) as (R & Sd & Cx). split; auto. intros y Cy. assert (Hc : In c (map fst rows)) by (apply in_map_iff; exists (c, x); auto).
  pose proof (Lf y x (2 * snd c) (W _ _ Hc Cy) (W _ _ Hc Cx) (cell_diameter c y x R Cy Cx)) as K. apply Qabs_Qle_condition in K.
  assert (L * (2 * snd c) <= L * D) by (rewrite (Qmult_comm L), (Qmult_comm L D); apply Qmult_le_compat_r; auto). lra.
Qed.
Lemma estimate_ge f m rows : (forall c x, In (c, x) rows -> 0 <= cell_volume c /\ m <= f x) -> m * total_volume (map fst rows) <= estimate f rows.
Proof.
  induction rows as [|(c, x) rows IH]; intros H; [simpl; lra|]. destruct (H c x (or_introl eq_refl)) as (V & Lm). specialize (IH (fun c x Hc => H c x (or_intror Hc))).
  cbn [map total_volume estimate fold_right fst snd]. fold (total_volume (map fst rows)) (estimate f rows).
  assert (m * cell_volume c <= f x * cell_volume c) by (apply Qmult_le_compat_r; auto). lra.
Qed.
Lemma weighted_estimate (pi g : list Q -> Q) E (rows : list (cell * list Q * Q)) : (forall c x w, In (c, x, w) rows -> w * E == pi x * cell_volume c) ->
  weighted_sum g (map (fun row => (snd (fst row), snd row)) rows) * E == estimate (fun x => pi x * g x) (map fst rows).
Proof.
  induction rows as [|((c, x), w) rows IH]; intros H; [simpl; ring|]. cbn [map weighted_sum estimate fold_right fst snd].
  fold (weighted_sum g (map (fun row : cell * list Q * Q => (snd (fst row), snd row)) rows)).
  change (fold_right _ 0 (map fst rows)) with (estimate (fun x => pi x * g x) (map fst rows)).
  rewrite <- IH by (intros; apply H; right; auto). pose proof (H c x w (or_introl eq_refl)) as Hw.
  setoid_replace (pi x * g x * cell_volume c) with (w * E * g x) by (rewrite Hw; ring). ring.
Qed.
Lemma weighted_perm g l l' : Permutation l l' -> weighted_sum g l == weighted_sum g l'.
Proof. unfold weighted_sum. induction 1; simpl; lra. Qed.
Lemma whole_tiles w : tiles [w] w.
Proof.
  split; [|split; [|split]].
  - intros x H. exists w. simpl. auto.
  - intros c x [<-|[]] H. auto.
  - intros [|i] [|j] c c' x A1 A2; simpl in *; auto; try (destruct i; discriminate); destruct j; discriminate.
  - unfold total_volume. simpl. ring.
Qed.
