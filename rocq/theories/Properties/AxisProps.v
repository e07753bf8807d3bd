(** C101: ticks and labels of a drawn axis (viz_interface.py draw_axis, visuals.py CAxis). *)
From Coq Require Import List Reals Lra Psatz Lia.
Import ListNotations.
From Verif Require Import Prelude.RBase Model.AxisGeometry Spec.AxisSpec.
Open Scope R_scope.

(** Length of an axis in the drawing plane that is not a point. *)
Definition planar (a : axis) : Prop := vz (ax_start a) = vz (ax_end a) /\ (vx (ax_start a) <> vx (ax_end a) \/ vy (ax_start a) <> vy (ax_end a)).
Definition origin : v3 := mkV 0 0 0.
Definition len (a : axis) : R := dist2 (flat (ax_start a)) (flat (ax_end a)).

Lemma sq_pos a : planar a -> 0 < (vx (ax_end a) - vx (ax_start a)) * (vx (ax_end a) - vx (ax_start a)) + (vy (ax_end a) - vy (ax_start a)) * (vy (ax_end a) - vy (ax_start a)).
Proof.
  intros [_ H]. pose proof (Rle_0_sqr (vx (ax_end a) - vx (ax_start a))) as A. pose proof (Rle_0_sqr (vy (ax_end a) - vy (ax_start a))) as B.
  unfold Rsqr in *. destruct H as [H|H]; [assert (C := Rsqr_pos_lt (vx (ax_end a) - vx (ax_start a)) ltac:(lra))|
    assert (C := Rsqr_pos_lt (vy (ax_end a) - vy (ax_start a)) ltac:(lra))]; unfold Rsqr in C; lra.
Qed.
Lemma norm_len a : planar a -> norm3 (vsub3 (ax_end a) (ax_start a)) = len a.
Proof.
  intros [Z _]. unfold norm3, len, dist2, flat, vsub3; simpl. rewrite Z. f_equal. ring.
Qed.
Lemma len_pos a : planar a -> 0 < len a.
Proof. intros P. rewrite <- norm_len by exact P. unfold norm3, vsub3; simpl. apply sqrt_lt_R0. pose proof (sq_pos a P). destruct P as [-> _]. nra. Qed.
Lemma len_sq a : len a * len a = (vx (ax_end a) - vx (ax_start a)) * (vx (ax_end a) - vx (ax_start a)) + (vy (ax_end a) - vy (ax_start a)) * (vy (ax_end a) - vy (ax_start a)).
Proof. unfold len, dist2, flat; simpl. rewrite sqrt_sqrt; [ring|apply Rplus_le_le_0_compat; apply Rle_0_sqr]. Qed.
Lemma dir_is a : planar a -> direction a = mkV ((vx (ax_end a) - vx (ax_start a)) / len a) ((vy (ax_end a) - vy (ax_start a)) / len a) 0.
Proof.
  intros P. unfold direction. rewrite norm_len by exact P. unfold vmul3, vsub3; simpl. destruct P as [-> _]. f_equal; unfold Rdiv; ring.
Qed.
Lemma unit a : planar a -> (vx (ax_end a) - vx (ax_start a)) / len a * ((vx (ax_end a) - vx (ax_start a)) / len a) + (vy (ax_end a) - vy (ax_start a)) / len a * ((vy (ax_end a) - vy (ax_start a)) / len a) = 1.
Proof.
  intros P. pose proof (len_pos a P). pose proof (len_sq a) as L. apply (Rmult_eq_reg_r (len a * len a)); [|nra].
  rewrite Rmult_1_l. rewrite L at 2. field. lra.
Qed.
Lemma root u : 0 <= u -> sqrt (u * u) = u. Proof. intros. now apply sqrt_square. Qed.

(** An axis in the plane with the position attribute at the origin: the tick of the value t crosses the axis at a right angle in
    its middle, at the distance t from the start, and has twice the tick size as its length. *)
Theorem C101_ticks_partial : forall a t z, planar a -> ax_pos a = origin -> 0 <= t -> 0 <= z ->
  middle (tick_line a t z) = along (axis_line a) (t / len a) /\
  dist2 (fst (axis_line a)) (middle (tick_line a t z)) = t /\
  perpendicular (axis_line a) (tick_line a t z) /\
  dist2 (fst (tick_line a t z)) (snd (tick_line a t z)) = 2 * z.
Proof.
  intros a t z P O T Z. pose proof (len_pos a P) as LP. pose proof (unit a P) as U.
  unfold middle, along, axis_line, tick_line, perpendicular, dist2, flat, normal. rewrite (dir_is a P), O. unfold vadd3, vsub3, vmul3; simpl.
  set (u := (vx (ax_end a) - vx (ax_start a)) / len a) in *. set (v := (vy (ax_end a) - vy (ax_start a)) / len a) in *.
  assert (EX : vx (ax_end a) - vx (ax_start a) = u * len a) by (unfold u; field; lra).
  assert (EY : vy (ax_end a) - vy (ax_start a) = v * len a) by (unfold v; field; lra).
  repeat split.
  - f_equal.
    + replace (0 + vx (ax_end a) - (0 + vx (ax_start a))) with (u * len a) by lra. field. lra.
    + replace (0 + vy (ax_end a) - (0 + vy (ax_start a))) with (v * len a) by lra. field. lra.
  - transitivity (sqrt (t * t)); [|now apply root]. f_equal.
    match goal with |- ?x * ?x + ?y * ?y = _ => replace x with (- (t * u)) by field; replace y with (- (t * v)) by field end.
    transitivity (t * t * (u * u + v * v)); [ring|]. rewrite U. ring.
  - replace (0 + vx (ax_end a) - (0 + vx (ax_start a))) with (u * len a) by lra.
    replace (0 + vy (ax_end a) - (0 + vy (ax_start a))) with (v * len a) by lra. ring.
  - transitivity (sqrt (2 * z * (2 * z))); [|apply root; lra]. f_equal. transitivity (2 * z * (2 * z) * (u * u + v * v)); [ring|]. rewrite U. ring.
Qed.
Print Assumptions C101_ticks_partial.

(** The default ticks divide the axis evenly from its start to its end. *)
Theorem C101_default_ticks : forall a k, planar a -> ax_pos a = origin -> (k < 10)%nat ->
  exists t, nth_error (default_ticks a) k = Some t /\ 0 <= t <= len a /\
    middle (tick_line a t (default_size a)) = along (axis_line a) (INR k / 9).
Proof.
  intros a k P O K. pose proof (len_pos a P) as LP. exists (INR k * (len a / 9)).
  assert (KB : 0 <= INR k <= 9). { split; [apply pos_INR|]. replace 9 with (INR 9) by (simpl; lra). apply le_INR. lia. }
  assert (B : 0 <= INR k * (len a / 9) <= len a).
  { split; [apply Rmult_le_pos; lra|]. apply Rle_trans with (9 * (len a / 9)); [|lra]. apply Rmult_le_compat_r; lra. }
  split; [|split; [exact B|]].
  - unfold default_ticks. rewrite norm_len by exact P. 
    apply (map_nth_error (fun k => INR k * (len a / 9))). do 10 (destruct k as [|k]; [reflexivity|]). lia.
  - destruct (C101_ticks_partial a (INR k * (len a / 9)) (default_size a) P O) as [M _]; [lra| |].
    + unfold default_size. rewrite norm_len by exact P. lra.
    + rewrite M. f_equal. field. lra.
Qed.
Print Assumptions C101_default_ticks.

(** The labels stand at four tick sizes from the axis. For an axis that does not point below the diagonal all of them are on its left;
    otherwise those of positive values are on its right. *)
Theorem C101_labels_partial : forall a t z, planar a -> ax_pos a = origin -> 0 <= t -> 0 < z ->
  dist2 (middle (tick_line a t z)) (label_at a t z) = 4 * z /\
  (vx (direction a) <= vy (direction a) -> 0 < side (axis_line a) (label_at a t z)) /\
  (vy (direction a) < vx (direction a) -> 0 < t -> side (axis_line a) (label_at a t z) < 0).
Proof.
  intros a t z P O T Z. pose proof (len_pos a P) as LP. pose proof (unit a P) as U.
  unfold middle, side, axis_line, tick_line, label_at, dist2, flat, normal. rewrite (dir_is a P), O. unfold vadd3, vsub3, vmul3; simpl.
  set (u := (vx (ax_end a) - vx (ax_start a)) / len a) in *. set (v := (vy (ax_end a) - vy (ax_start a)) / len a) in *.
  replace (0 + vx (ax_end a) - (0 + vx (ax_start a))) with (u * len a) by (unfold u; field; lra).
  replace (0 + vy (ax_end a) - (0 + vy (ax_start a))) with (v * len a) by (unfold v; field; lra).
  unfold Rltb. destruct (Rlt_dec (t * v) (t * u)) as [S|S]; simpl.
  - split; [|split].
    + transitivity (sqrt (4 * z * (4 * z))); [|apply root; lra]. f_equal. transitivity (4 * z * (4 * z) * (u * u + v * v)); [field|]. rewrite U. ring.
    + intros H. exfalso. assert (t * u <= t * v) by (apply Rmult_le_compat_l; lra). lra.
    + intros _ _. match goal with |- ?x < 0 => replace x with (- (4 * z * len a * (u * u + v * v))) by ring end. rewrite U.
      assert (0 < 4 * z * len a) by (apply Rmult_lt_0_compat; lra). lra.
  - split; [|split].
    + transitivity (sqrt (4 * z * (4 * z))); [|apply root; lra]. f_equal. transitivity (4 * z * (4 * z) * (u * u + v * v)); [field|]. rewrite U. ring.
    + intros _. match goal with |- 0 < ?x => replace x with (4 * z * len a * (u * u + v * v)) by ring end. rewrite U.
      assert (0 < 4 * z * len a) by (apply Rmult_lt_0_compat; lra). lra.
    + intros H T'. exfalso. apply S. apply Rmult_lt_compat_l; lra.
Qed.
Print Assumptions C101_labels_partial.

(** On any axis below the diagonal, such as the horizontal one, the label of the value 0 is on the other side of the axis than all
    the others. *)
Theorem C101_labels_refuted : exists a z, planar a /\ ax_pos a = origin /\ 0 < z /\
  0 < side (axis_line a) (label_at a 0 z) /\ forall t, 0 < t -> side (axis_line a) (label_at a t z) < 0.
Proof.
  set (a := mkAxis origin origin (mkV 1 0 0)). assert (P : planar a) by (split; simpl; [reflexivity|left; lra]).
  exists a, 1. split; [exact P|]. split; [reflexivity|]. split; [lra|].
  assert (D : direction a = mkV 1 0 0).
  { rewrite (dir_is a P). unfold len, dist2, flat; simpl. replace ((0 - 1) * (0 - 1) + (0 - 0) * (0 - 0)) with (1 * 1) by ring.
    rewrite root by lra. f_equal; field. }
  split.
  - unfold side, label_at, normal. rewrite D. simpl. unfold Rltb. destruct (Rlt_dec (0 * 0) (0 * 1)); [lra|]. simpl. lra.
  - intros t T. apply (C101_labels_partial a t 1 P eq_refl); try lra; rewrite D; simpl; lra.
Qed.
Print Assumptions C101_labels_refuted.

(** The position attribute moves the axis line but not its ticks: none of them meets the axis any more. *)
Theorem C101_ticks_refuted : exists a z, planar a /\ 0 < z /\ forall t s, middle (tick_line a t z) <> along (axis_line a) s.
Proof.
  set (a := mkAxis (mkV 0 1 0) origin (mkV 1 0 0)). assert (P : planar a) by (split; simpl; [reflexivity|left; lra]).
  exists a, (1 / 100). split; [exact P|]. split; [lra|]. intros t s.
  unfold middle, along, tick_line, flat, normal. rewrite (dir_is a P). unfold vadd3, vsub3, vmul3; simpl. intros H. apply (f_equal snd) in H. simpl in H.
  pose proof (len_pos a P). unfold Rdiv in H. lra.
Qed.
Print Assumptions C101_ticks_refuted.

(** The y axis from (0,0) to (0,9): its fourth default tick is at height 3, with the label on the left. *)
Definition y_axis : axis := mkAxis origin origin (mkV 0 9 0).
Lemma y_planar : planar y_axis. Proof. split; simpl; [reflexivity|right; lra]. Qed.
Lemma y_len : len y_axis = 9.
Proof. unfold len, dist2, flat; simpl. replace ((0 - 0) * (0 - 0) + (0 - 9) * (0 - 9)) with (9 * 9) by ring. apply root. lra. Qed.
Example C101_default_ticks_example : exists t, nth_error (default_ticks y_axis) 3 = Some t /\ middle (tick_line y_axis t (default_size y_axis)) = (0, 3).
Proof.
  destruct (C101_default_ticks y_axis 3 y_planar eq_refl) as (t & N & _ & M); [lia|]. exists t. split; [exact N|]. rewrite M.
  unfold along, axis_line; simpl. f_equal; lra.
Qed.
Example C101_ticks_example : dist2 (fst (tick_line y_axis 3 (1 / 2))) (snd (tick_line y_axis 3 (1 / 2))) = 1.
Proof. destruct (C101_ticks_partial y_axis 3 (1 / 2) y_planar eq_refl) as (_ & _ & _ & H); lra. Qed.
Example C101_labels_example : 0 < side (axis_line y_axis) (label_at y_axis 3 (1 / 2)).
Proof. apply C101_labels_partial; try lra; [apply y_planar|reflexivity|]. rewrite (dir_is _ y_planar), y_len. simpl. lra. Qed.
