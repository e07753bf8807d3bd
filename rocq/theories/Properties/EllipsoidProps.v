(** C102: the sampling ellipsoids of multi-nested sampling (multi_nested.py CEllipsoid). *)
From Coq Require Import List Bool Arith Reals Lra Lia.
Import ListNotations.
From Verif Require Import Prelude.Py Prelude.RBase Model.Ellipsoid Spec.EllipsoidSpec.
Open Scope R_scope.

Lemma Rsum_scale {A} c (f : A -> R) l : Rsum (map (fun a => c * f a) l) = c * Rsum (map f l).
Proof. induction l as [|a l IH]; simpl; [ring|]. rewrite IH. ring. Qed.
Lemma Rsum_ext {A} (f g : A -> R) l : (forall a, In a l -> f a = g a) -> Rsum (map f l) = Rsum (map g l).
Proof. intros H. induction l as [|a l IH]; simpl; auto. rewrite (H a) by (left; auto). rewrite IH; auto. intros; apply H; now right. Qed.
Lemma Rsum_plus {A} (f g : A -> R) l : Rsum (map (fun a => f a + g a) l) = Rsum (map f l) + Rsum (map g l).
Proof. induction l as [|a l IH]; simpl; [ring|]. rewrite IH. ring. Qed.
Lemma Rsum_const {A} c (l : list A) : Rsum (map (fun _ => c) l) = INR (length l) * c.
Proof. induction l as [|a l IH]; simpl length; [simpl; ring|]. rewrite S_INR. simpl. rewrite IH. ring. Qed.
Lemma Rsum_zero {A} (f : A -> R) l : (forall a, In a l -> f a = 0) -> Rsum (map f l) = 0.
Proof. intros H. rewrite (Rsum_ext f (fun _ => 0)) by exact H. rewrite Rsum_const. ring. Qed.

(** Determinants. *)
Lemma det_ext n : forall m m', (forall i j, (i < n)%nat -> (j < n)%nat -> m i j = m' i j) -> detm n m = detm n m'.
Proof.
  induction n as [|n IH]; intros m m' E; [reflexivity|]. cbn [detm]. apply Rsum_ext. intros j J. apply in_seq in J.
  rewrite E by lia. f_equal. apply IH. intros a b A B. unfold minor. apply E; [lia|]. destruct (b <? j)%nat; lia.
Qed.
Lemma det_times c n : forall m, detm n (times c m) = c ^ n * detm n m.
Proof.
  induction n as [|n IH]; intros m; [simpl; ring|]. cbn [detm]. rewrite <- Rsum_scale. apply Rsum_ext. intros j _.
  change (minor j (times c m)) with (times c (minor j m)). rewrite IH. unfold times. simpl. ring.
Qed.
Lemma det_diag c n : detm n (diag_c c) = c ^ n.
Proof.
  induction n as [|n IH]; [reflexivity|]. cbn [detm seq map Rsum]. rewrite Rsum_zero.
  - rewrite (det_ext n _ (diag_c c)); [rewrite IH; unfold diag_c; simpl; ring|]. intros i j _ _. reflexivity.
  - intros j J. apply in_seq in J. unfold diag_c at 1. destruct (Nat.eqb_spec 0 j); [lia|]. ring.
Qed.

(** Moments of moved points. *)
Lemma moved_length c b pts : length (moved c b pts) = length pts.
Proof. apply map_length. Qed.
Lemma mean_moved c b pts i : pts <> [] -> mean_of (moved c b pts) i = c * mean_of pts i + b i.
Proof.
  intros N. unfold mean_of. rewrite moved_length. unfold moved. rewrite map_map.
  rewrite (Rsum_plus (fun x : rvect => c * x i) (fun _ => b i)), (Rsum_scale c (fun x : rvect => x i)), Rsum_const.
  assert (H : INR (length pts) <> 0) by (apply not_0_INR; destruct pts; simpl; congruence).
  unfold rvect in *. field. exact H.
Qed.
Lemma cov_moved c b pts i j : pts <> [] -> cov_of (moved c b pts) i j = c * c * cov_of pts i j.
Proof.
  intros N. unfold cov_of. rewrite moved_length, !mean_moved by exact N. unfold moved. rewrite map_map.
  rewrite (Rsum_ext _ (fun x => c * c * ((x i - mean_of pts i) * (x j - mean_of pts j)))) by (intros; ring).
  rewrite Rsum_scale. unfold Rdiv. ring.
Qed.
Lemma std_moved c b pts : pts <> [] -> std_of (moved c b pts) = Rabs c * std_of pts.
Proof.
  intros N. unfold std_of. rewrite moved_length, !mean_moved by exact N. unfold moved. rewrite map_map.
  rewrite (Rsum_ext _ (fun x => c * c * ((x 0%nat - mean_of pts 0%nat) * (x 0%nat - mean_of pts 0%nat)))) by (intros; ring).
  rewrite Rsum_scale. rewrite <- sqrt_Rsqr_abs, <- sqrt_mult_alt by apply Rle_0_sqr. unfold Rsqr, Rdiv. f_equal. ring.
Qed.

Lemma leb_false x : Rleb x 0 = false <-> 0 < x.
Proof. unfold Rleb. destruct (Rle_dec x 0); split; intros; try discriminate; auto; lra. Qed.
Lemma leb_true x : Rleb x 0 = true <-> x <= 0.
Proof. unfold Rleb. destruct (Rle_dec x 0); split; intros; try discriminate; auto; lra. Qed.
Lemma det1 m : detm 1 m = m 0%nat 0%nat. Proof. simpl. ring. Qed.

Lemma new_ok v d loc sc : 0 < detm d sc -> ellipsoid_new v d loc sc = Ok (mkEll d loc sc (v d * detm d sc)).
Proof. intros H. unfold ellipsoid_new. apply leb_false in H. now rewrite H. Qed.
Lemma fit_spec v d pts infl : (0 < d)%nat -> (d <= length pts)%nat -> 0 < infl ->
  fit v d pts infl = Ok (let sc := if (1 <? d)%nat then (if Rleb (detm d (cov_of pts)) 0 then diag_c infl else times infl (cov_of pts))
                                   else (if Rleb (std_of pts) 0 then diag_c infl else times infl (diag_c (std_of pts))) in
                         mkEll d (mean_of pts) sc (v d * detm d sc)).
Proof.
  intros D N I. assert (P : forall k, 0 < infl ^ k) by (intros; now apply pow_lt). unfold fit.
  replace (length pts <? d)%nat with false by (symmetry; apply Nat.ltb_ge; exact N). cbv zeta.
  destruct (1 <? d)%nat.
  - destruct (Rleb (detm d (cov_of pts)) 0) eqn:E; apply new_ok; [rewrite det_diag; apply P|].
    rewrite det_times. apply leb_false in E. apply Rmult_lt_0_compat; auto.
  - destruct (Rleb (std_of pts) 0) eqn:E; apply new_ok; [rewrite det_diag; apply P|].
    rewrite det_times, det_diag. apply leb_false in E. apply Rmult_lt_0_compat; auto. now apply pow_lt.
Qed.

(** An ellipsoid is fitted to every set of at least d points, coinciding or not; it is centred at their mean, its covariance has a
    positive determinant, so that it can be drawn from, and its volume is positive. Fewer points are refused. *)
Theorem C102_fit : forall v d pts infl, (0 < d)%nat -> 0 < infl -> 0 < v d ->
  ((d <= length pts)%nat ->
   exists e, fit v d pts infl = Ok e /\ e_dims e = d /\ (forall i, e_loc e i = Rsum (map (fun x => x i) pts) / INR (length pts)) /\
     0 < detm d (e_scale e) /\ 0 < e_volume e) /\
  ((length pts < d)%nat -> fit v d pts infl = Raise AssertionError).
Proof.
  intros v d pts infl D I V. split; [intros N|intros H; unfold fit; apply Nat.ltb_lt in H; now rewrite H].
  rewrite (fit_spec v d pts infl D N I). eexists. split; [reflexivity|]. split; [reflexivity|]. split; [reflexivity|].
  assert (P : forall k, 0 < infl ^ k) by (intros; now apply pow_lt). cbv zeta. cbn [e_scale e_volume].
  match goal with |- 0 < detm d ?sc /\ _ => assert (Q : 0 < detm d sc) end.
  { destruct (1 <? d)%nat.
    - destruct (Rleb (detm d (cov_of pts)) 0) eqn:E; [rewrite det_diag; apply P|].
      rewrite det_times. apply leb_false in E. apply Rmult_lt_0_compat; auto.
    - destruct (Rleb (std_of pts) 0) eqn:E; [rewrite det_diag; apply P|].
      rewrite det_times, det_diag. apply leb_false in E. apply Rmult_lt_0_compat; auto. now apply pow_lt. }
  split; [exact Q|]. now apply Rmult_lt_0_compat.
Qed.
Print Assumptions C102_fit.

(** Three points of the plane, two of the line, and two coinciding points. *)
Definition pt2 (x y : R) : rvect := fun i => match i with O => x | _ => y end.
Definition triangle : list rvect := [pt2 0 0; pt2 2 0; pt2 0 2].
Definition segment : list rvect := [pt2 0 0; pt2 2 0].
Definition twins : list rvect := [pt2 3 0; pt2 3 0].
Lemma triangle_det : detm 2 (cov_of triangle) = 4 / 3.
Proof.
  assert (E : forall i j, (i < 2)%nat -> (j < 2)%nat -> cov_of triangle i j = if (i =? j)%nat then 4 / 3 else - (2 / 3)).
  { intros i j I J. destruct i as [|[|i]]; [| |lia]; (destruct j as [|[|j]]; [| |lia]); unfold cov_of, mean_of, triangle, pt2; simpl; field. }
  rewrite (det_ext 2 _ _ E). unfold detm, minor. simpl. field.
Qed.
Lemma segment_std : std_of segment = 1.
Proof.
  unfold std_of, mean_of, segment, pt2. simpl. match goal with |- sqrt ?x = 1 => replace x with 1 by field end. apply sqrt_1.
Qed.
Lemma twins_std : std_of twins = 0.
Proof.
  unfold std_of, mean_of, twins, pt2. simpl. match goal with |- sqrt ?x = 0 => replace x with 0 by field end. apply sqrt_0.
Qed.
(** Two coinciding points still give an ellipsoid, two points of the plane too, a single one does not. *)
Example C102_fit_example :
  (exists e, fit (fun _ => PI) 1 twins 1 = Ok e /\ e_loc e 0%nat = 3) /\ (exists e, fit (fun _ => PI) 2 segment 1 = Ok e /\ e_loc e 0%nat = 1) /\
  fit (fun _ => PI) 2 [pt2 0 0] 1 = Raise AssertionError.
Proof.
  split; [|split].
  - destruct (C102_fit (fun _ => PI) 1 twins 1 Nat.lt_0_1 Rlt_0_1 PI_RGT_0) as [F _]. destruct F as (e & F & _ & L & _); [simpl; lia|].
    exists e. split; auto. rewrite L. simpl. field.
  - destruct (C102_fit (fun _ => PI) 2 segment 1 Nat.lt_0_2 Rlt_0_1 PI_RGT_0) as [F _]. destruct F as (e & F & _ & L & _); [simpl; lia|].
    exists e. split; auto. rewrite L. simpl. field.
  - apply (C102_fit (fun _ => PI) 2 [pt2 0 0] 1 Nat.lt_0_2 Rlt_0_1 PI_RGT_0). simpl. lia.
Qed.

Lemma nonempty d (pts : list rvect) : (0 < d)%nat -> (d <= length pts)%nat -> pts <> [].
Proof. intros A B ->. simpl in B. lia. Qed.

(** Shifting the points shifts the ellipsoid and changes nothing else. *)
Theorem C102_shift : forall v d pts infl b e, (0 < d)%nat -> (d <= length pts)%nat -> 0 < infl -> fit v d pts infl = Ok e ->
  exists e', fit v d (moved 1 b pts) infl = Ok e' /\ image_centre 1 b e e' /\ image_spread 1 e e' /\ image_volume 1 e e'.
Proof.
  intros v d pts infl b e D N I F. pose proof (nonempty _ _ D N) as NE. rewrite (fit_spec v d pts infl D N I) in F. inversion F; subst e; clear F.
  rewrite (fit_spec v d (moved 1 b pts) infl D) by (rewrite ?moved_length; auto). eexists. split; [reflexivity|]. cbv zeta.
  unfold image_centre, image_spread, image_volume. cbn [e_loc e_scale e_volume e_dims].
  assert (DC : detm d (cov_of (moved 1 b pts)) = detm d (cov_of pts)) by (apply det_ext; intros; rewrite cov_moved by exact NE; ring).
  assert (SC : std_of (moved 1 b pts) = std_of pts) by (rewrite std_moved by exact NE; rewrite Rabs_R1; ring).
  rewrite DC, SC. split; [intros i; now rewrite mean_moved|].
  assert (T : forall i j, times infl (cov_of (moved 1 b pts)) i j = times infl (cov_of pts) i j).
  { intros i j. unfold times. rewrite cov_moved by exact NE. ring. }
  destruct (1 <? d)%nat; [destruct (Rleb (detm d (cov_of pts)) 0)|]; split; intros; try ring; rewrite ?Rabs_R1, ?pow1; try ring.
  - rewrite T. ring.
  - rewrite (det_ext d _ (times infl (cov_of pts))) by (intros; apply T). ring.
Qed.
Print Assumptions C102_shift.
Example C102_shift_example : exists e e', fit (fun _ => PI) 2 triangle 1 = Ok e /\ fit (fun _ => PI) 2 (moved 1 (pt2 5 7) triangle) 1 = Ok e' /\
  e_volume e' = e_volume e /\ e_loc e' 1%nat = e_loc e 1%nat + 7.
Proof.
  destruct (C102_fit (fun _ => PI) 2 triangle 1 Nat.lt_0_2 Rlt_0_1 PI_RGT_0) as [F _]. destruct F as (e & F & _); [simpl; lia|].
  destruct (C102_shift (fun _ => PI) 2 triangle 1 (pt2 5 7) e Nat.lt_0_2 ltac:(simpl; lia) Rlt_0_1 F) as (e' & F' & L & _ & V).
  exists e, e'. split; [exact F|]. split; [exact F'|]. split; [unfold image_volume in V; rewrite V, Rabs_R1, pow1; ring|].
  rewrite (L 1%nat). simpl. ring.
Qed.

(** In two or more dimensions, points with a spread in every direction: in another unit the covariance of the draws changes
    accordingly, and the reported volume is multiplied by c^(2d). *)
Theorem C102_unit_partial : forall v d pts infl c b e, (1 < d)%nat -> (d <= length pts)%nat -> 0 < infl -> c <> 0 ->
  0 < detm d (cov_of pts) -> fit v d pts infl = Ok e ->
  exists e', fit v d (moved c b pts) infl = Ok e' /\ image_centre c b e e' /\ image_spread c e e' /\
    e_volume e' = Rabs c ^ d * (Rabs c ^ d * e_volume e).
Proof.
  intros v d pts infl c b e D N I C P F. assert (D0 : (0 < d)%nat) by lia. pose proof (nonempty _ _ D0 N) as NE.
  rewrite (fit_spec v d pts infl D0 N I) in F. inversion F; subst e; clear F.
  rewrite (fit_spec v d (moved c b pts) infl D0) by (rewrite ?moved_length; auto). eexists. split; [reflexivity|]. cbv zeta.
  unfold image_centre, image_spread. cbn [e_loc e_scale e_volume e_dims].
  assert (CC : c * c = Rabs c * Rabs c) by (unfold Rabs; destruct (Rcase_abs c); ring).
  assert (A : 0 < Rabs c) by now apply Rabs_pos_lt.
  assert (DC : detm d (cov_of (moved c b pts)) = (c * c) ^ d * detm d (cov_of pts)).
  { rewrite <- det_times. apply det_ext. intros. unfold times. now apply cov_moved. }
  assert (P' : 0 < detm d (cov_of (moved c b pts))).
  { rewrite DC. apply Rmult_lt_0_compat; auto. apply pow_lt. rewrite CC. now apply Rmult_lt_0_compat. }
  replace (1 <? d)%nat with true by (symmetry; apply Nat.ltb_lt; exact D).
  apply leb_false in P, P'. rewrite P, P'. split; [intros i; now rewrite mean_moved|]. split.
  - intros i j. unfold times. rewrite cov_moved by exact NE. ring.
  - rewrite !det_times, DC, CC, Rpow_mult_distr. ring.
Qed.
Print Assumptions C102_unit_partial.

(** In one dimension the reported volume is a length, as it should be, but the standard deviation is taken for the variance of the
    draws. *)
Theorem C102_line_partial : forall v pts infl c b e, (1 <= length pts)%nat -> 0 < infl -> c <> 0 -> 0 < std_of pts ->
  fit v 1 pts infl = Ok e ->
  exists e', fit v 1 (moved c b pts) infl = Ok e' /\ image_centre c b e e' /\ image_volume c e e' /\
    e_scale e' 0%nat 0%nat = Rabs c * e_scale e 0%nat 0%nat.
Proof.
  intros v pts infl c b e N I C P F. assert (NE : pts <> []) by (intros ->; simpl in N; lia).
  rewrite (fit_spec v 1 pts infl Nat.lt_0_1 N I) in F. inversion F; subst e; clear F.
  rewrite (fit_spec v 1 (moved c b pts) infl Nat.lt_0_1) by (rewrite ?moved_length; auto). eexists. split; [reflexivity|]. cbv zeta.
  unfold image_centre, image_volume. cbn [e_loc e_scale e_volume e_dims Nat.ltb Nat.leb].
  assert (P' : 0 < std_of (moved c b pts)) by (rewrite std_moved by exact NE; apply Rmult_lt_0_compat; auto; now apply Rabs_pos_lt).
  apply leb_false in P, P'. rewrite P, P'. split; [intros i; now rewrite mean_moved|]. rewrite !det1. unfold times, diag_c. simpl.
  rewrite std_moved by exact NE. split; ring.
Qed.
Print Assumptions C102_line_partial.

(** The triangle measured in another unit (factor 2): the volume of its ellipsoid is multiplied by 16 instead of 4. *)
Theorem C102_volume_refuted : forall v, 0 < v 2%nat -> exists pts infl c b e e', fit v 2 pts infl = Ok e /\ fit v 2 (moved c b pts) infl = Ok e' /\
  image_spread c e e' /\ e_volume e' = 16 * e_volume e /\ ~ image_volume c e e'.
Proof.
  intros v V. exists triangle, 1, 2, (fun _ => 0).
  destruct (C102_fit v 2 triangle 1 Nat.lt_0_2 Rlt_0_1 V) as [F _]. destruct F as (e & F & DD & _ & _ & P); [simpl; lia|].
  destruct (C102_unit_partial v 2 triangle 1 2 (fun _ => 0) e) as (e' & F' & _ & S & W); auto; try lra; [simpl; lia|rewrite triangle_det; lra|].
  exists e, e'. split; [exact F|]. split; [exact F'|]. split; [exact S|].
  assert (A : Rabs 2 = 2) by (apply Rabs_right; lra). rewrite A in W. unfold image_volume. rewrite DD, A, W. simpl in *. split; [ring|]. lra.
Qed.
Print Assumptions C102_volume_refuted.

(** On the line: the points 0 and 2 measured in another unit (factor 2): the variance of the draws is multiplied by 2 instead of 4. *)
Theorem C102_spread_refuted : forall v, 0 < v 1%nat -> exists pts infl c b e e', fit v 1 pts infl = Ok e /\ fit v 1 (moved c b pts) infl = Ok e' /\
  image_volume c e e' /\ e_scale e' 0%nat 0%nat = 2 * e_scale e 0%nat 0%nat /\ ~ image_spread c e e'.
Proof.
  intros v V. exists segment, 1, 2, (fun _ => 0).
  destruct (C102_fit v 1 segment 1 Nat.lt_0_1 Rlt_0_1 V) as [F _]. destruct F as (e & F & DD & _ & P & _); [simpl; lia|].
  destruct (C102_line_partial v segment 1 2 (fun _ => 0) e) as (e' & F' & _ & W & S); auto; try lra; [simpl; lia|rewrite segment_std; lra|].
  exists e, e'. split; [exact F|]. split; [exact F'|]. split; [exact W|].
  assert (A : Rabs 2 = 2) by (apply Rabs_right; lra). rewrite A in S. split; [exact S|]. rewrite det1 in P. intros H. specialize (H 0%nat 0%nat). lra.
Qed.
Print Assumptions C102_spread_refuted.

(** Coinciding points get an ellipsoid of a fixed size, whatever the unit. *)
Theorem C102_coinciding_refuted : forall v, 0 < v 1%nat -> exists pts infl c b e e', fit v 1 pts infl = Ok e /\ fit v 1 (moved c b pts) infl = Ok e' /\
  e_volume e' = e_volume e /\ ~ image_volume c e e' /\ ~ image_spread c e e'.
Proof.
  intros v V. exists twins, 1, 2, (fun _ => 0).
  assert (A : Rabs 2 = 2) by (apply Rabs_right; lra).
  assert (Z : std_of (moved 2 (fun _ => 0) twins) = 0) by (rewrite std_moved by discriminate; rewrite twins_std; ring).
  assert (L : Rleb 0 0 = true) by (apply leb_true; lra).
  eexists. eexists. split; [rewrite fit_spec by (simpl; lia || lra); cbn [Nat.ltb Nat.leb]; rewrite twins_std, L; cbv zeta; reflexivity|].
  split; [rewrite fit_spec by (simpl; lia || lra); cbn [Nat.ltb Nat.leb]; rewrite Z, L; cbv zeta; reflexivity|].
  cbn [e_volume]. split; [reflexivity|]. unfold image_volume, image_spread. cbn [e_volume e_dims e_scale]. rewrite A, det_diag. simpl. split; [lra|].
  intros H. specialize (H 0%nat 0%nat). unfold diag_c in H. simpl in H. lra.
Qed.
Print Assumptions C102_coinciding_refuted.
(** The hypotheses of C102_unit_partial and C102_line_partial are met by the witnesses above. *)
Example C102_unit_example : 0 < detm 2 (cov_of triangle) /\ 0 < std_of segment /\ (2 <= length triangle)%nat.
Proof. rewrite triangle_det, segment_std. simpl. split; [lra|]. split; [lra|lia]. Qed.
