(** Lemmas about the uniform distribution. *)
From Coq Require Import List Bool Arith Lia QArith Qminmax Lqa.
Import ListNotations.
From Verif Require Import Prelude.Py Prelude.QBase Prelude.QFacts Model.Shape Model.Misc Model.Uniform Spec.Box Spec.UniformSpec
  Proofs.MiscProofs.
Open Scope Q_scope.

Lemma qmax_Qmax a b : qmax a b == Qmax a b.
Proof.
  unfold qmax. destruct (Qle_bool_spec a b) as [H|H].
  - symmetry. now apply Q.max_r.
  - symmetry. apply Q.max_l. lra.
Qed.
Lemma qmin_Qmin a b : qmin a b == Qmin a b.
Proof.
  unfold qmin. destruct (Qle_bool_spec a b) as [H|H].
  - symmetry. now apply Q.min_l.
  - symmetry. apply Q.min_r. lra.
Qed.

(** what a freshly built distribution stores *)
Definition unif_inv (d : uniform) : Prop :=
  length (u_lo d) = u_dims d /\ corners (u_lo d) (u_hi d) /\ u_volume d == volume (u_lo d) (u_hi d).

Lemma map2_corner op center radius : length center = length radius ->
  map2 op center radius = corner op center radius.
Proof.
  intros L. unfold corner. destruct radius as [|r [|r' rs]].
  - destruct center; [reflexivity|discriminate].
  - destruct center as [|c [|]]; try discriminate. reflexivity.
  - remember (r :: r' :: rs) as rr. clear Heqrr r r' rs. revert center L.
    induction rr; destruct center; simpl; intros; try discriminate; auto. f_equal. auto.
Qed.

Lemma volume_one_radius c r : volume (map (fun x => x - r) c) (map (fun x => x + r) c) == Qpow (r * 2) (length c).
Proof. induction c as [|x c IH]; simpl; [reflexivity|]. rewrite IH. ring. Qed.

Lemma volume_radii center radius : length center = length radius ->
  volume (map2 Qminus center radius) (map2 Qplus center radius) == Qprod (map (fun r => r * 2) radius).
Proof.
  revert radius. induction center as [|c center IH]; destruct radius as [|r radius]; simpl; intros L; try discriminate; [reflexivity|].
  rewrite IH by lia. ring.
Qed.

Lemma corners_radii center radius : radii_ok center radius -> corners (map2 Qminus center radius) (map2 Qplus center radius).
Proof.
  revert radius. induction center as [|c center IH]; destruct radius as [|r radius]; simpl; try tauto; intros H; constructor.
  - lra.
  - apply IH. tauto.
Qed.

Lemma radii_length center radius : radii_ok center radius -> length center = length radius.
Proof. revert radius; induction center; destruct radius; simpl; try tauto. intros [_ H]. f_equal; auto. Qed.

Lemma uniform_new_ok center radius : shape_ok center radius ->
  exists d, uniform_new center radius = Ok d /\ unif_inv d /\ u_dims d = length center /\
    u_lo d = corner Qminus center radius /\ u_hi d = corner Qplus center radius.
Proof.
  intros [H|(r & -> & H & N)].
  - pose proof (radii_length _ _ H) as L. unfold uniform_new. rewrite !bcast_same by auto. cbn [bind].
    assert (C : corners (map2 Qminus center radius) (map2 Qplus center radius)) by now apply corners_radii.
    assert (V := volume_radii center radius L).
    assert (LL : length (map2 Qminus center radius) = length center) by (rewrite map2_length; auto).
    destruct radius as [|r [|r' rs]].
    + destruct center; [|discriminate]. simpl. eexists. split; [reflexivity|]. unfold unif_inv; simpl. repeat split; auto.
    + destruct center as [|c [|]]; try discriminate. eexists. split; [reflexivity|]. unfold unif_inv; simpl.
      simpl in *. repeat split; auto; try ring.
    + rewrite L, Nat.eqb_refl. eexists. split; [reflexivity|]. unfold unif_inv. cbn [u_dims u_lo u_hi u_volume].
      split; [|split; [auto|]].
      * split; [congruence|]. split; auto. now rewrite V.
      * split; apply map2_corner; auto.
  - assert (B : forall f, bcast f center [r] = Ok (map (fun c => f c r) center)).
    { intros f. unfold bcast. destruct center as [|c [|c' cs]]; try congruence; reflexivity. }
    unfold uniform_new. rewrite !B. cbn [bind]. eexists. split; [reflexivity|]. unfold unif_inv. cbn [u_dims u_lo u_hi u_volume].
    split; [|repeat split]. split; [now rewrite map_length|]. split.
    + clear - H. induction center as [|c center IH]; simpl; constructor; auto. lra.
    + now rewrite volume_one_radius.
Qed.

Lemma volume_pos lo hi : corners lo hi -> 0 < volume lo hi.
Proof.
  induction 1 as [|l h lo hi H F IH]; simpl; [lra|]. assert (0 < h - l) by lra. set (z := h - l) in *. nra.
Qed.

Lemma prob_val_spec d : unif_inv d -> exists p, prob_val d = Fin p /\ 0 < p /\ p * volume (u_lo d) (u_hi d) == 1.
Proof.
  intros (_ & C & V). pose proof (volume_pos _ _ C) as P. unfold prob_val, fdivQ.
  destruct (Qeq_bool_spec (u_volume d) 0) as [E|E]; [lra|]. eexists. split; [reflexivity|].
  split.
  - apply Qlt_shift_div_l; lra.
  - rewrite <- V. field. auto.
Qed.

Lemma inlier_half_open lo hi x : length lo = length hi -> length x = length lo -> (inlier lo hi x = true <-> half_open lo hi x).
Proof.
  revert hi x. induction lo as [|l lo IH]; destruct hi as [|h hi], x as [|a x]; simpl; intros L1 L2; try discriminate; try tauto.
  specialize (IH hi x ltac:(lia) ltac:(lia)). rewrite !andb_true_iff, Qltb_true, Qle_bool_iff, IH. tauto.
Qed.

Lemma half_open_length lo hi x : half_open lo hi x -> length x = length lo /\ length hi = length lo.
Proof.
  revert hi x; induction lo as [|l lo IH]; destruct hi, x; simpl; try tauto.
  intros (_ & _ & H). apply IH in H. intuition.
Qed.

Lemma interior_half_open lo hi x : interior lo hi x -> half_open lo hi x.
Proof.
  revert hi x; induction lo; destruct hi, x; simpl; try tauto. intros (H1 & H2 & H3). repeat split; auto. lra.
Qed.
Lemma half_open_dec : forall lo hi x, half_open lo hi x \/ ~ half_open lo hi x.
Proof.
  induction lo as [|l lo IH]; intros [|h hi] [|a x]; simpl; try (left; exact I); try (right; intros []; fail).
  destruct (Qlt_le_dec l a) as [A|A]; [|right; intros (C & _); lra].
  destruct (Qlt_le_dec h a) as [B|B]; [right; intros (_ & C & _); lra|].
  destruct (IH hi x) as [C|C]; [left; auto|right; intros (_ & _ & D); auto].
Qed.
Lemma half_open_in_box lo hi x : half_open lo hi x -> in_box lo hi x.
Proof.
  revert hi x; induction lo; destruct hi, x; simpl; try tauto. intros (H1 & H2 & H3). repeat split; auto. lra.
Qed.

Lemma corners_length a b : corners a b -> length a = length b.
Proof. induction 1; simpl; auto. Qed.

(** ** Sampling *)
Lemma row_in_box lo hi u : corners lo hi -> (forall i, 0 <= u i < 1) -> forall j, in_box lo hi (uniform_row lo hi u j).
Proof.
  intros C U. induction C as [|l h lo hi H C IH]; intros j; simpl; auto. pose proof (U j). repeat split; auto; nra.
Qed.
Lemma row_half_open lo hi u : corners lo hi -> (forall i, 0 < u i < 1) -> forall j, half_open lo hi (uniform_row lo hi u j).
Proof.
  intros C U. induction C as [|l h lo hi H C IH]; intros j; simpl; auto. pose proof (U j). repeat split; auto; nra.
Qed.

(** ** Integral *)
Lemma all_lt_corners a b : corners a b -> all_lt a b = true.
Proof. induction 1; simpl; auto. apply andb_true_iff. split; auto. now apply Qltb_true. Qed.

Lemma overlap_prod lo hi a b : boxes_meet lo hi a b -> corners lo hi -> corners a b ->
  Qprod (map2 Qminus (map2 qmin b hi) (map2 qmax a lo)) == overlap_volume lo hi a b.
Proof.
  intros M C. revert a b M. induction C as [|l h lo hi H C IH]; intros [|x a] [|y b] M; simpl in *; try tauto; [reflexivity|].
  intros D. inversion D; subst. destruct M as (M1 & M2 & M3). rewrite IH by auto.
  rewrite qmin_Qmin, qmax_Qmax. rewrite (Q.max_r 0); [ring|].
  assert (Qmax x l <= Qmin y h); [|lra]. apply Q.max_lub; apply Q.min_glb; lra.
Qed.

Lemma overlap_bounds lo hi a b : corners lo hi -> length a = length lo -> length b = length lo ->
  0 <= overlap_volume lo hi a b <= volume lo hi.
Proof.
  intros C. revert a b. induction C as [|l h lo hi H C IH]; intros [|x a] [|y b] L1 L2; simpl in *; try discriminate; [lra|].
  destruct (IH a b ltac:(lia) ltac:(lia)) as [I1 I2].
  set (o := overlap_volume lo hi a b) in *. pose proof (volume_pos _ _ C) as P. set (v := volume lo hi) in *.
  assert (W : 0 <= Qmax 0 (Qmin y h - Qmax x l) <= h - l).
  { split; [apply Q.le_max_l|]. apply Q.max_lub; [lra|].
    pose proof (Q.le_min_r y h). pose proof (Q.le_max_r x l). lra. }
  set (w := Qmax 0 (Qmin y h - Qmax x l)) in *. clearbody w o v. assert (0 <= h - l) by lra. set (z := h - l) in *. clearbody z. nra.
Qed.

Lemma overlap_mono lo hi a b a' b' : corners lo hi -> length a = length lo -> length b = length lo ->
  Forall2 Qle a' a -> Forall2 Qle b b' -> overlap_volume lo hi a b <= overlap_volume lo hi a' b'.
Proof.
  intros C. revert a b a' b'. induction C as [|l h lo hi H C IH]; intros [|x a] [|y b] a' b' L1 L2 A B; try discriminate;
    inversion A; inversion B; subst; simpl; try lra.
  simpl in L1, L2. specialize (IH a b l0 l'0 ltac:(lia) ltac:(lia)). 
  assert (O : overlap_volume lo hi a b <= overlap_volume lo hi l0 l'0) by (apply IH; auto).
  assert (O0 : 0 <= overlap_volume lo hi a b) by (apply overlap_bounds; auto; lia).
  match goal with |- ?w * _ <= ?w' * _ => assert (W0 : 0 <= w) by apply Q.le_max_l; assert (W : w <= w') end.
  { apply Q.max_le_compat; [lra|].
    match goal with |- Qmin ?y1 _ - Qmax ?x1 _ <= Qmin ?y2 _ - Qmax ?x2 _ =>
      assert (Qmin y1 h <= Qmin y2 h) by (apply Q.min_le_compat_r; auto);
      assert (Qmax x2 l <= Qmax x1 l) by (apply Q.max_le_compat_r; auto) end. lra. }
  match goal with |- ?w * ?o <= ?w' * ?o' => set (w1 := w) in *; set (o1 := o) in *; set (w2 := w') in *; set (o2 := o') in * end.
  clearbody w1 w2 o1 o2. nra.
Qed.

Lemma overlap_full lo hi : corners lo hi -> overlap_volume lo hi lo hi == volume lo hi.
Proof.
  induction 1 as [|l h lo hi H C IH]; simpl; [reflexivity|]. rewrite IH.
  rewrite (Q.min_id h), (Q.max_id l), Q.max_r; [reflexivity|lra].
Qed.
Lemma meet_full lo hi : corners lo hi -> boxes_meet lo hi lo hi.
Proof. induction 1; simpl; auto. repeat split; auto; lra. Qed.

Lemma integral_meet d a b : unif_inv d -> length a = u_dims d -> corners a b -> boxes_meet (u_lo d) (u_hi d) a b ->
  exists r, uniform_integral d a b = Ok r /\ r * volume (u_lo d) (u_hi d) == overlap_volume (u_lo d) (u_hi d) a b.
Proof.
  intros (L & C & V) LA AB M. unfold uniform_integral. rewrite (all_lt_corners _ _ AB). simpl.
  eexists. split; [reflexivity|]. rewrite (overlap_prod _ _ _ _ M C AB), <- V.
  pose proof (volume_pos _ _ C). field. lra.
Qed.
