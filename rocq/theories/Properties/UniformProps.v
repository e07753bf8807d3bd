(** C05, C06, C07, C11 and C13: uniform distributions and query shapes. *)
From Coq Require Import List Bool Arith Lia QArith Lqa Reals Qreals.
Import ListNotations.
From Verif Require Import Prelude.Py Prelude.QBase Prelude.QFacts Prelude.RBase Model.Shape Model.Misc Model.Uniform
  Spec.Box Spec.UniformSpec Spec.DensitySpec Proofs.UniformProofs Proofs.UniformDensity.
Open Scope Q_scope.

(** For every centre and positive radii (per dimension, or one for all) the object is built, and for
    every non-empty batch of points: the density is 1/volume inside the box (its lower faces count as
    outside, the upper ones as inside) and 0 elsewhere, and the log density is its logarithm. *)
Theorem C05_uniform_density : forall center radius rows,
  shape_ok center radius -> rows <> [] -> Forall (fun r => length r = length center) rows ->
  let lo := corner Qminus center radius in let hi := corner Qplus center radius in
  exists d ps ls, uniform_new center radius = Ok d /\
    uniform_prob d (Arr2 (length center) rows) = Ok ps /\ uniform_log_prob d (Arr2 (length center) rows) = Ok ls /\
    Forall2 (fun x p =>
      (half_open lo hi x -> exists v, p = Fin v /\ 0 < v /\ v * volume lo hi == 1) /\
      (~ half_open lo hi x -> p = Fin 0)) rows ps /\
    Forall2 (fun p l => exists v, p = Fin v /\ log_of l (Q2R v)) ps ls.
Proof.
  intros center radius rows S N F lo hi. destruct (uniform_new_ok center radius S) as (d & E & I & D & L & H).
  rewrite <- D in F. destruct (uniform_batch d rows I N F) as (ps & ls & R). exists d, ps, ls.
  rewrite D, L, H in R. split; [exact E|exact R].
Qed.

(** Read without the convention for the faces: the density is 1/volume in the interior of the box, 0
    outside the closed box, and nowhere anything else. *)
Theorem C05_inside_outside : forall center radius rows,
  shape_ok center radius -> rows <> [] -> Forall (fun r => length r = length center) rows ->
  let lo := corner Qminus center radius in let hi := corner Qplus center radius in
  exists d ps, uniform_new center radius = Ok d /\ uniform_prob d (Arr2 (length center) rows) = Ok ps /\
    Forall2 (fun x p =>
      (interior lo hi x -> exists v, p = Fin v /\ v * volume lo hi == 1) /\
      (~ in_box lo hi x -> p = Fin 0) /\
      (exists v, p = Fin v /\ (v == 0 \/ v * volume lo hi == 1))) rows ps.
Proof.
  intros center radius rows S N F lo hi.
  destruct (C05_uniform_density center radius rows S N F) as (d & ps & ls & E & P & _ & A & B).
  exists d, ps. split; [exact E|]. split; [exact P|]. fold lo hi in A. clear -A.
  induction A as [|x p xs ps [I O] A IH]; constructor; [|exact IH].
  split; [|split].
  - intros H. destruct (I (interior_half_open _ _ _ H)) as (v & -> & _ & V). eauto.
  - intros H. apply O. intros G. apply H. now apply half_open_in_box.
  - destruct (half_open_dec lo hi x) as [H|H].
    + destruct (I H) as (v & -> & _ & V). eauto.
    + exists 0. split; [now apply O|left; reflexivity].
Qed.

Example C05_example : shape_ok [0; 1#2] [1; 1#4] /\ shape_ok [0; 1#2; 3] [1#3] /\
  [[1#2; 1#2]; [5; 0]] <> (@nil vec) /\ Forall (fun r => length r = 2%nat) [[1#2; 1#2]; [5; 0]].
Proof.
  split; [left; simpl; lra|]. split; [right; exists (1#3); repeat split; try lra; try discriminate|].
  split; [discriminate|]. repeat constructor.
Qed.

(** For a query box that meets the support in every coordinate the integral is the fraction of the
    volume, it lies in [0,1]. *)
Theorem C06_integral_fraction_partial : forall center radius a b,
  shape_ok center radius -> length a = length center -> corners a b ->
  let lo := corner Qminus center radius in let hi := corner Qplus center radius in
  boxes_meet lo hi a b ->
  exists d r, uniform_new center radius = Ok d /\ uniform_integral d a b = Ok r /\
    r * volume lo hi == overlap_volume lo hi a b /\ 0 <= r <= 1.
Proof.
  intros center radius a b S LA AB lo hi M. destruct (uniform_new_ok center radius S) as (d & E & I & D & L & H).
  assert (MD : boxes_meet (u_lo d) (u_hi d) a b) by (rewrite L, H; exact M).
  destruct (integral_meet d a b I (eq_trans LA (eq_sym D)) AB MD) as (r & ER & V).
  exists d, r. rewrite L, H in V. split; [exact E|]. split; [exact ER|]. split; [exact V|].
  destruct I as (LL & C & _). rewrite L, H in C. pose proof (volume_pos _ _ C) as P.
  assert (B : 0 <= overlap_volume lo hi a b <= volume lo hi).
  { apply overlap_bounds; auto; unfold lo; rewrite <- L, LL, D; auto. apply corners_length in AB. congruence. }
  fold lo in V, P. fold hi in V, P. set (v := volume lo hi) in *. clearbody v. rewrite <- V in B. nra.
Qed.

(** It is one on the support, and grows with the query box. *)
Theorem C06_integral_support : forall center radius, shape_ok center radius ->
  exists d r, uniform_new center radius = Ok d /\ uniform_integral d (corner Qminus center radius) (corner Qplus center radius) = Ok r /\ r == 1.
Proof.
  intros center radius S. destruct (uniform_new_ok center radius S) as (d & E & I & D & L & H).
  pose proof I as (LL & C & _).
  destruct (integral_meet d (u_lo d) (u_hi d) I LL C (meet_full _ _ C)) as (r & ER & V).
  exists d, r. rewrite <- L, <- H. split; [exact E|]. split; [exact ER|].
  rewrite (overlap_full _ _ C) in V. pose proof (volume_pos _ _ C).
  set (v := volume (u_lo d) (u_hi d)) in *. clearbody v.
  assert (Z : (r - 1) * v == 0) by lra. apply Qmult_integral in Z. destruct Z; lra.
Qed.

Theorem C06_integral_monotone_partial : forall center radius a b a' b',
  shape_ok center radius -> length a = length center -> corners a b ->
  let lo := corner Qminus center radius in let hi := corner Qplus center radius in
  boxes_meet lo hi a b -> boxes_meet lo hi a' b' -> Forall2 Qle a' a -> Forall2 Qle b b' -> corners a' b' ->
  exists d r r', uniform_new center radius = Ok d /\ uniform_integral d a b = Ok r /\
    uniform_integral d a' b' = Ok r' /\ r <= r'.
Proof.
  intros center radius a b a' b' S LA AB lo hi M M' A B AB'.
  destruct (uniform_new_ok center radius S) as (d & E & I & D & L & H).
  assert (LA' : length a' = length a) by (clear - A; induction A; simpl; auto).
  assert (MD : boxes_meet (u_lo d) (u_hi d) a b) by (rewrite L, H; exact M).
  destruct (integral_meet d a b I (eq_trans LA (eq_sym D)) AB MD) as (r & ER & V).
  assert (MD' : boxes_meet (u_lo d) (u_hi d) a' b') by (rewrite L, H; exact M').
  destruct (integral_meet d a' b' I (eq_trans LA' (eq_trans LA (eq_sym D))) AB' MD') as (r' & ER' & V').
  exists d, r, r'. repeat (split; [assumption|]).
  pose proof I as (LL & C & _). pose proof (volume_pos _ _ C) as P.
  assert (O : overlap_volume (u_lo d) (u_hi d) a b <= overlap_volume (u_lo d) (u_hi d) a' b').
  { apply overlap_mono; auto; try congruence. apply corners_length in AB. congruence. }
  rewrite <- V, <- V' in O. set (v := volume (u_lo d) (u_hi d)) in *. clearbody v.
  destruct (Qlt_le_dec r' r); [|assumption]. exfalso. nra.
Qed.

Example C06_example : let lo := corner Qminus [0; 0] [1; 1#2] in let hi := corner Qplus [0; 0] [1; 1#2] in
  shape_ok [0; 0] [1; 1#2] /\ corners [0; -(2)] [3; 0] /\ boxes_meet lo hi [0; -(2)] [3; 0] /\
  corners [-(1); -(2)] [3; 1#4] /\ boxes_meet lo hi [-(1); -(2)] [3; 1#4] /\
  Forall2 Qle [-(1); -(2)] [0; -(2)] /\ Forall2 Qle [3; 0] [3; 1#4].
Proof.
  simpl. repeat split; try lra; try (left; simpl; lra); repeat constructor; lra.
Qed.

(** The full claim includes query boxes that miss the support, whose mass is zero. It fails: in one
    dimension the integral is negative ... *)
Theorem C06_disjoint_negative_refuted :
  exists d a b r, uniform_new [0] [1] = Ok d /\ corners a b /\ uniform_integral d a b = Ok r /\
    overlap_volume (u_lo d) (u_hi d) a b == 0 /\ r < 0.
Proof.
  do 1 eexists. exists [2], [3]. eexists. split; [vm_compute; reflexivity|].
  split; [repeat constructor; lra|]. split; [vm_compute; reflexivity|]. split; vm_compute; reflexivity.
Qed.

(** ... and in two dimensions it can be positive, even above one. *)
Theorem C06_disjoint_positive_refuted :
  exists d a b r, uniform_new [0; 0] [1; 1] = Ok d /\ corners a b /\ uniform_integral d a b = Ok r /\
    overlap_volume (u_lo d) (u_hi d) a b == 0 /\ 1 < r.
Proof.
  do 1 eexists. exists [4; 4], [5; 5]. eexists. split; [vm_compute; reflexivity|].
  split; [repeat constructor; lra|]. split; [vm_compute; reflexivity|]. split; vm_compute; reflexivity.
Qed.

(** A query box without extent in one coordinate is refused instead of having mass zero. *)
Theorem C06_flat_query_refuted :
  exists d a, uniform_new [0; 0] [1; 1] = Ok d /\ in_box (u_lo d) (u_hi d) a /\ uniform_integral d a a = Raise AssertionError.
Proof.
  do 1 eexists. exists [0; 0]. split; [vm_compute; reflexivity|]. split; [simpl; lra|]. vm_compute; reflexivity.
Qed.

(** Every sampled row lies in the closed support; if no unit draw is exactly zero it also has positive
    density. *)
Theorem C07_samples_in_support_partial : forall center radius n us,
  shape_ok center radius -> (forall k i, 0 <= us k i < 1) ->
  exists d, uniform_new center radius = Ok d /\ length (uniform_sample d n us) = n /\
    Forall (in_box (corner Qminus center radius) (corner Qplus center radius)) (uniform_sample d n us) /\
    ((forall k i, 0 < us k i) ->
     Forall (fun x => exists v, uniform_prob d (Arr1 x) = Ok [Fin v] /\ 0 < v) (uniform_sample d n us)).
Proof.
  intros center radius n us S U. destruct (uniform_new_ok center radius S) as (d & E & I & D & L & H).
  pose proof I as (LL & C & _). exists d. split; [exact E|]. unfold uniform_sample.
  split; [now rewrite map_length, seq_length|]. split.
  - rewrite Forall_map. apply Forall_forall. intros k _. rewrite <- L, <- H. apply row_in_box; auto.
  - intros P. rewrite Forall_map. apply Forall_forall. intros k _.
    assert (HO : half_open (u_lo d) (u_hi d) (uniform_row (u_lo d) (u_hi d) (us k) 0)).
    { apply row_half_open; auto. intros i. pose proof (U k i). pose proof (P k i). lra. }
    pose proof (half_open_length _ _ _ HO) as [LR LH].
    destruct (prob_val_spec d I) as (v & EV & PV & _). exists v. split; [|exact PV].
    unfold uniform_prob, check_shape. rewrite LR, LL, Nat.eqb_refl. cbn [bind map].
    apply inlier_half_open in HO; auto. now rewrite HO, EV.
Qed.

Example C07_example : shape_ok [0; 3] [1; 1#2] /\ (forall k i : nat, 0 <= (1#7) < 1) /\ (forall k i : nat, 0 < (1#7)).
Proof. split; [left; simpl; lra|]. split; intros; lra. Qed.

(** Draws are half-open including zero: then a sample lies on a lower face and its density is zero. *)
Theorem C07_lower_face_refuted :
  exists d us x, uniform_new [0] [1] = Ok d /\ (forall k i, 0 <= us k i < 1) /\
    uniform_sample d 1 us = [x] /\ uniform_prob d (Arr1 x) = Ok [Fin 0].
Proof.
  do 1 eexists. exists (fun _ _ => 0). eexists. split; [vm_compute; reflexivity|]. split; [intros; lra|].
  split; vm_compute; reflexivity.
Qed.

(** The benchmark density documented as uniform on [0,1] has density 1/2 there, and 1/2 outside, on
    (-1/2, 3/2]. *)
Theorem C11_benchden_uniform_refuted :
  exists d, benchden_uniform = Ok d /\
    (forall x, 0 < x /\ x <= 1 -> uniform_prob d (Arr1 [x]) = Ok [Fin (1#2)]) /\
    (forall x, -(1#2) < x /\ x <= (3#2) -> uniform_prob d (Arr1 [x]) = Ok [Fin (1#2)]).
Proof.
  eexists. split; [vm_compute; reflexivity|].
  assert (G : forall x, -(1#2) < x /\ x <= (3#2) ->
     uniform_prob {| u_dims := 1; u_lo := [-(1) # 2]; u_hi := [3#2]; u_volume := 2 |} (Arr1 [x]) = Ok [Fin (1#2)]).
  { intros x [A B]. unfold uniform_prob. cbn [check_shape length Nat.eqb u_dims bind map u_lo u_hi inlier].
    destruct (Qltb_spec (-(1) # 2) x) as [_|N]; [|exfalso; apply N; exact A].
    destruct (Qle_bool_spec x (3#2)) as [_|N]; [|exfalso; apply N; exact B].
    vm_compute. reflexivity. }
  split; intros x [A B]; apply G; lra.
Qed.

(** Queries: a vector of as many entries as dimensions is one row, a non-empty batch of that width
    passes unchanged, and everything else raises. The answer has one value per row. *)
Theorem C13_shape_contract_partial : forall (X : Type) dims (x : ndarray X) rows,
  check_shape dims x = Ok rows <->
  (exists v, x = Arr1 v /\ length v = dims /\ rows = [v]) \/
  (exists r rs, x = Arr2 dims (r :: rs) /\ rows = r :: rs).
Proof.
  intros X dims x rows. split.
  - destruct x as [v|w rs|]; simpl; try discriminate.
    + destruct (Nat.eqb_spec (length v) dims); [|discriminate]. intros E. inversion E. left. eauto.
    + destruct rs as [|r rs]; [discriminate|]. destruct (Nat.eqb_spec w dims) as [->|]; [|discriminate].
      intros E. inversion E. right. eauto.
  - intros [(v & -> & L & ->)|(r & rs & -> & ->)]; simpl; [rewrite L|]; now rewrite Nat.eqb_refl.
Qed.

Theorem C13_one_value_per_row : forall d x rows, check_shape (u_dims d) x = Ok rows ->
  exists ps ls, uniform_prob d x = Ok ps /\ uniform_log_prob d x = Ok ls /\
    length ps = length rows /\ length ls = length rows.
Proof.
  intros d x rows E. unfold uniform_prob, uniform_log_prob. rewrite E. cbn [bind].
  do 2 eexists. split; [reflexivity|]. split; [reflexivity|]. rewrite !map_length. auto.
Qed.

Example C13_example : exists d, uniform_new [0; 1] [1; 1] = Ok d /\
  check_shape (u_dims d) (Arr2 2 [[0; 1]; [1; 0]; [3; 4]]) = Ok [[0; 1]; [1; 0]; [3; 4]].
Proof. eexists. split; reflexivity. Qed.

(** The empty batch of the right width is not accepted: it fails with an IndexError, whatever the
    uniform distribution. *)
Theorem C13_empty_batch_refuted : exists x : ndarray Q, forall center radius d,
  uniform_new center radius = Ok d -> length center = 2%nat ->
  x = Arr2 2 [] /\ u_dims d = 2%nat /\ uniform_prob d x = Raise IndexError /\ uniform_log_prob d x = Raise IndexError.
Proof.
  exists (Arr2 2 []). intros center radius d E L. split; [reflexivity|]. unfold uniform_new in E.
  destruct (bcast Qminus center radius); cbn [bind] in E; [|discriminate].
  destruct (bcast Qplus center radius); cbn [bind] in E; [|discriminate].
  assert (D : u_dims d = length center) by (destruct radius as [|r [|r' rs]]; try (destruct (_ =? _)%nat); inversion E; reflexivity).
  rewrite L in D. split; [exact D|]. split; reflexivity.
Qed.

Print Assumptions C05_uniform_density.
Print Assumptions C05_inside_outside.
Print Assumptions C06_integral_fraction_partial.
Print Assumptions C06_integral_support.
Print Assumptions C06_integral_monotone_partial.
Print Assumptions C06_disjoint_negative_refuted.
Print Assumptions C06_disjoint_positive_refuted.
Print Assumptions C06_flat_query_refuted.
Print Assumptions C07_samples_in_support_partial.
Print Assumptions C07_lower_face_refuted.
Print Assumptions C11_benchden_uniform_refuted.
Print Assumptions C13_shape_contract_partial.
Print Assumptions C13_one_value_per_row.
Print Assumptions C13_empty_batch_refuted.
