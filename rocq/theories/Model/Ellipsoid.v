(** Model of CEllipsoid, ais_benchmarks/sampling_methods/multi_nested.py:14-63, over R. *)
From Coq Require Import List Bool Arith Reals.
Import ListNotations.
From Verif Require Import Prelude.Py Prelude.RBase.
Open Scope R_scope.

(** Vectors and square matrices by their entries; the dimension is given separately. *)
Definition rvect := nat -> R.
Definition rmatr := nat -> nat -> R.

(** np.linalg.det: expansion along the first row. *)
Definition minor (j : nat) (m : rmatr) : rmatr := fun a b => m (S a) (if (b <? j)%nat then b else S b).
Fixpoint detm (n : nat) (m : rmatr) : R :=
  match n with
  | O => 1
  | S k => Rsum (map (fun j => (if Nat.even j then 1 else -1) * m 0%nat j * detm k (minor j m)) (seq 0 n))
  end.

(** The object: loc, the covariance of its sampler (CMultivariateNormal's sigma, line 30) and the volume. *)
Record ellipsoid : Type := mkEll { e_dims : nat; e_loc : rvect; e_scale : rmatr; e_volume : R }.

Section Ellipsoids.
(** Line 33: volume of the unit sphere in d dimensions, 2/d * pi^(d/2) / gamma(d/2). *)
Variable sphere_vol : nat -> R.

(** Lines 15-35 __init__. In one dimension the determinant of the 1 x 1 matrix is its entry. *)
Definition ellipsoid_new (d : nat) (loc : rvect) (scale : rmatr) : res ellipsoid :=
  if Rleb (detm d scale) 0 then Raise ValueError
  else Ok (mkEll d loc scale (sphere_vol d * detm d scale)).

(** Line 45 np.mean(points, axis=0); a point is its coordinates. *)
Definition mean_of (pts : list rvect) : rvect := fun i => Rsum (map (fun x => x i) pts) / INR (length pts).
(** Line 50 np.cov(points, rowvar=False), with the divisor n - 1. *)
Definition cov_of (pts : list rvect) : rmatr := fun i j =>
  Rsum (map (fun x => (x i - mean_of pts i) * (x j - mean_of pts j)) pts) / INR (length pts - 1).
(** Line 56 np.std(points) of one-dimensional points, with the divisor n. *)
Definition std_of (pts : list rvect) : R :=
  sqrt (Rsum (map (fun x => (x 0%nat - mean_of pts 0%nat) * (x 0%nat - mean_of pts 0%nat)) pts) / INR (length pts)).
(** np.diag of a constant vector, and a constant times a matrix. *)
Definition diag_c (c : R) : rmatr := fun i j => if (i =? j)%nat then c else 0.
Definition times (c : R) (m : rmatr) : rmatr := fun i j => c * m i j.

(** Lines 43-63 fit, for d-dimensional points (d > 0). The standard deviation is used as the scale in one dimension (56, 62),
    the covariance otherwise (50); without a positive spread the identity is used (53, 59). *)
Definition fit (d : nat) (pts : list rvect) (inflate : R) : res ellipsoid :=
  let loc := mean_of pts in
  if (length pts <? d)%nat then Raise AssertionError
  else if (1 <? d)%nat then
    (if Rleb (detm d (cov_of pts)) 0 then ellipsoid_new d loc (diag_c inflate) else ellipsoid_new d loc (times inflate (cov_of pts)))
  else
    (if Rleb (std_of pts) 0 then ellipsoid_new d loc (diag_c inflate) else ellipsoid_new d loc (times inflate (diag_c (std_of pts)))).
End Ellipsoids.
