(** Model of ais_benchmarks/distributions/parametric/CMultivariateNormal.py. *)
From Coq Require Import List Bool Arith Reals.
Import ListNotations.
From Verif Require Import Prelude.Py Prelude.RBase.
Open Scope R_scope.

(** Vectors and matrices of d dimensions are functions of which only the indices below d matter. *)
Definition rvec := nat -> R.
Definition rmat := nat -> nat -> R.

(** f 0 + ... + f (d-1). *)
Fixpoint sum_to (d : nat) (f : nat -> R) : R :=
  match d with O => 0 | S k => sum_to k f + f k end.

(** The object: dims, _loc, _scale, inv_cov, term1, term2, det. *)
Record normal := mkNormal {
  n_dims : nat; n_loc : rvec; n_cov : rmat; n_inv : rmat; n_term1 : R; n_term2 : R; n_det : R }.

Section Normal.
(** np.linalg.det and np.linalg.inv are arguments; the theorems that need more than the use made of
    their result say what they assume. *)
Variable det : rmat -> R.
Variable inv : rmat -> rmat.

(** CMultivariateNormal.py:52-62 set_moments (cov of the right shape). [Failed]: the assertion of line 56;
    self.det is overwritten before it. *)
Definition set_moments (s : normal) (mean : rvec) (cov : rmat) : outcome normal :=
  if Rltb 0 (det cov) then
    Done (mkNormal (n_dims s) mean cov (inv cov) (n_term1 s) (- (1 / 2) * ln (det cov)) (det cov))
  else Failed AssertionError (mkNormal (n_dims s) (n_loc s) (n_cov s) (n_inv s) (n_term1 s) (n_term2 s) (det cov)).

(** CMultivariateNormal.py:26-50 __init__. *)
Definition normal_new (d : nat) (mean : rvec) (cov : rmat) : res normal :=
  if Rltb 0 (det cov) then
    Ok (mkNormal d mean cov (inv cov) (- (1 / 2) * INR d * ln (PI * 2)) (- (1 / 2) * ln (det cov)) (det cov))
  else Raise AssertionError.
End Normal.

(** CMultivariateNormal.py:69-70: diff^T @ inv_cov @ diff with diff = loc - x. *)
Definition quad_form (d : nat) (m : rmat) (v : rvec) : R :=
  sum_to d (fun i => sum_to d (fun j => v i * m i j * v j)).

(** CMultivariateNormal.py:67-74 log_prob and prob of one row. *)
Definition normal_log_prob (s : normal) (x : rvec) : R :=
  n_term1 s + n_term2 s + - (1 / 2) * quad_form (n_dims s) (n_inv s) (fun i => n_loc s i - x i).
Definition normal_prob (s : normal) (x : rvec) : R := exp (normal_log_prob s x).
