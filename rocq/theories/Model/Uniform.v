(** Model of ais_benchmarks/distributions/parametric/CMultivariateUniform.py and
    benchden/d01_uniform.py. *)
From Coq Require Import List Bool Arith QArith Reals Qreals.
Import ListNotations.
From Verif Require Import Prelude.Py Prelude.QBase Prelude.RBase Model.Shape Model.Misc.
Open Scope Q_scope.

(** What the object stores: dims, support_vals = [lo, hi] = loc -/+ scale, volume. *)
Record uniform := mkUnif { u_dims : nat; u_lo : vec; u_hi : vec; u_volume : Q }.

(** CMultivariateUniform.py:6-30 __init__. A radius array of one entry is used for every dimension. *)
Definition uniform_new (center radius : vec) : res uniform :=
  bind (bcast Qminus center radius) (fun lo =>
  bind (bcast Qplus center radius) (fun hi =>
  let d := length center in
  match radius with
  | [r] => Ok (mkUnif d lo hi (Qpow (r * 2) d))
  | _ => if (length radius =? d)%nat then Ok (mkUnif d lo hi (Qprod (map (fun r => r * 2) radius)))
         else Raise ValueError
  end)).

(** CMultivariateUniform.py:44, 56: np.all(min_val < samples and samples <= max_val) for one row. *)
Fixpoint inlier (lo hi x : vec) : bool :=
  match lo, hi, x with
  | l :: lo', h :: hi', a :: x' => Qltb l a && Qle_bool a h && inlier lo' hi' x'
  | _, _, _ => true
  end.

(** CMultivariateUniform.py:29 prob_val (division by a zero volume gives inf). *)
Definition prob_val (d : uniform) : fl Q := fdivQ 1 (u_volume d).

(** CMultivariateUniform.py:49-59 prob. *)
Definition uniform_prob (d : uniform) (x : ndarray Q) : res (list (fl Q)) :=
  bind (check_shape (u_dims d) x) (fun rows =>
  Ok (map (fun r => if inlier (u_lo d) (u_hi d) r then prob_val d else Fin 0) rows)).

(** A rational float as a real one. *)
Definition flR (x : fl Q) : fl R :=
  match x with Fin a => Fin (Q2R a) | PInf => PInf | NInf => NInf | NaN => NaN end.

(** CMultivariateUniform.py:30, 38-47 log_prob. *)
Definition uniform_log_prob (d : uniform) (x : ndarray Q) : res (list (fl R)) :=
  bind (check_shape (u_dims d) x) (fun rows =>
  Ok (map (fun r => if inlier (u_lo d) (u_hi d) r then fln (flR (prob_val d)) else NInf) rows)).

(** CMultivariateUniform.py:32-36 sample: low + (high - low) * u per coordinate, u the unit draws. *)
Fixpoint uniform_row (lo hi : vec) (u : nat -> Q) (j : nat) : vec :=
  match lo, hi with
  | l :: lo', h :: hi' => (l + (h - l) * u j) :: uniform_row lo' hi' u (S j)
  | _, _ => []
  end.
Definition uniform_sample (d : uniform) (n : nat) (us : nat -> nat -> Q) : list vec :=
  map (fun k => uniform_row (u_lo d) (u_hi d) (us k) 0) (seq 0 n).

(** np.all(a < b). *)
Fixpoint all_lt (a b : vec) : bool :=
  match a, b with x :: a', y :: b' => Qltb x y && all_lt a' b' | _, _ => true end.

(** CMultivariateUniform.py:64-68 integral, for corners a, b of dims entries. *)
Definition uniform_integral (d : uniform) (a b : vec) : res Q :=
  if negb (all_lt a b) then Raise AssertionError
  else Ok (1 / u_volume d * Qprod (map2 Qminus (map2 qmin b (u_hi d)) (map2 qmax a (u_lo d)))).

(** benchden/d01_uniform.py:15-24: centre 0.5, radius 1 (the support given in params is overwritten by
    CMultivariateUniform.py:15). *)
Definition benchden_uniform : res uniform := uniform_new [1#2] [1].
