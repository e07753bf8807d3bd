(** Real arithmetic with IEEE special values (no rounding). Not a model of any file in /repo: meaning
    of the numpy primitives named in the comments. *)
From Coq Require Import List Reals Lra.
Import ListNotations.
From Verif Require Import Prelude.Py.
Open Scope R_scope.

(** Comparisons as booleans. *)
Definition Rltb (x y : R) : bool := if Rlt_dec x y then true else false.
Definition Rleb (x y : R) : bool := if Rle_dec x y then true else false.
Definition Reqb (x y : R) : bool := if Req_EM_T x y then true else false.

(** numpy [sum] and [prod] of a 1-D array. *)
Fixpoint Rsum (l : list R) : R := match l with [] => 0 | x :: r => x + Rsum r end.
Fixpoint Rprod (l : list R) : R := match l with [] => 1 | x :: r => x * Rprod r end.

(** [np.exp]. *)
Definition fexp (x : fl R) : fl R :=
  match x with Fin a => Fin (exp a) | PInf => PInf | NInf => Fin 0 | NaN => NaN end.

(** [np.log]: -inf at zero, NaN for negative numbers. *)
Definition fln (x : fl R) : fl R :=
  match x with
  | Fin a => if Rltb 0 a then Fin (ln a) else if Reqb a 0 then NInf else NaN
  | PInf => PInf | NInf => NaN | NaN => NaN
  end.

Definition faddR (x y : fl R) : fl R :=
  match x, y with
  | NaN, _ => NaN | _, NaN => NaN
  | PInf, NInf => NaN | NInf, PInf => NaN
  | PInf, _ => PInf | _, PInf => PInf
  | NInf, _ => NInf | _, NInf => NInf
  | Fin a, Fin b => Fin (a + b)
  end.
Definition foppR (x : fl R) : fl R :=
  match x with Fin a => Fin (- a) | PInf => NInf | NInf => PInf | NaN => NaN end.
Definition fsubR (x y : fl R) : fl R := faddR x (foppR y).

(** Multiplication: zero times infinity is NaN. *)
Definition fscale_inf (a : R) (pos : bool) : fl R :=
  if Rltb 0 a then (if pos then PInf else NInf)
  else if Rltb a 0 then (if pos then NInf else PInf) else NaN.
Definition fmulR (x y : fl R) : fl R :=
  match x, y with
  | NaN, _ => NaN | _, NaN => NaN
  | Fin a, Fin b => Fin (a * b)
  | Fin a, PInf => fscale_inf a true | PInf, Fin a => fscale_inf a true
  | Fin a, NInf => fscale_inf a false | NInf, Fin a => fscale_inf a false
  | PInf, PInf => PInf | NInf, NInf => PInf | PInf, NInf => NInf | NInf, PInf => NInf
  end.

Fixpoint fsumR (l : list (fl R)) : fl R :=
  match l with [] => Fin 0 | x :: r => faddR x (fsumR r) end.

(** [np.maximum]: NaN wins. *)
Definition fmaxR (x y : fl R) : fl R :=
  match x, y with
  | NaN, _ => NaN | _, NaN => NaN
  | PInf, _ => PInf | _, PInf => PInf
  | NInf, z => z | z, NInf => z
  | Fin a, Fin b => Fin (Rmax a b)
  end.
