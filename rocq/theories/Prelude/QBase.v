(** Rational arithmetic helpers (executable). Not a model of any file in /repo: they give the
    meaning of the numpy primitives named in the comments, in exact arithmetic. *)
From Coq Require Import List Bool Arith Lia QArith Qminmax Lqa.
Import ListNotations.
From Verif Require Import Prelude.Py.
Open Scope Q_scope.

(** Python [x < y] on finite numbers. *)
Definition Qltb (x y : Q) : bool := negb (Qle_bool y x).

(** numpy [sum] of a 1-D array. *)
Fixpoint Qsum (l : list Q) : Q :=
  match l with [] => 0 | x :: r => x + Qsum r end.

(** numpy [prod] of a 1-D array. *)
Fixpoint Qprod (l : list Q) : Q :=
  match l with [] => 1 | x :: r => x * Qprod r end.

(** x ** n for a natural number n. *)
Fixpoint Qpow (x : Q) (n : nat) : Q :=
  match n with O => 1 | S m => x * Qpow x m end.

(** The number n as a float. *)
Definition Qnat (n : nat) : Q := inject_Z (Z.of_nat n).

(** A sample (one row of a numpy array). *)
Definition vec := list Q.

(** Elementwise binary operation of two rows of equal length. *)
Fixpoint map2 {A B C : Type} (f : A -> B -> C) (l : list A) (m : list B) : list C :=
  match l, m with
  | a :: l', b :: m' => f a b :: map2 f l' m'
  | _, _ => []
  end.

Definition vadd (x y : vec) : vec := map2 Qplus x y.
Definition vsub (x y : vec) : vec := map2 Qminus x y.

(** [np.minimum], [np.maximum] on finite numbers (as in C: comparison then selection). *)
Definition qmax (x y : Q) : Q := if Qle_bool x y then y else x.
Definition qmin (x y : Q) : Q := if Qle_bool x y then x else y.

(** [np.clip(x, lo, hi)] = minimum(maximum(x, lo), hi), per coordinate. *)
Definition clip1 (x lo hi : Q) : Q := qmin (qmax x lo) hi.
Fixpoint vclip (x lo hi : vec) : vec :=
  match x, lo, hi with
  | a :: x', l :: lo', h :: hi' => clip1 a l h :: vclip x' lo' hi'
  | _, _, _ => []
  end.

(** Finite-or-special arithmetic over Q: numpy division and comparison. *)
Definition fdivQ (x y : Q) : fl Q :=
  if Qeq_bool y 0 then
    if Qeq_bool x 0 then NaN else if Qltb 0 x then PInf else NInf
  else Fin (x / y).

(** [x > u] for a float x and a finite u: false for NaN. *)
Definition fgtQ (x : fl Q) (u : Q) : bool :=
  match x with Fin a => Qltb u a | PInf => true | NInf => false | NaN => false end.

(** Position of the first minimum ([np.argmin]). *)
Fixpoint argmin_from (l : list Q) (best : Q) (besti i : nat) : nat :=
  match l with
  | [] => besti
  | x :: r => if Qltb x best then argmin_from r x i (S i) else argmin_from r best besti (S i)
  end.
Definition argminQ (l : list Q) : nat :=
  match l with [] => 0 | x :: r => argmin_from r x 0 1 end.

(** Overwriting one entry of an array. *)
Fixpoint upd {A : Type} (l : list A) (i : nat) (a : A) : list A :=
  match l, i with
  | [], _ => []
  | _ :: r, O => a :: r
  | x :: r, S j => x :: upd r j a
  end.

(** Addition, multiplication and division of floats with special values (no rounding,
    zero is unsigned: x / 0 has the sign of x). *)
Definition faddQ (x y : fl Q) : fl Q :=
  match x, y with
  | NaN, _ => NaN | _, NaN => NaN
  | PInf, NInf => NaN | NInf, PInf => NaN
  | PInf, _ => PInf | _, PInf => PInf
  | NInf, _ => NInf | _, NInf => NInf
  | Fin a, Fin b => Fin (a + b)
  end.
Definition foppQ (x : fl Q) : fl Q :=
  match x with Fin a => Fin (- a) | PInf => NInf | NInf => PInf | NaN => NaN end.
Definition fsubQ (x y : fl Q) : fl Q := faddQ x (foppQ y).
Definition fdivflQ (x y : fl Q) : fl Q :=
  match x, y with
  | NaN, _ => NaN | _, NaN => NaN
  | Fin a, Fin b => fdivQ a b
  | Fin _, _ => Fin 0
  | PInf, Fin b => if Qltb b 0 then NInf else PInf
  | NInf, Fin b => if Qltb b 0 then PInf else NInf
  | _, _ => NaN
  end.
Fixpoint fsumQ (l : list (fl Q)) : fl Q :=
  match l with [] => Fin 0 | x :: r => faddQ x (fsumQ r) end.
Definition fltQ (x y : fl Q) : bool :=
  match x, y with
  | NaN, _ => false | _, NaN => false
  | Fin a, Fin b => Qltb a b
  | NInf, NInf => false | NInf, _ => true
  | _, PInf => match x with PInf => false | _ => true end
  | _, _ => false
  end.
