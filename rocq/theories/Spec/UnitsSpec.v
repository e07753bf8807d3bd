(** Changing the origin and the unit of length: what it means for points, displacements and densities. *)
From Coq Require Import List ZArith QArith.
Import ListNotations.
From Verif Require Import Prelude.Py.
Open Scope Q_scope.

(** The point x is written y when every coordinate is measured in a unit a times smaller, from the origin -b. *)
Fixpoint recoord (a : Q) (b x y : list Q) : Prop :=
  match b, x, y with
  | [], [], [] => True
  | b0 :: b', x0 :: x', y0 :: y' => y0 == a * x0 + b0 /\ recoord a b' x' y'
  | _, _, _ => False
  end.
(** A displacement in n coordinates: only the unit matters. *)
Definition stretch (a : Q) (n : nat) (d e : list Q) : Prop := length d = n /\ Forall2 (fun u v => v == a * u) d e.
(** Volumes are a^n times larger, so densities are a^n times smaller. *)
Definition redensity (a : Q) (b : list Q) (pi pi' : list Q -> Q) : Prop :=
  forall x y, recoord a b x y -> pi' y * a ^ Z.of_nat (length b) == pi x.
(** Log densities differ by a constant (the logarithm of a^n); infinite values agree. *)
Definition log_shift (k : Q) (u v : fl Q) : Prop :=
  match u, v with Fin s, Fin t => t == s + k | PInf, PInf => True | NInf, NInf => True | NaN, NaN => True | _, _ => False end.
Definition relog (a : Q) (b : list Q) (lp lp' : list Q -> fl Q) : Prop :=
  exists k, forall x y, recoord a b x y -> log_shift k (lp x) (lp' y).
(** The log density of a displacement. *)
Definition relog_shift (a : Q) (n : nat) (lq lq' : list Q -> fl Q) : Prop :=
  exists k, forall d e, stretch a n d e -> log_shift k (lq d) (lq' e).
(** Several points. *)
Definition recoords (a : Q) (b : list Q) (xs ys : list (list Q)) : Prop := Forall2 (recoord a b) xs ys.
Definition recoords_opt (a : Q) (b : list Q) (xs ys : option (list (list Q))) : Prop :=
  match xs, ys with Some l, Some l' => recoords a b l l' | None, None => True | _, _ => False end.
