(** Naming the coordinate axes: what it means for points and densities. *)
From Coq Require Import List ZArith QArith.
Import ListNotations.
From Verif Require Import Prelude.Py.
Open Scope Q_scope.

(** The new list of axes: [sg] tells, for every new axis, which old axis of the dm old ones it is. A permutation of
    0..dm-1 only renames the axes; a shorter list drops axes. The point x is then written y. *)
Definition relabel (dm : nat) (sg : list nat) (x y : list Q) : Prop := length x = dm /\ Forall2 (fun i v => v == nth i x 0) sg y.
(** The same density. *)
Definition same_density (dm : nat) (sg : list nat) (pi pi' : list Q -> Q) : Prop := forall x y, relabel dm sg x y -> pi' y == pi x.
Definition eq_fl (u v : fl Q) : Prop :=
  match u, v with Fin s, Fin t => t == s | PInf, PInf => True | NInf, NInf => True | NaN, NaN => True | _, _ => False end.
Definition same_log (dm : nat) (sg : list nat) (lp lp' : list Q -> fl Q) : Prop := forall x y, relabel dm sg x y -> eq_fl (lp x) (lp' y).
(** Several points. *)
Definition relabels (dm : nat) (sg : list nat) (xs ys : list (list Q)) : Prop := Forall2 (relabel dm sg) xs ys.
Definition relabels_opt (dm : nat) (sg : list nat) (xs ys : option (list (list Q))) : Prop :=
  match xs, ys with Some l, Some l' => relabels dm sg l l' | None, None => True | _, _ => False end.
