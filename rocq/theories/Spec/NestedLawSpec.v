(** Chances under a finite law, and points inside a box (no reference to the model). *)
From Coq Require Import List Bool QArith.
Import ListNotations.
From Verif Require Import Prelude.Py Prelude.QBase.
Open Scope Q_scope.

(** Chance that a draw from the law (masses and points) satisfies [p]. *)
Definition chance {X : Type} (law : list (Q * X)) (p : X -> bool) : Q := Qsum (map (fun mx => if p (snd mx) then fst mx else 0) law).
(** Inside the box, off its lower faces. *)
Fixpoint inside (lo hi x : list Q) : Prop :=
  match lo, hi, x with
  | l :: lo', h :: hi', a :: x' => l < a <= h /\ inside lo' hi' x'
  | [], [], [] => True
  | _, _, _ => False
  end.
(** 1 when there is a point and it is in the set. *)
Definition is_in {X : Type} (B : X -> bool) (o : option X) : Q := match o with Some x => if B x then 1 else 0 | None => 0 end.
(** Draws with the times at which they are made. *)
Fixpoint timed {X : Type} (clock : nat -> Q) (ds : list X) : list (X * Q) :=
  match ds with [] => [] | d :: r => (d, clock 0%nat) :: timed (fun i => clock (S i)) r end.
