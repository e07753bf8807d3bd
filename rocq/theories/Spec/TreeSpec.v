(** Cube cells and partitions of space (independent of the model). A cell is a centre and a radius. *)
From Coq Require Import List Bool Arith QArith.
Import ListNotations.
Open Scope Q_scope.

Definition cell := (list Q * Q)%type.
(** Closed cell and its interior. *)
Definition in_closed (c : cell) (x : list Q) : Prop := Forall2 (fun a v => a - snd c <= v /\ v <= a + snd c) (fst c) x.
Definition in_open (c : cell) (x : list Q) : Prop := Forall2 (fun a v => a - snd c < v /\ v < a + snd c) (fst c) x.
(** The point at the shares [u] of the sides of the cell: the unit cube mapped onto the cell. *)
Definition placed (c : cell) (u x : list Q) : Prop :=
  length x = length (fst c) /\ forall j, (j < length (fst c))%nat -> nth j x 0 == nth j (fst c) 0 - snd c + nth j u 0 * (2 * snd c).
(** The side to the power of the dimension. *)
Fixpoint power (x : Q) (n : nat) : Q := match n with O => 1 | S m => x * power x m end.
Definition cell_volume (c : cell) : Q := power (2 * snd c) (length (fst c)).
Definition total_volume (cs : list cell) : Q := fold_right (fun c v => cell_volume c + v) 0 cs.

Definition covers (cs : list cell) (whole : cell) : Prop :=
  forall x, in_closed whole x -> exists c, In c cs /\ in_closed c x.
Definition within (cs : list cell) (whole : cell) : Prop :=
  forall c x, In c cs -> in_closed c x -> in_closed whole x.
Definition separate (cs : list cell) : Prop :=
  forall i j c c' x, nth_error cs i = Some c -> nth_error cs j = Some c' -> in_open c x -> in_open c' x -> i = j.

(** The cells partition the whole. *)
Definition tiles (cs : list cell) (whole : cell) : Prop :=
  covers cs whole /\ within cs whole /\ separate cs /\ total_volume cs == cell_volume whole.

(** Number of true flags. *)
Fixpoint count_true (l : list bool) : nat := match l with [] => 0 | b :: r => (if b then 1 else 0) + count_true r end.

(** Stratified estimate of the integral of [pi] from one point per cell. *)
Definition estimate (pi : list Q -> Q) (l : list (cell * list Q)) : Q := fold_right (fun cx s => pi (snd cx) * cell_volume (fst cx) + s) 0 l.
(** Integral of the function that is constant on each cell. *)
Definition mass (l : list (cell * Q)) : Q := fold_right (fun cp s => snd cp * cell_volume (fst cp) + s) 0 l.
