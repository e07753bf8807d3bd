(** What the reader of a picture expects: for every id the latest item, drawn completely. *)
From Coq Require Import List Bool Arith.
Import ListNotations.
From Verif Require Import Model.Drawing.

(** Everything one item consists of. *)
Definition parts_of (s : shape) : list part :=
  match s with
  | Axis n => AxisLine :: flat_map (fun k => [TickLine k; TickLabel k]) (seq 0 n)
  | Func => [Curve]
  | Point => [Dot]
  | Other => []
  end.
Section Pictures.
Context {D : Type}.
Definition whole (it : item D) : list (item D * part) := map (pair it) (parts_of (i_shape it)).

(** Does an item of the list have the id i? *)
Definition appears (i : nat) (l : list (item D)) : bool := existsb (fun it => (i_id it =? i)%nat) l.
(** The items that no later item replaces. *)
Fixpoint latest (l : list (item D)) : list (item D) :=
  match l with [] => [] | it :: r => if appears (i_id it) r then latest r else it :: latest r end.
Definition picture (l : list (item D)) : list (item D * part) := flat_map whole (latest l).

(** What is on a canvas, in drawing order. *)
Definition visible (c : canvas D) : list (item D * part) := map snd (c_artists c).
(** A canvas as drawing leaves it: new artists have new handles. *)
Definition sound (c : canvas D) : Prop := Forall (fun a => (fst a < c_next c)%nat) (c_artists c).

(** Every item can be drawn, and the items that a later one replaces satisfy P. *)
Fixpoint replaceable (P : shape -> Prop) (l : list (item D)) : Prop :=
  match l with
  | [] => True
  | it :: r => i_shape it <> Other /\ (appears (i_id it) r = true -> P (i_shape it)) /\ replaceable P r
  end.
End Pictures.
