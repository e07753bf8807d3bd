(** Counting points in a box. *)
From Coq Require Import List QArith.
Import ListNotations.
From Verif Require Import Prelude.QBase.
Open Scope Q_scope.

(** Above the lower and not above the upper side in every coordinate. *)
Fixpoint in_half (lo hi x : list Q) : bool :=
  match lo, hi, x with
  | [], [], [] => true
  | l :: lo', h :: hi', a :: x' => Qltb l a && Qle_bool a h && in_half lo' hi' x'
  | _, _, _ => false
  end.
Definition count_in (b : list Q * list Q) (xs : list (list Q)) : Q := Qsum (map (fun x => if in_half (fst b) (snd b) x then 1 else 0) xs).
(** The point of the box at the shares [u] of its sides, and the law of such points. *)
Fixpoint place (lo hi u : list Q) : list Q :=
  match lo, hi, u with
  | l :: lo', h :: hi', a :: u' => (l + (h - l) * a) :: place lo' hi' u'
  | _, _, _ => []
  end.
Definition placed_law (dl : list (Q * list Q)) (b : list Q * list Q) : list (Q * list Q) := map (fun wu => (fst wu, place (fst b) (snd b) (snd wu))) dl.
