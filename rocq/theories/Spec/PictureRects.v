(** Rectangles of a picture (independent of the model): lower left corner, width and height. *)
From Coq Require Import List QArith.
Import ListNotations.
Open Scope Q_scope.

Definition rect := (Q * Q * (Q * Q))%type.
Definition on_rect (r : rect) (x y : Q) : Prop := let '((a, b), (w, h)) := r in a <= x <= a + w /\ b <= y <= b + h.
Definition in_rect (r : rect) (x y : Q) : Prop := let '((a, b), (w, h)) := r in a < x < a + w /\ b < y < b + h.
Definition area (r : rect) : Q := fst (snd r) * snd (snd r).
Definition total_area (rs : list rect) : Q := fold_right (fun r s => area r + s) 0 rs.

(** The rectangles pave the whole one: they cover it, stay in it, do not overlap, and their areas add up. *)
Definition paves (rs : list rect) (whole : rect) : Prop :=
  (forall x y, on_rect whole x y -> exists r, In r rs /\ on_rect r x y) /\
  (forall r x y, In r rs -> on_rect r x y -> on_rect whole x y) /\
  (forall i j r r' x y, nth_error rs i = Some r -> nth_error rs j = Some r' -> in_rect r x y -> in_rect r' x y -> i = j) /\
  total_area rs == area whole.
