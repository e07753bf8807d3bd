(** Model of ais_benchmarks/visualization/matplotlib/viz_interface.py: what draw_sequence and draw_frames leave on the canvas. *)
From Coq Require Import List Bool Arith.
Import ListNotations.
From Verif Require Import Prelude.Py.

(** visualization/visuals.py: the kind of an item as draw_item tells them apart (its type attribute); an axis with its number of
    ticks, the shortest of its three tick lists (viz_interface.py:24). Labels, expressions and boxes have the type None
    (visuals.py:16, 130-148). *)
Inductive shape : Type := Axis (ticks : nat) | Func | Point | Other.
(** visuals.py:12-20: an item: its id, its kind, and everything else that is drawn (colours, positions, values). *)
Record item (D : Type) : Type := mkItem { i_id : nat; i_shape : shape; i_data : D }.
Arguments mkItem {D}. Arguments i_id {D}. Arguments i_shape {D}. Arguments i_data {D}.

(** The artists one item consists of. *)
Inductive part : Type := AxisLine | TickLine (k : nat) | TickLabel (k : nat) | Curve | Dot.

Section Canvas.
Context {D : Type}.
(** matplotlib: the artists on the axes in drawing order, each with a handle of its own; the number of handles given out so far. *)
Record canvas : Type := mkCanvas { c_next : nat; c_artists : list (nat * (item D * part)) }.

(** matplotlib ax.add_line, plt.text, ax.plot, ax.scatter: a new artist on top. They are assumed not to raise. *)
Definition add_artist (c : canvas) (it : item D) (p : part) : canvas * nat :=
  (mkCanvas (S (c_next c)) (c_artists c ++ [(c_next c, (it, p))]), c_next c).

(** matplotlib Artist.remove: an artist that was removed already is a NotImplementedError. *)
Definition remove_artist (c : canvas) (h : nat) : res canvas :=
  if existsb (fun a => (fst a =? h)%nat) (c_artists c)
  then Ok (mkCanvas (c_next c) (filter (fun a => negb (fst a =? h)%nat) (c_artists c)))
  else Raise NotImplementedError.

(** viz_interface.py:80-81: the loop over the artists of an item; an exception leaves the earlier removals in place. *)
Fixpoint remove_all (c : canvas) (hs : list nat) : canvas * res unit :=
  match hs with
  | [] => (c, Ok tt)
  | h :: r => match remove_artist c h with Ok c' => remove_all c' r | Raise e => (c, Raise e) end
  end.

(** What a drawing function returns: a list of artists, or (ax.scatter) one artist, which cannot be iterated over. *)
Inductive drawn : Type := Listed (hs : list nat) | Single (h : nat).

(** viz_interface.py:24-45: the ticks from number k on, with the artists listed so far; [l] is the latest line (lines 20, 34). *)
Fixpoint draw_ticks (c : canvas) (it : item D) (k n : nat) (elems : list nat) (l : nat) : canvas * (list nat * nat) :=
  match n with
  | O => (c, (elems, l))
  | S n' => let (c1, h1) := add_artist c it (TickLine k) in
            let (c2, h2) := add_artist c1 it (TickLabel k) in
            draw_ticks c2 it (S k) n' (elems ++ [h2]) h1
  end.

(** viz_interface.py:6-60 draw_point, draw_func, draw_axis, draw_item. The tick lines are not listed (line 35 only adds them to
    the axes), except for the latest line, which is listed at the end (line 47); without ticks that is the axis line again. *)
Definition draw_item (c : canvas) (it : item D) : canvas * res drawn :=
  match i_shape it with
  | Axis n => let (c1, h) := add_artist c it AxisLine in
              let '(c2, (elems, l)) := draw_ticks c1 it 0 n [h] h in
              (c2, Ok (Listed (elems ++ [l])))
  | Func => let (c1, h) := add_artist c it Curve in (c1, Ok (Listed [h]))
  | Point => let (c1, h) := add_artist c it Dot in (c1, Ok (Single h))
  | Other => (c, Raise NotImplementedError)
  end.

(** viz_interface.py:74-75: object_idxs and items, kept in step, as one table from ids to what was drawn. *)
Definition table : Type := list (nat * drawn).
Fixpoint lookup (t : table) (i : nat) : option drawn :=
  match t with [] => None | (j, d) :: r => if (j =? i)%nat then Some d else lookup r i end.
Fixpoint assign (t : table) (i : nat) (d : drawn) : table :=
  match t with [] => [] | (j, e) :: r => if (j =? i)%nat then (j, d) :: r else (j, e) :: assign r i d end.

(** viz_interface.py:76-85: one turn of draw_sequence. The exceptions raised in the try block are not of the class ValueError, so
    they end the call. *)
Definition draw_turn (c : canvas) (t : table) (it : item D) : canvas * res table :=
  match lookup t (i_id it) with
  | Some (Single _) => (c, Raise TypeError)
  | Some (Listed hs) =>
      match remove_all c hs with
      | (c1, Raise e) => (c1, Raise e)
      | (c1, Ok _) => match draw_item c1 it with
                      | (c2, Ok d) => (c2, Ok (assign t (i_id it) d))
                      | (c2, Raise e) => (c2, Raise e)
                      end
      end
  | None => match draw_item c it with
            | (c2, Ok d) => (c2, Ok (t ++ [(i_id it, d)]))
            | (c2, Raise e) => (c2, Raise e)
            end
  end.
Fixpoint draw_from (c : canvas) (t : table) (seq : list (item D)) : canvas * res unit :=
  match seq with
  | [] => (c, Ok tt)
  | it :: r => match draw_turn c t it with
               | (c1, Ok t1) => draw_from c1 t1 r
               | (c1, Raise e) => (c1, Raise e)
               end
  end.
(** viz_interface.py:73-85 draw_sequence. *)
Definition draw_sequence (c : canvas) (seq : list (item D)) : canvas * res unit := draw_from c [] seq.

(** viz_interface.py:63-70 draw_frames: every frame on a cleared figure; what is on the canvas at each pause, and how the call
    ended. *)
Fixpoint draw_frames (c : canvas) (frames : list (list (item D))) (static : list (item D)) : list canvas * res unit :=
  match frames with
  | [] => ([], Ok tt)
  | f :: r =>
      match draw_sequence (mkCanvas (c_next c) []) static with
      | (_, Raise e) => ([], Raise e)
      | (c1, Ok _) =>
          match draw_sequence c1 f with
          | (_, Raise e) => ([], Raise e)
          | (c2, Ok _) => let (shown, o) := draw_frames c2 r static in (c2 :: shown, o)
          end
      end
  end.
End Canvas.
Arguments canvas D : clear implicits.
