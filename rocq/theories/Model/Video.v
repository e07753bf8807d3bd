(** Model of ais_benchmarks/utils/video_writer.py. *)
From Coq Require Import List Bool Arith.
Import ListNotations.
From Verif Require Import Prelude.Py.

(** A colour: red, green, blue. *)
Definition rgb : Type := (nat * nat * nat)%type.

(** A figure as drawn on its canvas (video_writer.py:13-14): width, height in pixels, and the colour of the pixel in column x of row y, row 0
    on top. Simplified: the canvas has as many pixels as get_width_height says (no HiDPI scaling). *)
Record canvas := mkCanvas { cv_w : nat; cv_h : nat; cv_pixel : nat -> nat -> rgb }.

(** video_writer.py:15: canvas.tostring_rgb(), the bytes of the rows from top to bottom, three per pixel. *)
Definition rgb_bytes (c : rgb) : list nat := let '(r, g, b) := c in [r; g; b].
Definition tostring_rgb (c : canvas) : list nat :=
  flat_map (fun y => flat_map (fun x => rgb_bytes (cv_pixel c x y)) (seq 0 (cv_w c))) (seq 0 (cv_h c)).

(** A numpy array of bytes of shape (f_rows, f_cols, 3), stored row by row. *)
Record frame := mkFrame { f_rows : nat; f_cols : nat; f_bytes : list nat }.
(** numpy indexing: entry [y, x, k] of such an array. *)
Definition f_at (f : frame) (y x k : nat) : nat := nth ((y * f_cols f + x) * 3 + k) (f_bytes f) 0.

(** video_writer.py:7-10: the object. *)
Record writer := mkWriter { vw_frames : list frame }.
Definition vw_new : writer := mkWriter [].

(** video_writer.py:12-17 add_frame: assigning a shape of another size raises ValueError. *)
Definition add_frame (c : canvas) (v : writer) : res writer :=
  let bytes := tostring_rgb c in
  if length bytes =? cv_h c * cv_w c * 3 then Ok (mkWriter (vw_frames v ++ [mkFrame (cv_h c) (cv_w c) bytes]))
  else Raise ValueError.

(** video_writer.py:28: cv2.cvtColor(frame, COLOR_RGB2BGR) exchanges the first and the third byte of each pixel. *)
Fixpoint swap_channels (l : list nat) : list nat :=
  match l with
  | r :: g :: b :: t => b :: g :: r :: swap_channels t
  | _ => l
  end.
Definition to_bgr (f : frame) : frame := mkFrame (f_rows f) (f_cols f) (swap_channels (f_bytes f)).

(** The file made by cv2.VideoWriter(filename, fourcc, fps, (width, height)) (video_writer.py:25, 29): cv2 takes arrays of height rows and width
    columns with bytes blue, green, red, and silently leaves out arrays of another size. *)
Record video := mkVideo { vd_w : nat; vd_h : nat; vd_frames : list frame }.
Definition video_write (v : video) (f : frame) : video :=
  if (f_rows f =? vd_h v) && (f_cols f =? vd_w v) then mkVideo (vd_w v) (vd_h v) (vd_frames v ++ [f]) else v.
(** What a player shows: the colour in column x of row y of a frame. *)
Definition played (f : frame) (x y : nat) : rgb := (f_at f y x 2, f_at f y x 1, f_at f y x 0).

(** Python's l[-1]. *)
Definition last_frame (l : list frame) : res frame := match rev l with [] => Raise IndexError | f :: _ => Ok f end.

(** video_writer.py:19-35 save: [w, h, d = frame.shape] names the number of rows w and the number of columns h; the size given is (h, w). *)
Definition save (v : writer) : res video :=
  match last_frame (vw_frames v) with
  | Raise e => Raise e
  | Ok f => let w := f_rows f in let h := f_cols f in Ok (fold_left video_write (map to_bgr (vw_frames v)) (mkVideo h w []))
  end.

(** A picture of PIL: width, height and bytes, row by row. *)
Record image := mkImage { im_w : nat; im_h : nat; im_bytes : list nat }.
Definition im_at (i : image) (x y : nat) : rgb :=
  let k := (y * im_w i + x) * 3 in (nth k (im_bytes i) 0, nth (k + 1) (im_bytes i) 0, nth (k + 2) (im_bytes i) 0).

(** video_writer.py:37-40 show: Image.frombytes("RGB", (w, h), bytes) with w the number of rows and h the number of columns; PIL takes the
    first number as the width. *)
Definition show (v : writer) : res image :=
  match last_frame (vw_frames v) with
  | Raise e => Raise e
  | Ok f => let w := f_rows f in let h := f_cols f in Ok (mkImage w h (f_bytes f))
  end.

(** A recording: the figures passed to add_frame, in order. *)
Fixpoint record_all (cs : list canvas) (v : writer) : res writer :=
  match cs with
  | [] => Ok v
  | c :: r => match add_frame c v with Ok v' => record_all r v' | Raise e => Raise e end
  end.
