(** Model of the positions that draw_axis computes (visualization/matplotlib/viz_interface.py) and of the default ticks of CAxis
    (visualization/visuals.py), over R. *)
From Coq Require Import List Reals.
Import ListNotations.
From Verif Require Import Prelude.RBase.
Open Scope R_scope.

(** A numpy array (x, y, z), and the two coordinates that are drawn. *)
Record v3 : Type := mkV { vx : R; vy : R; vz : R }.
Definition vsub3 (a b : v3) : v3 := mkV (vx a - vx b) (vy a - vy b) (vz a - vz b).
Definition vadd3 (a b : v3) : v3 := mkV (vx a + vx b) (vy a + vy b) (vz a + vz b).
Definition vmul3 (t : R) (a : v3) : v3 := mkV (t * vx a) (t * vy a) (t * vz a).
(** np.linalg.norm. *)
Definition norm3 (a : v3) : R := sqrt (vx a * vx a + vy a * vy a + vz a * vz a).
Definition flat (a : v3) : R * R := (vx a, vy a).

(** visuals.py:26-34, 18: an axis; its position attribute and its ends. *)
Record axis : Type := mkAxis { ax_pos : v3; ax_start : v3; ax_end : v3 }.

(** viz_interface.py:15-20: the ends of the axis line. *)
Definition axis_line (a : axis) : (R * R) * (R * R) :=
  ((vx (ax_pos a) + vx (ax_start a), vy (ax_pos a) + vy (ax_start a)), (vx (ax_pos a) + vx (ax_end a), vy (ax_pos a) + vy (ax_end a))).

(** viz_interface.py:26-27. *)
Definition direction (a : axis) : v3 := let d := vsub3 (ax_end a) (ax_start a) in vmul3 (/ norm3 d) d.
Definition normal (a : axis) : v3 := let d := direction a in mkV (- vy d) (vx d) (vz d).

(** viz_interface.py:30-34: the ends of the tick at value t with size z. *)
Definition tick_line (a : axis) (t z : R) : (R * R) * (R * R) :=
  (flat (vadd3 (vsub3 (vmul3 t (direction a)) (vmul3 z (normal a))) (ax_start a)),
   flat (vadd3 (vadd3 (vmul3 t (direction a)) (vmul3 z (normal a))) (ax_start a))).

(** viz_interface.py:39-44: the position of its label. *)
Definition label_at (a : axis) (t z : R) : R * R :=
  let p := vmul3 t (direction a) in
  if Rltb (vy p) (vx p)
  then flat (vadd3 (vsub3 p (vmul3 (4 * z) (normal a))) (ax_start a))
  else flat (vadd3 (vadd3 p (vmul3 (4 * z) (normal a))) (ax_start a)).

(** visuals.py:37-39: the default ticks np.linspace(0, norm, num=10, endpoint=True) and their size. *)
Definition default_ticks (a : axis) : list R :=
  map (fun k => INR k * (norm3 (vsub3 (ax_end a) (ax_start a)) / 9)) (seq 0 10).
Definition default_size (a : axis) : R := norm3 (vsub3 (ax_end a) (ax_start a)) * (1 / 100).
