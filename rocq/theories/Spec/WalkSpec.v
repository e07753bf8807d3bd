(** Random walks between finitely many points (no reference to the samplers). *)
From Coq Require Import List Bool Arith QArith.
Import ListNotations.
From Verif Require Import Prelude.QBase Spec.Box Spec.ChainSpec Spec.UnbiasedSpec.
Open Scope Q_scope.

(** The two lists are the same point. *)
Fixpoint same_point (x y : vec) : bool :=
  match x, y with
  | [], [] => true
  | a :: x', b :: y' => Qeq_bool a b && same_point x' y'
  | _, _ => false
  end.
(** The point is the i-th of the points. *)
Definition at_point (pts : list vec) (i : nat) (x : vec) : bool := same_point x (nth i pts []).
Definition in_points (pts : list vec) (x : vec) : Prop := exists j, (j < length pts)%nat /\ at_point pts j x = true.
(** No point is listed twice. *)
Definition distinct_points (pts : list vec) : Prop :=
  forall i j, (i < length pts)%nat -> (j < length pts)%nat -> same_point (nth i pts []) (nth j pts []) = true -> i = j.
(** Probability that x displaced by the law dl is y. *)
Definition displaced (dl : list (Q * vec)) (x y : vec) : Q :=
  Qsum (map (fun wd => if same_point (vadd x (snd wd)) y then fst wd else 0) dl).
(** Displacements from one point to another are as likely as back. *)
Definition symmetric (dl : list (Q * vec)) (pts : list vec) : Prop :=
  forall i j, (i < length pts)%nat -> (j < length pts)%nat ->
  displaced dl (nth i pts []) (nth j pts []) == displaced dl (nth j pts []) (nth i pts []).
(** Probability that a draw of the law ul is below r; the law decides ratios like a uniform draw of [0, 1). *)
Definition below (ul : list (Q * Q)) (r : Q) : Q := Qsum (map (fun wu => if Qltb (snd wu) r then fst wu else 0) ul).
Definition fair (ul : list (Q * Q)) (r : Q) : Prop := below ul r == if Qle_bool 1 r then 1 else r.
(** A law: non-negative masses with total one. *)
Definition is_law {X : Type} (l : list (Q * X)) : Prop := Qsum (map fst l) == 1 /\ forall wx, In wx l -> 0 <= fst wx.
(** Independent draws of two laws. *)
Definition pair_law {X Y : Type} (l : list (Q * X)) (m : list (Q * Y)) : list (Q * (X * Y)) :=
  flat_map (fun a => map (fun b => (fst a * fst b, (snd a, snd b))) m) l.
(** A random walk that moves from x to x displaced by dl when a draw of ul is below the ratio of the target there and here. It
    stays away from the border of the box: no displacement from the points leaves the box, and those that leave the points
    lead where the target vanishes. Displacements are symmetric and ratios decided like by uniform draws. *)
Definition open_walk (lo hi : vec) (pi : vec -> Q) (dl : list (Q * vec)) (ul : list (Q * Q)) (pts : list vec) : Prop :=
  is_law dl /\ is_law ul /\ (forall wu, In wu ul -> 0 <= snd wu) /\ (forall x y, same_point x y = true -> pi x == pi y) /\
  pts <> [] /\ distinct_points pts /\ (forall i, (i < length pts)%nat -> 0 < pi (nth i pts [])) /\
  (forall i wd, (i < length pts)%nat -> In wd dl -> let y := vadd (nth i pts []) (snd wd) in in_box lo hi y /\ (in_points pts y \/ pi y == 0)) /\
  symmetric dl pts /\ (forall i j, (i < length pts)%nat -> (j < length pts)%nat -> fair ul (pi (nth j pts []) / pi (nth i pts []))).
(** Share of the i-th point under the target. *)
Definition point_share (pi : vec -> Q) (pts : list vec) : nat -> Q := share (length pts) (fun i => pi (nth i pts [])).
