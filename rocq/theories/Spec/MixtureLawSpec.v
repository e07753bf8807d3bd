(** Draws of a mixture as a probability law (no reference to the model). *)
From Coq Require Import List Bool Arith QArith.
Import ListNotations.
From Verif Require Import Prelude.QBase Spec.UnbiasedSpec Spec.WalkSpec Spec.TreeSpec.
Open Scope Q_scope.

(** Probabilities of finitely many components. *)
Definition prob_vec (ws : list Q) : Prop := Forall (fun w => 0 <= w) ws /\ Qsum ws == 1.
(** A law of numbers in [0, 1) that decides, like a uniform draw, the share of each component among those not passed over yet. *)
Definition fair_choice (ul : list (Q * Q)) (ws : list Q) : Prop :=
  is_law ul /\ (forall wu, In wu ul -> 0 <= snd wu < 1) /\
  forall j, (j < length ws)%nat -> fair ul (nth j ws 0 / Qsum (skipn j ws)).
(** Independent draws of several laws. *)
Fixpoint joint {X : Type} (laws : list (list (Q * X))) : list (Q * list X) :=
  match laws with
  | [] => [(1, [])]
  | l :: r => flat_map (fun a => map (fun b => (fst a * fst b, snd a :: snd b)) (joint r)) l
  end.
(** The law of the mixture: a component is chosen with its weight, then drawn from. *)
Definition mixture_law {X : Type} (ws : list Q) (laws : list (list (Q * X))) : list (Q * X) :=
  concat (map2 (fun w l => map (fun mx => (w * fst mx, snd mx)) l) ws laws).
(** The points of a law moved by a function. *)
Definition moved {X Y : Type} (g : X -> Y) (l : list (Q * X)) : list (Q * Y) := map (fun mx => (fst mx, g (snd mx))) l.
(** Density of the mixture of densities. *)
Definition mix_density {X : Type} (ws : list Q) (ds : list (X -> Q)) (x : X) : Q := Qsum (map2 (fun w d => w * d x) ws ds).
(** A value of the list chosen with probability proportional to its weight. *)
Definition chosen {X : Type} (wxs : list (Q * X)) : list (Q * X) :=
  map (fun wx => (fst wx / Qsum (map fst wxs), snd wx)) wxs.
(** Number of points in the interior of a cell. *)
Definition inside_cell (c : cell) (x : list Q) : bool :=
  (length x =? length (fst c))%nat &&
  forallb (fun j => Qltb (nth j (fst c) 0 - snd c) (nth j x 0) && Qltb (nth j x 0) (nth j (fst c) 0 + snd c)) (seq 0 (length (fst c))).
Definition count_inside (c : cell) (xs : list (list Q)) : Q := Qsum (map (fun x => if inside_cell c x then 1 else 0) xs).
(** A law of points of the open unit cube. *)
Definition unit_law (d : nat) (dl : list (Q * list Q)) : Prop :=
  is_law dl /\ forall wu, In wu dl -> length (snd wu) = d /\ Forall (fun a => 0 < a < 1) (snd wu).
