(** Expected values over independent draws from finite laws, and weighted totals (no reference to the model). *)
From Coq Require Import List Bool QArith Qabs.
Import ListNotations.
From Verif Require Import Prelude.Py Prelude.QBase.
Open Scope Q_scope.

(** Expected value of [f] at one independent draw from each law; a law lists masses and points. *)
Fixpoint expect_each {X : Type} (laws : list (list (Q * X))) (f : list X -> Q) : Q :=
  match laws with
  | [] => f []
  | l :: r => Qsum (map (fun mx => fst mx * expect_each r (fun xs => f (snd mx :: xs))) l)
  end.

(** Weighted total of [f]: sum over the samples of weight times value; meant for finite weights. *)
Fixpoint weighted_total {X : Type} (f : X -> Q) (xs : list X) (ws : list (fl Q)) : Q :=
  match xs, ws with
  | x :: r, Fin w :: t => w * f x + weighted_total f r t
  | _ :: r, _ :: t => weighted_total f r t
  | _, _ => 0
  end.
Definition all_finite (ws : list (fl Q)) : Prop := Forall (fun w => exists a, w = Fin a) ws.

(** Integral over the cells of volume v around the points. *)
Definition integral {X : Type} (v : Q) (pts : list X) (g : X -> Q) : Q := Qsum (map (fun x => g x * v) pts).
(** The law of a density on these cells. *)
Definition cell_law {X : Type} (v : Q) (pts : list X) (d : X -> Q) : list (Q * X) := map (fun x => (d x * v, x)) pts.
(** n independent draws of every density. *)
Definition each_times {X : Type} (n : nat) (laws : list (list (Q * X))) : list (list (Q * X)) :=
  flat_map (fun l => repeat l n) laws.
(** 1 when the weighted total of f is not within eps of m, or is undefined because a weight is not finite; 0 otherwise. Its
    expected value is the chance of a miss. *)
Definition missed {X : Type} (f : X -> Q) (m eps : Q) (xs : list X) (ws : list (fl Q)) : Q :=
  if forallb (fun w => match w with Fin _ => true | _ => false end) ws && Qle_bool (Qabs (weighted_total f xs ws - m)) eps then 0 else 1.
