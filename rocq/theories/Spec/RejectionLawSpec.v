(** Independent offers and the samples taken from them (no reference to the model). *)
From Coq Require Import List Bool QArith.
Import ListNotations.
From Verif Require Import Spec.RejectionSpec.
Open Scope Q_scope.

Section Law.
Variable X : Type.

(** Offers of a finite proposal: [om] lists masses and points, an offered point x is accepted with probability [acc x].
    Expected value of [f] over [n] independent offers. *)
Fixpoint expect (om : list (Q * X)) (acc : X -> Q) (n : nat) (f : list (X * bool) -> Q) : Q :=
  match n with
  | O => f []
  | S m => fold_right (fun mx s => fst mx * (acc (snd mx) * expect om acc m (fun l => f ((snd mx, true) :: l)) +
                                             (1 - acc (snd mx)) * expect om acc m (fun l => f ((snd mx, false) :: l))) + s) 0 om
  end.

(** The points accepted, in order. *)
Definition accepted (l : list (X * bool)) : list X := map fst (filter snd l).
(** 1 when the first points accepted fall, one after the other, into the sets given, and 0 otherwise (also when there are
    fewer accepted points than sets). *)
Fixpoint falls_into (sets : list (X -> bool)) (xs : list X) : Q :=
  match sets, xs with
  | [], _ => 1
  | B :: r, x :: l => if B x then falls_into r l else 0
  | _ :: _, [] => 0
  end.
(** All offers (point and unit number) of the rounds of a request for n samples, in order: each round offers as many points as
    are missing. *)
Fixpoint offered (target envelope : X -> Q) (n : nat) (held : list X) (rounds : list ((nat -> X) * (nat -> Q))) : list (X * Q) :=
  match rounds with
  | [] => []
  | (draw, u) :: rs => offers draw u (n - length held) ++ offered target envelope n (held ++ kept target envelope draw u (n - length held)) rs
  end.
(** Sum of [f] over the points of a set. *)
Definition mass_in (pts : list (Q * X)) (f : X -> Q) (B : X -> bool) : Q :=
  fold_right (fun mx s => (if B (snd mx) then f (snd mx) else 0) + s) 0 pts.
Definition product (l : list Q) : Q := fold_right Qmult 1 l.
End Law.
Arguments expect {X}.
Arguments accepted {X}.
Arguments falls_into {X}.
Arguments mass_in {X}.
Arguments offered {X}.
