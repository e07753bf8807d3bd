(** Independent description of rejection sampling (no reference to the model). *)
From Coq Require Import List Bool QArith.
Import ListNotations.
Open Scope Q_scope.

Section Spec.
Variable X : Type.
Variable target : X -> Q.       (* target density *)
Variable envelope : X -> Q.     (* scaling * proposal density *)

(** The textbook rule: keep x when u * envelope(x) < target(x). *)
Definition keeps (x : X) (u : Q) : Prop := u * envelope x < target x.
Definition keepsb (x : X) (u : Q) : bool := negb (Qle_bool (target x) (u * envelope x)).

(** A round offers a stream of (point, uniform) pairs; only the first k are drawn. *)
Definition offers (draw : nat -> X) (u : nat -> Q) (k : nat) : list (X * Q) :=
  map (fun i => (draw i, u i)) (seq 0 k).
Definition kept (draw : nat -> X) (u : nat -> Q) (k : nat) : list X :=
  map fst (filter (fun xu => keepsb (fst xu) (snd xu)) (offers draw u k)).

(** What must be held after a sequence of rounds, when n samples are requested: in each round
    exactly the missing number of points is drawn and the kept ones are appended in order. *)
Fixpoint held_after (n : nat) (held : list X) (rounds : list ((nat -> X) * (nat -> Q))) : list X :=
  match rounds with
  | [] => held
  | (draw, u) :: rs => held_after n (held ++ kept draw u (n - length held)) rs
  end.

(** The number of rounds a request for n samples takes: a round starts while samples are missing and the clock
    (read at the start and at the end of every round) is below the limit. *)
Fixpoint rounds_taken (n : nat) (limit clock : Q) (held : list X) (rounds : list ((nat -> X) * (nat -> Q) * Q)) : nat :=
  match rounds with
  | [] => 0
  | (draw, u, clock') :: rs =>
      if Qle_bool limit clock then 0
      else if (n <=? length held)%nat then 0
      else S (rounds_taken n limit clock' (held ++ kept draw u (n - length held)) rs)
  end.
End Spec.
Arguments keeps {X}.
Arguments keepsb {X}.
Arguments offers {X}.
Arguments kept {X}.
Arguments held_after {X}.
Arguments rounds_taken {X}.
