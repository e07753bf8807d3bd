(** Independent notions about weight vectors (no reference to the model). *)
From Coq Require Import List QArith.
Import ListNotations.
From Verif Require Import Prelude.Py.
Open Scope Q_scope.

(** A weight that can be used: a finite, strictly positive number. *)
Definition usable (w : fl Q) : Prop := exists a, w = Fin a /\ 0 < a.

Definition total (l : list Q) : Q := fold_right Qplus 0 l.

(** Non-negative and summing to one. *)
Definition is_normalised (ws : list Q) : Prop := Forall (fun w => 0 <= w) ws /\ total ws == 1.

(** [out] has the ratios of the usable entries of [input] and is zero at the others. *)
Definition keeps_ratios (input : list (fl Q)) (out : list Q) : Prop :=
  length out = length input /\
  (forall i w x, nth_error input i = Some w -> nth_error out i = Some x -> (0 < x <-> usable w)) /\
  (forall i j a b x y,
     nth_error input i = Some (Fin a) -> 0 < a -> nth_error out i = Some x ->
     nth_error input j = Some (Fin b) -> 0 < b -> nth_error out j = Some y -> x * b == y * a).

(** Every entry equal to 1/n. *)
Definition equal_weights (ws : list Q) : Prop :=
  Forall (fun w => w * inject_Z (Z.of_nat (length ws)) == 1) ws.

(** Multiplying a float weight by a positive number. *)
Definition scale_weight (c : Q) (w : fl Q) : fl Q := match w with Fin a => Fin (c * a) | x => x end.

(** Probability that the first success is at position i, for independent trials with success
    probabilities [ps], when the last trial always succeeds. *)
Fixpoint first_success (ps : list Q) (i : nat) : Q :=
  match ps, i with
  | [], _ => 0
  | [_], O => 1
  | [_], S _ => 0
  | p :: _, O => p
  | p :: r, S j => (1 - p) * first_success r j
  end.

(** The first trial whose uniform draw falls below its success probability; the last one if none. *)
Fixpoint first_hit (ps : list Q) (u : nat -> Q) (j : nat) : nat :=
  match ps with
  | [] => j
  | [_] => j
  | p :: r => if Qlt_le_dec (u j) p then j else first_hit r u (S j)
  end.
