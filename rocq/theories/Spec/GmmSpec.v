(** Independent description of mixtures of Gaussians with independent coordinates. *)
From Coq Require Import List QArith Reals Qreals.
Import ListNotations.
From Verif Require Import Spec.NormalSpec Spec.IntegralSpec.
Open Scope R_scope.

(** Product of one-dimensional Gaussian densities: means, variances, point. *)
Fixpoint gauss_product (m v x : list R) : R :=
  match m, v, x with
  | a :: m', s :: v', y :: x' => gauss1 a s y * gauss_product m' v' x'
  | _, _, _ => 1
  end.

(** Their weighted sum. *)
Fixpoint gauss_mixture (ws : list R) (means vars : list (list R)) (x : list R) : R :=
  match ws, means, vars with
  | w :: ws', m :: ms, v :: vs => w * gauss_product m v x + gauss_mixture ws' ms vs x
  | _, _, _ => 0
  end.

(** Integrating the coordinates one after the other, first coordinate first, gives [l]. *)
Fixpoint integrates_all (d : nat) (f : list R -> R) (l : R) : Prop :=
  match d with
  | O => f [] = l
  | S k => exists g, (forall xs, length xs = k -> integrates_to (fun x => f (x :: xs)) (g xs)) /\ integrates_all k g l
  end.

(** Determinant and inverse are right on d x d diagonal matrices with positive entries. *)
Definition right_on_diagonals (d : nat) (det : (nat -> nat -> R) -> R)
    (inv : (nat -> nat -> R) -> nat -> nat -> R) : Prop :=
  forall sg c, (forall i, (i < d)%nat -> 0 < sg i) ->
    (forall i j, (i < d)%nat -> (j < d)%nat -> c i j = if Nat.eq_dec j i then sg i else 0) ->
    det c = product d sg /\
    (forall i j, (i < d)%nat -> (j < d)%nat -> inv c i j = if Nat.eq_dec j i then / sg i else 0).

(** Rows of d positive variances. *)
Definition variances (d : nat) (v : list R) : Prop := length v = d /\ Forall (fun s => 0 < s) v.
