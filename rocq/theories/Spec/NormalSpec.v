(** Independent description of Gaussian densities (no reference to the model). *)
From Coq Require Import List Reals.
Import ListNotations.
Open Scope R_scope.

Section Dim.
Variable d : nat.

(** Sum over the coordinates. *)
Definition over (f : nat -> R) : R := fold_right Rplus 0 (map f (seq 0 d)).

(** Matrix times vector, scalar product. *)
Definition apply (m : nat -> nat -> R) (v : nat -> R) : nat -> R := fun i => over (fun j => m i j * v j).
Definition dot (u v : nat -> R) : R := over (fun i => u i * v i).

(** Positive (semi-)definite, not necessarily symmetric. *)
Definition psd (m : nat -> nat -> R) : Prop := forall v, 0 <= dot v (apply m v).

(** [b] is a right inverse of [a]. *)
Definition inverse_of (b a : nat -> nat -> R) : Prop := forall v i, (i < d)%nat -> apply a (apply b v) i = v i.

(** The textbook log density with mean m, determinant D of the covariance and precision P. *)
Definition gauss_log (m : nat -> R) (D : R) (P : nat -> nat -> R) (x : nat -> R) : R :=
  - (INR d / 2) * ln (2 * PI) - / 2 * ln D
  - / 2 * dot (fun i => x i - m i) (apply P (fun i => x i - m i)).
End Dim.

(** The one-dimensional density with mean m and variance s. *)
Definition gauss1 (m s x : R) : R := / sqrt (2 * PI * s) * exp (- ((x - m) * (x - m) / (2 * s))).

(** Product over the coordinates. *)
Definition product (d : nat) (f : nat -> R) : R := fold_right Rmult 1 (map f (seq 0 d)).

(** The last request that was not refused, the initial one if none. *)
Fixpoint last_accepted {A : Type} (ok : A -> Prop) (l : list A) (init : A) (r : A) : Prop :=
  match l with
  | [] => r = init
  | a :: l' => (ok a /\ last_accepted ok l' a r) \/ (~ ok a /\ last_accepted ok l' init r)
  end.
