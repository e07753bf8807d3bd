(** Effective sample size from sample autocorrelations (no reference to the model). *)
From Coq Require Import List Arith QArith.
Import ListNotations.
From Verif Require Import Prelude.QBase.
Open Scope Q_scope.

(** Sum of g over 0 .. n-1. *)
Fixpoint sum_to (n : nat) (g : nat -> Q) : Q := match n with O => 0 | S k => sum_to k g + g k end.

Section Chain.
Variable n d : nat.
(** Coordinate j of sample i. *)
Variable x : nat -> nat -> Q.

Definition grand_mean : Q := sum_to n (fun i => sum_to d (x i)) / (Qnat n * Qnat d).
Definition spread : Q :=
  sum_to n (fun i => sum_to d (fun j => (x i j - grand_mean) * (x i j - grand_mean))) / (Qnat n - 1).
Definition variogram_at (t : nat) : Q :=
  sum_to (n - t) (fun i => sum_to d (fun j => (x (t + i)%nat j - x i j) * (x (t + i)%nat j - x i j))) / Qnat (n - t).
(** Autocorrelation of lag t. *)
Definition autocorr (t : nat) : Q := 1 - variogram_at t / (2 * spread).

(** Lags are used up to the first even lag t whose pair r(t-1) + r(t) is negative, that lag included, and all n-1 otherwise. *)
Definition negative_pair (t : nat) : Prop := Nat.even t = true /\ (0 < t)%nat /\ autocorr (t - 1) + autocorr t < 0.
Definition last_lag (T : nat) : Prop :=
  (T <= n - 1)%nat /\ (forall t, (t < T)%nat -> ~ negative_pair t) /\ (T = (n - 1)%nat \/ negative_pair T).
Definition lag_sum (T : nat) : Q := sum_to T (fun k => autocorr (S k)).
End Chain.
