(** Mixture population Monte Carlo (Cappe et al., equations 7 and 14), independent of the sampler. *)
From Coq Require Import List Bool Arith QArith.
Import ListNotations.
Open Scope Q_scope.

Definition sum_of (l : list Q) : Q := fold_right Qplus 0 l.
(** Mixture density for component weights and component densities at a point. *)
Fixpoint mixture_at (alpha dens : list Q) : Q :=
  match alpha, dens with a :: al, d :: de => a * d + mixture_at al de | _, _ => 0 end.
(** Component posterior probabilities of a point. *)
Definition posteriors (alpha dens post : list Q) : Prop :=
  length post = length alpha /\
  forall d a q p, nth_error alpha d = Some a -> nth_error dens d = Some q -> nth_error post d = Some p ->
    p * mixture_at alpha dens == a * q.

(** Weighted mean of the c-th coordinate. *)
Definition weighted_sum (om : list Q) (v : list Q) : Q := fold_right Qplus 0 (map (fun p => fst p * snd p) (combine om v)).
Definition coord (c : nat) (xs : list (list Q)) : list Q := map (fun x => nth c x 0) xs.
Definition is_weighted_mean (om : list Q) (xs : list (list Q)) (c : nat) (m : Q) : Prop :=
  m * sum_of om == weighted_sum om (coord c xs).
(** Deviation products of coordinates i and j around m. *)
Definition deviations (xs : list (list Q)) (m : list Q) (i j : nat) : list Q :=
  map (fun x => (nth i x 0 - nth i m 0) * (nth j x 0 - nth j m 0)) xs.
(** Entry i j of the weighted covariance around m (equation 14.3). *)
Definition is_weighted_cov (om : list Q) (xs : list (list Q)) (m : list Q) (i j : nat) (v : Q) : Prop :=
  v * sum_of om == weighted_sum om (deviations xs m i j).
(** Entry i j of the raw scatter. *)
Definition is_scatter (xs : list (list Q)) (m : list Q) (i j : nat) (v : Q) : Prop := v == sum_of (deviations xs m i j).

Definition entry (m : list (list Q)) (i j : nat) : Q := nth j (nth i m []) 0.
(** Each coordinate of m is between two values occurring in the batch. *)
Definition in_hull (n : nat) (xs : list (list Q)) (m : list Q) : Prop :=
  length m = n /\ forall c, (c < n)%nat ->
    (exists x, In x xs /\ nth c x 0 <= nth c m 0) /\ (exists y, In y xs /\ nth c m 0 <= nth c y 0).
