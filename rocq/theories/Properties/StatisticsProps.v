(** Property C21 (expected value error metric). *)
From Coq Require Import List Arith QArith.
Import ListNotations.
From Verif Require Import Prelude.Py Prelude.QBase Model.Statistics Spec.MeanSpec Spec.FloatSpec Proofs.StatisticsProofs.
Open Scope Q_scope.

(** C21. The metric is the squared distance of the two weighted means; it is zero exactly when they
    coincide. *)
Theorem C21_evmse_value :
  forall d samples p q, 0 < Qsum p -> 0 < Qsum q ->
  exists v, evmse d samples p q = Fin v /\ 0 <= v /\
    v == sq_distance d (fun j => weighted_mean j samples p) (fun j => weighted_mean j samples q) /\
    (v == 0 <-> forall j, (j < d)%nat -> weighted_mean j samples p == weighted_mean j samples q).
Proof. exact evmse_metric. Qed.
Print Assumptions C21_evmse_value.

(** C21. Zero for proportional densities. *)
Theorem C21_evmse_proportional :
  forall d samples q c, 0 < c -> 0 < Qsum q ->
  exists v, evmse d samples (map (Qmult c) q) q = Fin v /\ v == 0.
Proof. exact evmse_proportional. Qed.
Print Assumptions C21_evmse_proportional.

(** C21. Rescaling either density changes nothing. *)
Theorem C21_evmse_scale :
  forall d samples p q c c', 0 < Qsum p -> 0 < Qsum q -> 0 < c -> 0 < c' ->
  feqQ (evmse d samples (map (Qmult c) p) (map (Qmult c') q)) (evmse d samples p q).
Proof. exact evmse_scale. Qed.
Print Assumptions C21_evmse_scale.

(** C21. Symmetry, for all density values (also when a sum is zero and the result is NaN). *)
Theorem C21_evmse_symmetric :
  forall d samples p q, feqQ (evmse d samples p q) (evmse d samples q p).
Proof. exact evmse_sym. Qed.
Print Assumptions C21_evmse_symmetric.

Example C21_evmse_example : 0 < Qsum [1; 3] /\ 0 < Qsum [2; 2] /\
  exists v, evmse 2 [[0; 1]; [4; 1]] [1; 3] [2; 2] = Fin v /\ v == 1.
Proof. exact evmse_example. Qed.
