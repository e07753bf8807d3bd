(** Model of CKernel, ais_benchmarks/distributions/distributions.py:310-349. *)
From Coq Require Import Reals Bool.
From Verif Require Import Prelude.Py Prelude.RBase.
Open Scope R_scope.

(** distributions.py:333, 340, 347: the mask [u < -1 or u > 1]. *)
Definition outside1 (u : R) : bool := Rltb u (-1) || Rltb 1 u.

(** distributions.py:330-335 kernel_uniform. *)
Definition kernel_uniform (u : R) : R := if outside1 u then 0 else 1 / 2.
(** distributions.py:337-342 kernel_triangular. *)
Definition kernel_triangular (u : R) : R := if outside1 u then 0 else 1 - Rabs u.
(** distributions.py:344-349 kernel_epanechnikov. *)
Definition kernel_epanechnikov (u : R) : R := if outside1 u then 0 else 3 / 4 * (1 - u * u).

(** distributions.py:326-328 kernel_normal: the constant is the decimal literal of the source. *)
Definition kernel_normal (u : R) : R := 3989422804 / 10000000000 * Rpower (exp 1) (- (1 / 2) * u * u).

(** distributions.py:323-324 __call__ (and prob, 320-321) for one number. *)
Definition kernel_call (k : R -> R) (loc bw x : R) : R := k ((x - loc) * bw) * bw.
(** distributions.py:317-318 log_prob. *)
Definition kernel_log_prob (k : R -> R) (loc bw x : R) : fl R := fln (Fin (kernel_call k loc bw x)).
