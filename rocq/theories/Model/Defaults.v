(** The rejection method of the shipped methods file ais_benchmarks/benchmark/def_methods.yaml, as the benchmark builds it for a target. *)
From Coq Require Import List QArith.
Import ListNotations.
From Verif Require Import Prelude.Py Prelude.QBase Model.Shape Model.Uniform Model.Rejection.
Open Scope Q_scope.

(** def_methods.yaml:18 (the text is evaluated at CBenchmark.py:77 and rejection.py:13): the uniform distribution with the centre
    np.zeros(self.ndims) and the radius (self.space_max - self.space_min) / 2; [lo], [hi] are the support of the target (C84), whose
    number of entries is ndims. *)
Definition shipped_proposal (lo hi : vec) : res uniform :=
  uniform_new (map (fun _ => 0) lo) (map2 (fun h l => (h - l) / 2) hi lo).

(** The density of the proposal at one row, proposal_dist.prob (rejection.py:26). Simplified: a query that raises or an infinite density (a box
    without volume) is 0. *)
Definition row_density (d : uniform) (x : vec) : Q :=
  match uniform_prob d (Arr1 x) with Ok [Fin p] => p | _ => 0 end.

(** def_methods.yaml:14-21: scaling 1, n_samples_kde 100. *)
Definition shipped_rejection (d : uniform) : rej_params := mkRej (row_density d) 1 100.
