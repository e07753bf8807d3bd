(** Parameters of the sampling methods, as a user reads them from the documentation (no reference to the constructors). *)
From Coq Require Import String.
From Coq Require Import List.
Import ListNotations.
Open Scope string_scope.

Inductive method := SRejection | SMetropolis | SNested | SMultiNested | SDmAis | SLayeredAis | SMpmc | STreePyramid | SHiDaisee.

Definition box_keys : list string := ["space_min"; "space_max"; "dims"].
(** What an object of the method cannot be built without. Metropolis-Hastings needs one of proposal_d and proposal_sigma besides. *)
Definition needed (m : method) : list string :=
  (box_keys ++
  match m with
  | SRejection => ["n_samples_kde"; "kde_bw"; "proposal"; "scaling"]
  | SMetropolis => ["n_samples_kde"; "kde_bw"; "n_steps"; "n_burnin"]
  | SNested => ["n_samples_kde"; "kde_bw"; "proposal"; "N"]
  | SMultiNested => ["n_samples_kde"; "kde_bw"; "proposal"; "N"; "converged_radius"; "inflate_factor"]
  | SDmAis | SMpmc => ["K"; "N"; "J"; "sigma"]
  | SLayeredAis => ["K"; "N"; "J"; "L"; "sigma"; "mh_sigma"]
  | STreePyramid => ["method"; "ess_target"; "n_min"; "resampling"; "kernel"; "parallel_samples"]
  | SHiDaisee => ["tau"; "n_min"; "target_ess"]
  end)%list.
(** What the documentation of the constructor lists: metropolis_hastings.py:27-37, multi_nested.py:74-78, dm_ais.py:15-20,
    layered_ais.py:15-23, m_pmc.py:17-23, tree_pyramid.py:274-302, hi_daisee.py:164-170. The other two have no documentation. *)
Definition documented (m : method) : option (list string) :=
  match m with
  | SRejection | SNested => None
  | SMetropolis => Some (box_keys ++ ["n_steps"; "n_burnin"; "proposal_d"; "proposal_sigma"])%list
  | SMultiNested => Some (box_keys ++ ["N"; "converged_radius"])%list
  | SDmAis => Some (box_keys ++ ["K"; "N"; "J"])%list
  | SLayeredAis => Some (box_keys ++ ["K"; "N"; "J"; "L"; "sigma"; "mh_sigma"])%list
  | SMpmc => Some (box_keys ++ ["K"; "N"; "J"; "sigma"])%list
  | STreePyramid => Some ["space_min"; "space_max"; "ess_target"; "n_min"; "parallel_samples"; "method"; "resampling"; "kernel"]
  | SHiDaisee => Some ["space_min"; "space_max"; "debug"; "target_ess"; "tau"; "n_min"]
  end.
