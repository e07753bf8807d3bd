(** Model of ais_benchmarks/utils/misc.py (time formatting and random targets). *)
From Coq Require Import List Bool Arith ZArith QArith Qround.
Import ListNotations.
From Verif Require Import Prelude.Py Prelude.QBase Model.Base.
Open Scope Q_scope.

(** Python's float floor division [a // b] for b <> 0. *)
Definition floordiv (a b : Q) : Q := inject_Z (Qfloor (a / b)).

(** misc.py:73-77 time_to_hms. *)
Definition time_to_hms (total_time : Q) : Q * Q * Q :=
  let hours := floordiv total_time 3600 in
  let mins := floordiv (total_time - hours * 3600) 60 in
  let secs := total_time - hours * 3600 - mins * 60 in
  (hours, mins, secs).

(** numpy broadcasting of an elementwise operation on two 1-D arrays: equal lengths, or one of
    length one; otherwise ValueError. *)
Definition bcast (f : Q -> Q -> Q) (x y : vec) : res vec :=
  if (length x =? length y)%nat then Ok (map2 f x y)
  else match x, y with
       | [a], _ => Ok (map (f a) y)
       | _, [b] => Ok (map (fun a => f a b) x)
       | _, _ => Raise ValueError
       end.

(** np.random.uniform(low, high) on arrays: low + (high - low) * u, u the unit draws. *)
Definition uniform_arr (low high : vec) (u : nat -> Q) : res vec :=
  match bcast Qminus high low with
  | Raise e => Raise e
  | Ok rng => bcast Qplus low (map2 (fun r i => r * u i) rng (seq 0 (length rng)))
  end.

(** misc.py:45-46: one component, (mu, sigma). *)
Definition gmm_component (lo hi smin smax : vec) (us um : nat -> Q) : res (vec * vec) :=
  bind (uniform_arr smin smax us) (fun sigma =>
  bind (bcast Qplus lo (map (Qmult 5) sigma)) (fun a =>
  bind (bcast Qminus hi (map (Qmult 5) sigma)) (fun b =>
  bind (uniform_arr a b um) (fun mu => Ok (mu, sigma))))).

(** misc.py:44-48: all components, given the draws of each. *)
Fixpoint gmm_components (lo hi smin smax : vec) (draws : list ((nat -> Q) * (nat -> Q))) : res (list (vec * vec)) :=
  match draws with
  | [] => Ok []
  | (us, um) :: r =>
      bind (gmm_component lo hi smin smax us um) (fun c =>
      bind (gmm_components lo hi smin smax r) (fun cs => Ok (c :: cs)))
  end.

(** misc.py:56-57 np.min / np.max over axis 0 (ValueError on an empty array); all rows of a call
    have the same length. *)
Definition col_fold (f : Q -> Q -> Q) (rows : list vec) : res vec :=
  match rows with
  | [] => Raise ValueError
  | r :: rs => Ok (fold_left (map2 f) rs r)
  end.

(** What generateRandomGMM passes to CGaussianMixtureModel. *)
Record gmm_target := mkGmm {
  g_means : list vec; g_sigmas : list vec; g_weights : list Q; g_smin : vec; g_smax : vec }.

(** misc.py:40-60 generateRandomGMM; [raw] are the draws of line 50. Simplified: a zero sum of [raw]
    (all draws exactly 0, which gives NaN weights) is rejected here as ValueError although Python
    would carry NaN on; the theorems assume the sum is positive. The mixture's own normalisation of
    the weights is in Model/Mixture.v. *)
Definition generateRandomGMM (lo hi smin smax : vec) (draws : list ((nat -> Q) * (nat -> Q)))
           (raw : list Q) : res gmm_target :=
  bind (gmm_components lo hi smin smax draws) (fun cs =>
  bind (col_fold qmin (map (fun c => map2 (fun m s => m - 5 * s) (fst c) (snd c)) cs)) (fun mn =>
  bind (col_fold qmax (map (fun c => map2 (fun m s => m + 5 * s) (fst c) (snd c)) cs)) (fun mx =>
  if Qeq_bool (Qsum raw) 0 then Raise ValueError
  else Ok (mkGmm (map fst cs) (map snd cs) (map (fun w => w / Qsum raw) raw) mn mx)))).

(** misc.py:40: the default sigma_min and sigma_max. *)
Definition default_sigma_min : vec := [4#100; 4#100; 4#100].
Definition default_sigma_max : vec := [5#100; 5#100; 5#100].

(** misc.py:63-70 generateEggBoxGMM, scalar [delta] and [sigma]. *)
Definition generateEggBoxGMM (lo hi : vec) (delta sigma : Q) : res gmm_target :=
  match make_grid lo hi delta with
  | Raise e => Raise e
  | Ok (means, _, _) =>
      Ok (mkGmm means (map (map (fun _ => sigma)) means)
                (repeat (1 / Qnat (length means)) (length means))
                (map (fun l => l - 5 * sigma) lo) (map (fun h => h + 5 * sigma) hi))
  end.
