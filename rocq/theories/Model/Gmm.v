(** Model of ais_benchmarks/distributions/mixture/CGaussianMixtureModel.py. *)
From Coq Require Import List Bool Arith QArith Reals.
Import ListNotations.
From Verif Require Import Prelude.Py Model.Normal Model.Mixture.
Open Scope R_scope.

(** A row of numbers as a vector, and np.diag of a row (CGaussianMixtureModel.py:30). *)
Definition vec_of (l : list R) : rvec := fun i => nth i l 0.
Definition diag_of (l : list R) : rmat := fun i j => if Nat.eq_dec j i then nth i l 0 else 0.

(** The object: dims, the models and the stored weights of self.gmm. *)
Record gmm := mkGmm { g_dims : nat; g_models : list normal; g_weights : list (fl Q) }.

Section Gmm.
(** np.linalg.det and np.linalg.inv, as in Model/Normal.v. *)
Variable det : rmat -> R.
Variable inv : rmat -> rmat.

(** CGaussianMixtureModel.py:30: one component. With rows of different lengths either the default
    support (CMultivariateNormal.py:39-40) does not broadcast, or the assertion at line 53 there fails. *)
Definition gmm_component (mean cov : list R) : res normal :=
  if (length cov =? length mean)%nat then normal_new det inv (length mean) (vec_of mean) (diag_of cov)
  else if ((length cov =? 1) || (length mean =? 1))%nat then Raise AssertionError else Raise ValueError.

(** CGaussianMixtureModel.py:29-30: zip stops at the shorter list. *)
Fixpoint gmm_components (means sigmas : list (list R)) : res (list normal) :=
  match means, sigmas with
  | m :: ms, c :: cs =>
      (let* s := gmm_component m c in let* r := gmm_components ms cs in Ok (s :: r))%py
  | _, _ => Ok []
  end.

(** CGaussianMixtureModel.py:35: the weights used when none are given. *)
Definition default_weights (n : nat) : list (fl Q) := repeat (Fin (1 / inject_Z (Z.of_nat n))%Q) n.

(** CGaussianMixtureModel.py:8-38 __init__ (means[0] of an empty list is an IndexError); the constructor of
    the mixture (CMixtureModel.py:8-23) stores what set_weights makes of a copy of the weights. *)
Definition gmm_new (means sigmas : list (list R)) (weights : option (list (fl Q))) : res gmm :=
  match means with
  | [] => Raise IndexError
  | m0 :: _ =>
      (let* models := gmm_components means sigmas in
       let* stored := set_weights (length models)
                        (match weights with Some w => w | None => default_weights (length means) end) in
       Ok (mkGmm (length m0) models stored))%py
  end.
End Gmm.

(** The stored weights as numbers; the only other value set_weights can leave is NaN. *)
Fixpoint plain (ws : list (fl Q)) : option (list Q) :=
  match ws with
  | [] => Some []
  | Fin a :: r => match plain r with Some l => Some (a :: l) | None => None end
  | _ :: _ => None
  end.

(** CGaussianMixtureModel.py:40-44 prob and log_prob of a batch of rows of the right width, delegated to the
    mixture (CMixtureModel.py:43-77); a NaN weight makes every value NaN. *)
Definition gmm_eval (f : list (list R -> fl R) -> list Q -> list (list R) -> list (fl R)) (g : gmm)
    (rows : list (list R)) : list (fl R) :=
  match plain (g_weights g) with
  | Some ws => f (map (fun s x => Fin (normal_log_prob s (vec_of x))) (g_models g)) ws rows
  | None => map (fun _ => NaN) rows
  end.
Definition gmm_prob : gmm -> list (list R) -> list (fl R) := gmm_eval mixture_prob_batch.
Definition gmm_log_prob : gmm -> list (list R) -> list (fl R) := gmm_eval mixture_log_prob_batch.
