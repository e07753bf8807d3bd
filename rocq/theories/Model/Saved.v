(** Model of saving a distribution with to_dict (distributions.py:296-308, CGaussianMixtureModel.py:58-63) and of building a
    target from such an entry of a benchmark file (CBenchmark.py:122-137). *)
From Coq Require Import String.
From Coq Require Import List Bool Arith QArith Reals Qreals.
Import ListNotations.
From Verif Require Import Prelude.Py Prelude.QBase Model.Normal Model.Mixture Model.Gmm Model.Loader.
Open Scope Q_scope.

(** The distribution classes that "from ais_benchmarks.distributions import *" (CBenchmark.py:15) binds
    (distributions/__init__.py:1-7 and the __init__ files of the subpackages). *)
Inductive cls : Type :=
| GaussianMixture | MultivariateNormal | MultivariateUniform | MultivariateExponential | MultivariateDelta | Mixture
| KernelDensity | NearestNeighbor | Abc | NoisyFunction | NuisanceGenModel
| DenUniform | DenExponential | DenMaxwell | DenLaplace | DenPareto | Banana.
Definition classes : list cls :=
  [GaussianMixture; MultivariateNormal; MultivariateUniform; MultivariateExponential; MultivariateDelta; Mixture;
   KernelDensity; NearestNeighbor; Abc; NoisyFunction; NuisanceGenModel;
   DenUniform; DenExponential; DenMaxwell; DenLaplace; DenPareto; Banana].
Definition class_name (c : cls) : string :=
  match c with
  | GaussianMixture => "CGaussianMixtureModel" | MultivariateNormal => "CMultivariateNormal" | MultivariateUniform => "CMultivariateUniform"
  | MultivariateExponential => "CMultivariateExponential" | MultivariateDelta => "CMultivariateDelta" | Mixture => "CMixtureModel"
  | KernelDensity => "CKernelDensity" | NearestNeighbor => "CNearestNeighbor" | Abc => "ABCDistribution"
  | NoisyFunction => "GenericNoisyFunction" | NuisanceGenModel => "GenericNuisanceGenModel"
  | DenUniform => "BenchDenUniform" | DenExponential => "BenchDenExponential" | DenMaxwell => "BenchDenMaxwell"
  | DenLaplace => "BenchDenLaplace" | DenPareto => "BenchDenSymmetricPareto" | Banana => "Banana2D"
  end.
(** The parameters a constructor insists on (_check_param, and the base class for those it does not set itself), class by
    class: CGaussianMixtureModel.py:16-17, CMultivariateNormal.py:27-28, CMultivariateUniform.py:7-8,
    CMultivariateExponential.py:7, CMultivariateDelta.py:7-8, CMixtureModel.py:9-10, CKernelDensity.py:9-12,
    CNearestNeighbor.py:9-10, CABCDistribution.py:30-35, CGenericNoisyFunction.py:7-8, GenericNuisanceGenModel.py:7-10; the
    benchmark densities and the banana set all they need (benchden/*.py, banana2d.py:20-26). *)
Definition needs (c : cls) : list string :=
  match c with
  | GaussianMixture => ["means"; "sigmas"; "support"] | MultivariateNormal => ["mean"; "sigma"] | MultivariateUniform => ["center"; "radius"]
  | MultivariateExponential => ["mean"] | MultivariateDelta => ["center"; "support"] | Mixture => ["models"; "weights"; "dims"; "support"]
  | KernelDensity => ["samples"; "weights"; "kernel_f"; "kernel_bw"; "support"] | NearestNeighbor => ["samples"; "weights"; "support"]
  | Abc => ["prior_d"; "sensor_d"; "gen_d"; "likelihood_f"; "loglikelihood_f"; "slack"]
  | NoisyFunction => ["noise_model"; "function"; "dims"; "support"]
  | NuisanceGenModel => ["gen_function"; "params_mask"; "noise_sigma"; "nuisance_dist"; "dims"; "support"]
  | DenUniform | DenExponential | DenMaxwell | DenLaplace | DenPareto | Banana => []
  end%string.
(** The keys of "params" that to_dict writes (distributions.py:303-306, CGaussianMixtureModel.py:60-62). *)
Definition saved_keys (c : cls) : list string :=
  app ["family"; "dims"; "support"]%string (match c with GaussianMixture => ["means"; "sigmas"; "weights"]%string | _ => [] end).

(** A row is a numpy value or a plain Python value; only the former has tolist(). A row of one number stands for that number
    too (the support of a one-dimensional target may be an array of two numbers). *)
Inductive held : Type := Np | Plain.
Definition rows : Type := list (held * list Q).
(** [v.tolist() for v in l] *)
Fixpoint tolists (l : rows) : res (list (list Q)) :=
  match l with
  | [] => Ok []
  | (Plain, _) :: _ => Raise AttributeError
  | (Np, x) :: r => bind (tolists r) (fun t => Ok (x :: t))
  end.
Definition plain_rows (l : list (list Q)) : rows := map (pair Plain) l.

(** The parameters of a Gaussian mixture; means, sigmas and support are finite. *)
Record gmm_params : Type := mkGp { gp_means : rows; gp_sigmas : rows; gp_weights : option (held * list (fl Q)) }.
(** A distribution object: class, dims, support_vals, and for a Gaussian mixture its parameters (self.weights at line 33 or 35 is
    the given value or a numpy array) and the object proper. *)
Record dist : Type := mkDist { d_cls : cls; d_dims : nat; d_support : rows; d_gmm : option (gmm_params * gmm) }.

Section Saved.
(** np.linalg.det and np.linalg.inv, as in Model/Normal.v. *)
Variable det : rmat -> R.
Variable inv : rmat -> rmat.

Definition real_rows (l : rows) : list (list R) := map (fun r => map Q2R (snd r)) l.
(** CGaussianMixtureModel.py:8-38. *)
Definition build_gmm (p : gmm_params) (support : rows) : res dist :=
  bind (gmm_new det inv (real_rows (gp_means p)) (real_rows (gp_sigmas p)) (option_map snd (gp_weights p)))
    (fun g => Ok (mkDist GaussianMixture (g_dims g) support (Some (p, g)))).
(** The constructors without parameters: dims and support (d01_uniform.py:20-21 and CMultivariateUniform.py:15, d02_exponential.py:20-21,
    d03_maxwell.py:22,28, d04_laplace.py:22,28, d10_symmetric_pareto.py:22,28, banana2d.py:20,25). The uniform constructor replaces the
    support given by centre -/+ radius = 1/2 -/+ 1. *)
Definition build_fixed (c : cls) : option dist :=
  match c with
  | DenUniform => Some (mkDist c 1 [(Np, [-1 # 2]); (Np, [3 # 2])] None)
  | DenExponential | DenMaxwell => Some (mkDist c 1 [(Np, [0]); (Np, [4])] None)
  | DenLaplace => Some (mkDist c 1 [(Np, [-6]); (Np, [6])] None)
  | DenPareto => Some (mkDist c 1 [(Np, [-20]); (Np, [20])] None)
  | Banana => Some (mkDist c 2 [(Np, [-10; -10]); (Np, [10; 10])] None)
  | _ => None
  end.

(** What to_dict returns, without the family. *)
Record saved : Type := mkSaved {
  sv_name : string; sv_type : string; sv_batch : nat; sv_nsamples : nat; sv_eval : nat;
  sv_dims : nat; sv_support : list (list Q); sv_gmm : option (list (list Q) * list (list Q) * list (fl Q)) }.
(** distributions.py:296-308 and CGaussianMixtureModel.py:58-63; [name] is given or the type of the object. *)
Definition to_dict (name : string) (batch nsamples eval : nat) (d : dist) : res saved :=
  bind (tolists (d_support d)) (fun sup =>
  bind (match d_gmm d with
        | None => Ok None
        | Some (p, _) =>
            bind (tolists (gp_means p)) (fun ms => bind (tolists (gp_sigmas p)) (fun ss =>
            match gp_weights p with
            | Some (Np, w) => Ok (Some (ms, ss, w))
            | None => Ok (Some (ms, ss, default_weights (length (gp_means p))))
            | Some (Plain, _) => Raise AttributeError
            end))
        end) (fun g =>
  Ok (mkSaved name ("distributions." ++ class_name (d_cls d))%string batch nsamples eval (d_dims d) sup g))).

(** CBenchmark.py:131: the name in front of the call. "distributions" is bound by the star import to the submodule
    ais_benchmarks/distributions/distributions.py, which has the abstract CDistribution and CKernel only. *)
Definition resolve (t : string) : res cls :=
  match find (fun c => String.eqb (class_name c) t) classes with
  | Some c => Ok c
  | None =>
      if String.prefix "distributions." t
      then if existsb (String.eqb t) ["distributions.CDistribution"; "distributions.CKernel"]%string then Raise TypeError else Raise AttributeError
      else Raise NameError
  end.
Definition finite_fl (w : fl Q) : bool := match w with Fin _ => true | _ => false end.
(** CBenchmark.py:129-131: the text of the constructor call, evaluated. nan and inf in the text are unknown names. The values
    of params are Python lists. Simplified: a call with all the keys needed returns for the mixture and the fixed classes only,
    no other class gets that far (see saved_keys and needs). *)
Definition eval_call (sv : saved) : res dist :=
  bind (resolve (sv_type sv)) (fun c =>
  if match sv_gmm sv with Some (_, ws) => negb (forallb finite_fl ws) | None => false end then Raise NameError
  else match build_fixed c with
       | Some d => Ok d
       | None =>
           match c, sv_gmm sv with
           | GaussianMixture, Some (ms, ss, ws) => build_gmm (mkGp (plain_rows ms) (plain_rows ss) (Some (Plain, ws))) (plain_rows (sv_support sv))
           | _, _ => Raise AssertionError
           end
       end).

(** distributions.py:228-234 support(): np.array(support_vals).reshape(2, dims). *)
Definition support_rows (d : dist) : res (list Q * list Q) :=
  let flat := concat (map snd (d_support d)) in
  if (length flat =? 2 * d_dims d)%nat then Ok (firstn (d_dims d) flat, skipn (d_dims d) flat) else Raise ValueError.

(** The entry of a benchmark file with this content (Model/Loader.v); the object is numbered [id]. *)
Definition entry_of (id : nat) (sv : saved) : tentry :=
  mkTentry (Some (sv_nsamples sv)) (Some (sv_eval sv)) (Some (sv_batch sv))
    (Some (bind (eval_call sv) (fun d =>
       match support_rows d with Ok (lo, hi) => Ok (mkTdist id (d_dims d) lo hi) | Raise _ => Ok (mkTdist id (d_dims d) [] []) end)))
    (Some (sv_name sv)).
(** The same content with the class name alone as its type, as in the files shipped (def_benchmark.yaml). *)
Definition without_prefix (d : dist) (sv : saved) : saved :=
  mkSaved (sv_name sv) (class_name (d_cls d)) (sv_batch sv) (sv_nsamples sv) (sv_eval sv) (sv_dims sv) (sv_support sv) (sv_gmm sv).

(** Objects that a constructor call made. *)
Inductive made : dist -> Prop :=
| made_gmm p sup d : build_gmm p sup = Ok d -> made d
| made_fixed c d : build_fixed c = Some d -> made d
| made_other c dims sup : build_fixed c = None -> c <> GaussianMixture -> made (mkDist c dims sup None).
End Saved.
