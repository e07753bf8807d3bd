(** Model of ABCDistribution (derived/CABCDistribution.py) together with the generative and sensor models it holds by
    reference: GenericNoisyFunction (derived/CGenericNoisyFunction.py, Model/NoisyFunction.v) and GenericNuisanceGenModel
    (derived/GenericNuisanceGenModel.py). Several targets can share a model; every method call of a program that uses the
    objects is one operation. *)
From Coq Require Import List Bool Arith QArith Reals.
Import ListNotations.
From Verif Require Import Prelude.Py Prelude.QBase Prelude.RBase Model.Shape Model.NoisyFunction.

(** GenericNuisanceGenModel.py:6-26: the object; the generating function maps the conditioning rows and the nuisance rows to
    rows. The result's detach() (line 36) is the identity here: the function is assumed to return a tensor, as it must. *)
Record nuisance : Type := mkNuisance {
  nu_dims : nat;
  nu_f : list (list Q) -> list (list Q) -> list (list Q);
  nu_z : option (list (list Q)) }.

(** A model of either class. *)
Inductive gen : Type := Noisy (o : noisy) | Nuisance (o : nuisance).

(** CGenericNoisyFunction.py:72-73 and GenericNuisanceGenModel.py:38-40 condition. Only the latter checks the shape. *)
Definition gen_condition (g : gen) (z : arr) : res gen :=
  match g with
  | Noisy o => Ok (Noisy (noisy_do o (Condition z)))
  | Nuisance o => (let* rows := check_shape (nu_dims o) (Arr2 (a_width z) (a_rows z)) in
                   Ok (Nuisance (mkNuisance (nu_dims o) (nu_f o) (Some rows))))%py
  end.

(** CGenericNoisyFunction.py:69-70 set_params; the other class has no such method. *)
Definition gen_params (g : gen) (p : list Q) : res gen :=
  match g with
  | Noisy o => Ok (Noisy (noisy_do o (SetParams p)))
  | Nuisance _ => Raise AttributeError
  end.

(** sample() without arguments: CGenericNoisyFunction.py:25-28, GenericNuisanceGenModel.py:28-36. [noise] is what the noise or
    nuisance model's sample returned, in the second class len(z) rows. *)
Definition gen_sample (g : gen) (noise : list (list Q)) : res (list (list Q)) :=
  match g with
  | Noisy o => (let* a := noisy_sample o noise in Ok (a_rows a))%py
  | Nuisance o => match nu_z o with None => Raise ValueError | Some z => Ok (nu_f o z noise) end
  end.

(** sample(nsamples): GenericNoisyFunction.sample takes no argument (CGenericNoisyFunction.py:25), so the call is a TypeError;
    in the other class [noise] has len(z) * nsamples rows (GenericNuisanceGenModel.py:33). *)
Definition gen_sample_n (g : gen) (noise : list (list Q)) : res (list (list Q)) :=
  match g with Noisy _ => Raise TypeError | Nuisance _ => gen_sample g noise end.

(** CABCDistribution.py:18-49: a target; its generative and sensor models are positions in the table of models. The surrogate
    likelihoods are the user's functions of the observation and the batch of simulated observations, with the slack applied;
    the prior's log density of a batch may raise. *)
Record target : Type := mkTarget {
  t_gen : nat; t_sensor : nat;
  t_lik : option (list Q -> list (list Q) -> list (fl R));
  t_loglik : option (list Q -> list (list Q) -> list (fl R));
  t_prior : arr -> res (list (fl R));
  t_obs : option (list Q) }.

(** All objects of the program. *)
Record world : Type := mkWorld { w_gens : list gen; w_targets : list target }.

(** Replaces the element at position i. *)
Definition put {X : Type} (i : nat) (x : X) (l : list X) : list X :=
  firstn i l ++ match skipn i l with [] => [] | _ :: r => x :: r end.

(** numpy: element-wise operation on two vectors with broadcasting. *)
Definition zipb {X : Type} (f : X -> X -> X) (d : X) (a b : list X) : res (list X) :=
  let stretch n (l : list X) := if (length l =? n)%nat then l else repeat (hd d l) n in
  (let* n := extent (length a) (length b) in Ok (map2 f (stretch n a) (stretch n b)))%py.

(** CABCDistribution.py:77-85 (logarithm) and 99-106: the value from the simulated observations and the prior. *)
Definition abc_value (log : bool) (t : target) (o : list Q) (hat : list (list Q)) (pr : list (fl R)) : res (list (fl R)) :=
  match log, t_loglik t, t_lik t with
  | true, Some g, _ => (let* s := zipb faddR NaN (g o hat) pr in Ok (map (fun v => faddR v (Fin 0%R)) s))%py
  | true, None, Some g => (let* s := zipb faddR NaN (map fln (g o hat)) pr in Ok (map (fun v => faddR v (Fin 0%R)) s))%py
  | false, Some g, _ => (let* s := zipb faddR NaN (g o hat) pr in Ok (map (fun v => fexp (faddR v (Fin 0%R))) s))%py
  | false, None, Some g => zipb fmulR NaN (g o hat) (map (fun v => fexp (faddR v (Fin 0%R))) pr)
  | _, None, None => Raise PlainException
  end.

(** CABCDistribution.py:54-57 generate, 64-85 log_prob and 87-106 prob: the model is conditioned at the queried points, sampled,
    the simulated rows are cut to the length of the observation. An exception leaves the conditioning in place. The noise is
    what the model's own random source returns. *)
Definition abc_query (w : world) (i : nat) (log : bool) (z : arr) (noise : list (list Q)) : world * res (list (fl R)) :=
  match nth_error (w_targets w) i with
  | None => (w, Raise NameError)
  | Some t =>
      match t_obs t, nth_error (w_gens w) (t_gen t) with
      | None, _ => (w, Raise ValueError)
      | _, None => (w, Raise NameError)
      | Some o, Some g =>
          match gen_condition g z with
          | Raise e => (w, Raise e)
          | Ok g' => (mkWorld (put (t_gen t) g' (w_gens w)) (w_targets w),
                      (let* rows := gen_sample g' noise in
                       let* pr := t_prior t z in
                       abc_value log t o (map (firstn (length o)) rows) pr)%py)
          end
      end
  end.

(** CABCDistribution.py:108-117 sample(n): prior draws [z], generative draws, sensor draws. *)
Definition abc_sample (w : world) (i : nat) (z : arr) (noise1 noise2 : list (list Q)) : world * res (list (list Q)) :=
  match nth_error (w_targets w) i with
  | None => (w, Raise NameError)
  | Some t =>
      match nth_error (w_gens w) (t_gen t) with
      | None => (w, Raise NameError)
      | Some g =>
          match gen_condition g z with
          | Raise e => (w, Raise e)
          | Ok g' =>
              let w1 := mkWorld (put (t_gen t) g' (w_gens w)) (w_targets w) in
              match gen_sample_n g' noise1 with
              | Raise e => (w1, Raise e)
              | Ok x =>
                  match nth_error (w_gens w1) (t_sensor t) with
                  | None => (w1, Raise NameError)
                  | Some s =>
                      match gen_condition s (mkArr (length (hd [] x)) x) with
                      | Raise e => (w1, Raise e)
                      | Ok s' => (mkWorld (put (t_sensor t) s' (w_gens w1)) (w_targets w1), gen_sample_n s' noise2)
                      end
                  end
              end
          end
      end
  end.

(** The calls of a program: on a target by position, on a model by position. *)
Inductive call : Type :=
| Observe (i : nat) (o : list Q)                                        (* target.condition(o) *)
| Query (i : nat) (log : bool) (z : arr) (noise : list (list Q))        (* target.log_prob(z), target.prob(z) *)
| Draw (i : nat) (z : arr) (noise1 noise2 : list (list Q))              (* target.sample(n) *)
| CondGen (j : nat) (z : arr)                                           (* model.condition(z) *)
| ParamsGen (j : nat) (p : list Q)                                      (* model.set_params(p) *)
| SampleGen (j : nat) (noise : list (list Q)).                          (* model.sample() *)

(** What a call returns. *)
Inductive answer : Type := Nothing | Values (v : list (fl R)) | Rows (r : list (list Q)).
Definition as_answer {X : Type} (f : X -> answer) (r : res X) : res answer := (let* v := r in Ok (f v))%py.

(** CABCDistribution.py:51-52 condition. *)
Definition observe (t : target) (o : list Q) : target :=
  mkTarget (t_gen t) (t_sensor t) (t_lik t) (t_loglik t) (t_prior t) (Some o).

(** Update of one model by a method that can raise. *)
Definition on_gen (w : world) (j : nat) (f : gen -> res gen) : world * res answer :=
  match nth_error (w_gens w) j with
  | None => (w, Raise NameError)
  | Some g => match f g with
              | Raise e => (w, Raise e)
              | Ok g' => (mkWorld (put j g' (w_gens w)) (w_targets w), Ok Nothing)
              end
  end.

(** One call, dispatched to the method cited above. *)
Definition do_call (w : world) (c : call) : world * res answer :=
  match c with
  | Observe i o => match nth_error (w_targets w) i with
                   | None => (w, Raise NameError)
                   | Some t => (mkWorld (w_gens w) (put i (observe t o) (w_targets w)), Ok Nothing)
                   end
  | Query i log z noise => let r := abc_query w i log z noise in (fst r, as_answer Values (snd r))
  | Draw i z n1 n2 => let r := abc_sample w i z n1 n2 in (fst r, as_answer Rows (snd r))
  | CondGen j z => on_gen w j (fun g => gen_condition g z)
  | ParamsGen j p => on_gen w j (fun g => gen_params g p)
  | SampleGen j noise => (w, match nth_error (w_gens w) j with
                             | None => Raise NameError
                             | Some g => as_answer Rows (gen_sample g noise)
                             end)
  end.

(** The objects after a sequence of calls; a program may catch exceptions and go on. *)
Fixpoint after (w : world) (cs : list call) : world :=
  match cs with [] => w | c :: r => after (fst (do_call w c)) r end.
