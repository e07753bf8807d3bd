(** What is expected of targets that are defined through a generative model, in terms of the calls of a program only. *)
From Coq Require Import List Bool Arith QArith Reals.
Import ListNotations.
From Verif Require Import Prelude.Py Prelude.QBase Prelude.RBase Model.NoisyFunction Model.AbcWorld.

(** The latest observation given to target i, the latest parameters and the latest explicit conditioning of model j. *)
Fixpoint observation (i : nat) (cs : list call) (prev : option (list Q)) : option (list Q) :=
  match cs with
  | [] => prev
  | Observe k o :: r => observation i r (if (k =? i)%nat then Some o else prev)
  | _ :: r => observation i r prev
  end.
Fixpoint parameters (j : nat) (cs : list call) (prev : option (list Q)) : option (list Q) :=
  match cs with
  | [] => prev
  | ParamsGen k p :: r => parameters j r (if (k =? j)%nat then Some p else prev)
  | _ :: r => parameters j r prev
  end.
Fixpoint conditioning (j : nat) (cs : list call) (prev : option arr) : option arr :=
  match cs with
  | [] => prev
  | CondGen k z :: r => conditioning j r (if (k =? j)%nat then Some z else prev)
  | _ :: r => conditioning j r prev
  end.

(** Objects as their constructors leave them. *)
Definition unused_gen (g : gen) : Prop :=
  match g with Noisy o => nz_x o = None /\ nz_z o = None | Nuisance o => nu_z o = None end.
Definition unused (w : world) : Prop :=
  Forall unused_gen (w_gens w) /\ Forall (fun t => t_obs t = None) (w_targets w).

(** A call that evaluates or draws from a target built on model j. *)
Definition uses_model (ts : list target) (j : nat) (c : call) : Prop :=
  match c with
  | Query i _ _ _ => exists t, nth_error ts i = Some t /\ t_gen t = j
  | Draw i _ _ _ => exists t, nth_error ts i = Some t /\ (t_gen t = j \/ t_sensor t = j)
  | _ => False
  end.

(** A function applied to every row of a batch on its own. *)
Definition row_function (f : arr -> option (list Q) -> list Q) (f1 : option (list Q) -> list Q -> list Q) : Prop :=
  forall x p, f x p = concat (map (f1 p) (a_rows x)).

(** Value of one row: surrogate likelihood l (a logarithm if in_log) times prior exp(pr), as a logarithm if log. *)
Definition posterior (log in_log : bool) (l pr : fl R) : fl R :=
  match log, in_log with
  | true, true => faddR l pr
  | true, false => faddR (fln l) pr
  | false, true => fexp (faddR l pr)
  | false, false => fmulR l (fexp pr)
  end.

(** The surrogate likelihood given to the target, as one function of the observation and one simulated row. *)
Definition surrogate (t : target) (in_log : bool) (L : list Q -> list Q -> fl R) : Prop :=
  if in_log then t_loglik t = Some (fun o hat => map (L o) hat)
  else t_loglik t = None /\ t_lik t = Some (fun o hat => map (L o) hat).
