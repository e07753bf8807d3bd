(** Model of CDistribution.prob, log_prob and integral (ais_benchmarks/distributions/distributions.py)
    and of ABCDistribution (derived/CABCDistribution.py). *)
From Coq Require Import List Bool Arith QArith Reals.
Import ListNotations.
From Verif Require Import Prelude.Py Prelude.QBase Prelude.RBase Model.Shape.

Section Base.
Context {X : Type}.
(** A likelihood function given by the user: batch of rows to one float per row. *)
Definition lik := list (list X) -> list (fl R).

(** distributions.py:258, 275: the assertion len(x.shape) == 2 and x.shape[1] == dims. *)
Definition assert_shape (dims : nat) (x : ndarray X) : res (list (list X)) :=
  match x with
  | Arr2 w rows => if (w =? dims)%nat then Ok rows else Raise AssertionError
  | _ => Raise AssertionError
  end.

(** distributions.py:251-266 prob. *)
Definition base_prob (dims : nat) (f lf : option lik) (x : ndarray X) : res (list (fl R)) :=
  bind (assert_shape dims x) (fun rows =>
  match f, lf with
  | Some g, _ => Ok (g rows)
  | None, Some g => Ok (map fexp (g rows))
  | None, None => Raise PlainException
  end).

(** distributions.py:268-283 log_prob. *)
Definition base_log_prob (dims : nat) (f lf : option lik) (x : ndarray X) : res (list (fl R)) :=
  bind (assert_shape dims x) (fun rows =>
  match lf, f with
  | Some g, _ => Ok (g rows)
  | None, Some g => Ok (map fln (g rows))
  | None, None => Raise PlainException
  end).
End Base.

Open Scope Q_scope.
(** np.max of a non-empty array; ValueError when empty. *)
Definition np_max (l : list Q) : res Q :=
  match l with [] => Raise ValueError | x :: r => Ok (fold_left qmax r x) end.

(** distributions.py:217-226 integral over the box [a, b]: [xs] are the sampled points, [us] the unit
    draws behind the heights (uniform(0, height) = height * u). The sample count is positive. *)
Definition mc_integral (prob : vec -> Q) (a b : vec) (xs : list vec) (us : nat -> Q) : res Q :=
  let probs := map prob xs in
  bind (np_max probs) (fun height =>
  let hits := length (filter (fun pu => Qle_bool (height * snd pu) (fst pu))
                             (combine probs (map us (seq 0 (length xs))))) in
  Ok (Qnat hits / Qnat (length xs) * (Qprod (map2 Qminus b a) * height))).

Open Scope R_scope.
Section Abc.
Context {Z O : Type}.
(** derived/CABCDistribution.py:18-49: the parts of an ABC target that its density uses: the surrogate
    likelihood functions of (observation, simulated observation) for one query row with the slack
    already applied, the prior log density and the observation. *)
Record abc := mkAbc {
  abc_lik : option (O -> O -> fl R); abc_loglik : option (O -> O -> fl R);
  abc_prior : Z -> fl R; abc_obs : option O }.

(** CABCDistribution.py:42-49: a new ABC target has no observation. *)
Definition abc_new lik loglik prior : abc := mkAbc lik loglik prior None.

(** CABCDistribution.py:51-52 condition. *)
Definition abc_condition (s : abc) (o : O) : abc := mkAbc (abc_lik s) (abc_loglik s) (abc_prior s) (Some o).

(** CABCDistribution.py:64-85 log_prob of a batch; [sim k z] is the simulated observation of row k. *)
Definition abc_log_prob (s : abc) (sim : nat -> Z -> O) (zs : list Z) : res (list (fl R)) :=
  match abc_obs s with
  | None => Raise ValueError
  | Some o =>
      match abc_loglik s, abc_lik s with
      | Some g, _ => Ok (map (fun kz => faddR (faddR (g o (sim (fst kz) (snd kz))) (abc_prior s (snd kz))) (Fin 0))
                             (combine (seq 0 (length zs)) zs))
      | None, Some g => Ok (map (fun kz => faddR (faddR (fln (g o (sim (fst kz) (snd kz)))) (abc_prior s (snd kz))) (Fin 0))
                             (combine (seq 0 (length zs)) zs))
      | None, None => Raise PlainException
      end
  end.

(** CABCDistribution.py:87-106 prob. *)
Definition abc_prob (s : abc) (sim : nat -> Z -> O) (zs : list Z) : res (list (fl R)) :=
  match abc_obs s with
  | None => Raise ValueError
  | Some o =>
      match abc_loglik s, abc_lik s with
      | Some g, _ => Ok (map (fun kz => fexp (faddR (faddR (g o (sim (fst kz) (snd kz))) (abc_prior s (snd kz))) (Fin 0)))
                             (combine (seq 0 (length zs)) zs))
      | None, Some g => Ok (map (fun kz => fmulR (g o (sim (fst kz) (snd kz))) (fexp (faddR (abc_prior s (snd kz)) (Fin 0))))
                             (combine (seq 0 (length zs)) zs))
      | None, None => Raise PlainException
      end
  end.
End Abc.
Arguments abc Z O : clear implicits.
