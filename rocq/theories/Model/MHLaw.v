(** Real-valued acceptance rule of metropolis_hastings.py and the law of its inner loop. *)
From Coq Require Import List Bool Arith QArith Reals.
Import ListNotations.
From Verif Require Import Prelude.Py Prelude.QBase Prelude.RBase Model.MetropolisHastings Spec.ChainSpec.

Section Accept.
Open Scope R_scope.
(** metropolis_hastings.py:97-108 alpha from the densities: target at the new and at the old point,
    proposal density of the way back (x_old - x_new) and of the way taken (x_new - x_old). *)
Definition mh_alpha (pi_new pi_old q_back q_taken : R) : fl R :=
  faddR (fsubR (fln (Fin pi_new)) (fln (Fin pi_old))) (fsubR (fln (Fin q_back)) (fln (Fin q_taken))).

(** metropolis_hastings.py:111-114 for a draw u in (0, 1). *)
Definition mh_accepted (alpha : fl R) (u : R) : bool :=
  match alpha with Fin a => Rltb (ln u) a | PInf => true | NInf => false | NaN => false end.
End Accept.

Open Scope Q_scope.
(** Average of [f] over tapes of n attempts, each drawn from the finite law [om] (weight, attempt):
    meaning of the repeated draws at metropolis_hastings.py:91 and 111. *)
Fixpoint tape_mean (om : list (Q * attempt)) (n : nat) (f : list attempt -> Q) : Q :=
  match n with
  | O => f []
  | S m => Qsum (map (fun wa => fst wa * tape_mean om m (fun t => f (snd wa :: t))) om)
  end.

(** 1 when mcmc_step returned a point of the set [B], 0 otherwise. *)
Definition returned_in (B : vec -> bool) (r : stepres) : Q :=
  match r with SDone x _ => if B x then 1 else 0 | _ => 0 end.

(** Probability that mcmc_step (metropolis_hastings.py:83-120) has returned a point of [B] after at most
    n attempts. *)
Definition step_prob (P : mh_params) (lp : vec -> fl Q) (timeout : Q) (om : list (Q * attempt)) (n : nat)
           (x : vec) (s : mh) (B : vec -> bool) : Q :=
  tape_mean om n (fun t => returned_in B (mcmc_step P lp timeout t x s)).

(** Probability that one attempt from x (metropolis_hastings.py:91-114) is accepted at a point of [B]. *)
Definition move_prob (P : mh_params) (lp : vec -> fl Q) (om : list (Q * attempt)) (x : vec) (B : vec -> bool) : Q :=
  Qsum (map (fun wa => let y := mh_propose P x (snd wa) in
                       fst wa * (if mh_accept P lp x y (snd wa) && B y then 1 else 0)) om).

(** Average of [G] over the events of several calls of mcmc_step with n attempts each; [els] are the elapsed times at
    which they are called (metropolis_hastings.py:127). *)
Fixpoint steps_mean (om : list (Q * attempt)) (n : nat) (els : list Q) (G : list step_ev -> Q) : Q :=
  match els with
  | [] => G []
  | e :: r => tape_mean om n (fun a => steps_mean om n r (fun l => G (mkStep e a :: l)))
  end.

(** Probability that sample(1) (metropolis_hastings.py:57-75) returns a point of [B], with at most n attempts per step. *)
Definition sample_prob (P : mh_params) (lp : vec -> fl Q) (timeout : Q) (om : list (Q * attempt)) (n : nat) (els : list Q)
           (s : mh) (B : vec -> bool) : Q :=
  steps_mean om n els (fun tape => match mh_sample P lp timeout 1 tape s with
                                   | (Done _, [x], _) => if B x then 1 else 0
                                   | _ => 0
                                   end).

(** The attempts seen as moves between the states 0 .. k-1 of a set of points closed under accepted moves: [at_ i x] tells
    that x is state i, and [F i j] is the probability that an attempt from state i is accepted at state j. *)
Definition attempts_move (P : mh_params) (lp : vec -> fl Q) (om : list (Q * attempt)) (k : nat) (at_ : nat -> vec -> bool) (F : nat -> nat -> Q) : Prop :=
  Qsum (map fst om) == 1 /\ (forall wa, In wa om -> 0 <= fst wa) /\
  (forall i j x, (i < k)%nat -> (j < k)%nat -> at_ i x = true -> move_prob P lp om x (at_ j) == F i j) /\
  (forall i x wa, (i < k)%nat -> at_ i x = true -> In wa om -> mh_accept P lp x (mh_propose P x (snd wa)) (snd wa) = true ->
     in_state k at_ (mh_propose P x (snd wa))) /\
  (forall x i j, (i < k)%nat -> (j < k)%nat -> at_ i x = true -> at_ j x = true -> i = j).
