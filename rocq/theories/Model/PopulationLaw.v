(** The probability law of the random numbers of deterministic mixture AIS and layered AIS. *)
From Coq Require Import List QArith.
Import ListNotations.
From Verif Require Import Prelude.Py Prelude.QBase Model.Base Model.Mixture Model.Population Spec.UnbiasedSpec.
Open Scope Q_scope.

(** dm_ais.py:64-69, layered_ais.py:82-87: pp_K independent draws of every proposal in force, in the order of the proposals.
    Simplified: a proposal is supported on finitely many cells of volume v around the points [pts]. *)
Definition proposal_laws (P : pop_params) (v : Q) (pts : list vec) (s : pop) : list (list (Q * vec)) :=
  each_times (pp_K P) (map (fun m => cell_law v pts (pp_comp P m)) (pop_means s)).

(** Expected value of [G] over the draws of t turns of the loop (dm_ais.py:63-82, layered_ais.py:81-100). [rest i xs] completes
    the draws xs of a turn with i turns to come by the other random numbers and the clock: these are arbitrary. *)
Fixpoint expect_turns (k : pop_kind) (P : pop_params) (pi : vec -> Q) (v : Q) (pts : list vec) (rest : nat -> list vec -> pop_round)
         (t : nat) (s : pop) (G : list pop_round -> Q) : Q :=
  match t with
  | O => G []
  | S i => expect_each (proposal_laws P v pts s) (fun xs =>
             expect_turns k P pi v pts rest i (out_state (pop_iter k P pi (rest i xs) s)) (fun tape => G (rest i xs :: tape)))
  end.

(** layered_ais.py:54-68 mcmc_mh with independent random numbers of law om (displacement, uniform draw) in each of the n steps:
    probability that the chain from x ends in B. *)
Definition walk_prob (P : pop_params) (pi : vec -> Q) (om : list (Q * (vec * Q))) (n : nat) (x : vec) (B : vec -> bool) : Q :=
  expect_each (repeat om n) (fun evs => if B (mcmc_mh P pi (fun l => nth l evs ([], 0)) n 0 x) then 1 else 0).
(** Probability that the j-th proposal of layered AIS is centred in B after importance_sample(n) from state s
    (layered_ais.py:76-104), where T pairs of random numbers of the chain of this proposal are independent with law om.
    [tape evs] completes them by the other random numbers and the clock. *)
Definition centre_prob (P : pop_params) (pi : vec -> Q) (om : list (Q * (vec * Q))) (n : nat) (timeout : Q)
           (tape : list (vec * Q) -> list pop_round) (T : nat) (s : pop) (j : nat) (B : vec -> bool) : Q :=
  expect_each (repeat om T) (fun evs => if B (nth j (pop_means (out_state (pop_call LAIS P pi n timeout (tape evs) s))) []) then 1 else 0).
(** The rounds of a call of t turns use the random numbers evs in the chain of proposal j, L in each turn, and none reads the
    clock after the timeout. *)
Definition rounds_use (P : pop_params) (timeout : Q) (j t : nat) (tape : list (vec * Q) -> list pop_round) : Prop :=
  forall evs, length (tape evs) = t /\ (forall r, In r (tape evs) -> pr_clock r < timeout) /\
  forall i r q, nth_error (tape evs) i = Some r -> (q < pp_L P)%nat -> pr_mh r j q = nth (i * pp_L P + q) evs ([], 0).
(** Number of turns of importance_sample(n) that is not timed out (layered_ais.py:81). *)
Definition turns_for (P : pop_params) (n : nat) (s : pop) : nat :=
  let c := (length (pop_means s) * pp_K P)%nat in ((n - length (pop_samples s) + c - 1) / c)%nat.
