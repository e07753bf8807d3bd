(** Model of ais_benchmarks/sampling_methods/rejection.py. *)
From Coq Require Import List Bool Arith QArith.
Import ListNotations.
From Verif Require Import Prelude.Py Prelude.QBase Model.Base.
Open Scope Q_scope.

(** rejection.py:11-15: the parameters. [rj_q] is the proposal density, [rj_kde] = n_samples_kde. *)
Record rej_params := mkRej { rj_q : vec -> Q; rj_scaling : Q; rj_kde : nat }.

(** One turn of the while loop consumes: the proposal draws (rejection.py:22), the uniform draws
    (35) and the clock reading (46, already relative to t_ini). *)
Record rej_round := mkRound { rr_draw : nat -> vec; rr_u : nat -> Q; rr_clock : Q }.

(** rejection.py:26-32: acceptance ratio of one proposal (numpy float division). *)
Definition rej_ratio (P : rej_params) (target : vec -> Q) (x : vec) : fl Q :=
  fdivQ (target x) (rj_q P x * rj_scaling P).

(** rejection.py:22-38: the first k draws of a round, and those accepted. *)
Definition rej_drawn (r : rej_round) (k : nat) : list vec := map (rr_draw r) (seq 0 k).
Definition rej_accepted (P : rej_params) (target : vec -> Q) (r : rej_round) (k : nat) : list vec :=
  map (rr_draw r)
      (filter (fun i => fgtQ (rej_ratio P target (rr_draw r i)) (rr_u r i)) (seq 0 k)).

(** rejection.py:21-46: one turn of the loop. The counters are increased by n_samples (not by the
    number of proposals drawn), as in the code (23, 27, 29). Simplified: the values stored in
    [weights] inside the loop (43-44) are overwritten at 49 before any use, so only their number is
    tracked (zeros). *)
Definition rej_iter (P : rej_params) (target : vec -> Q) (n : nat) (c : core) (r : rej_round) : core :=
  let k := (n - length (samples c))%nat in
  let acc := rej_accepted P target r k in
  mkCore (samples c ++ acc)
         (weights c ++ map (fun _ => 0) acc)
         (num_q_samples c + n) (num_q_evals c + n) (num_pi_evals c + n)
         (model c)
         (ghost_drawn c ++ rej_drawn r k).

(** rejection.py:20-46: the while loop. *)
Fixpoint rej_loop (P : rej_params) (target : vec -> Q) (n : nat) (timeout : Q)
         (tape : list rej_round) (elapsed : Q) (c : core) : outcome core :=
  if Qltb elapsed timeout && (length (samples c) <? n)%nat then
    match tape with
    | [] => Running c
    | r :: t => rej_loop P target n timeout t (rr_clock r) (rej_iter P target n c r)
    end
  else Done c.

(** rejection.py:49-51: uniform weights and model update. [ones_like(w) * 1 / len(w)] on an empty
    array is an empty array. *)
Definition rej_finish (P : rej_params) (pick : nat -> nat) (c : core) : outcome core :=
  let w := map (fun _ => 1 / Qnat (length (weights c))) (weights c) in
  let c' := mkCore (samples c) w (num_q_samples c) (num_q_evals c) (num_pi_evals c) (model c) (ghost_drawn c) in
  match update_model (rj_kde P) pick (samples c') with
  | Raise e => Failed e c'
  | Ok m => Done (mkCore (samples c') w (num_q_samples c) (num_q_evals c) (num_pi_evals c) (Some m) (ghost_drawn c))
  end.

(** rejection.py:17-51: importance_sample. [e0] is the first clock difference (19). *)
Definition rej_importance_sample (P : rej_params) (target : vec -> Q) (n : nat) (timeout : Q)
           (e0 : Q) (tape : list rej_round) (pick : nat -> nat) (c : core) : outcome core :=
  match rej_loop P target n timeout tape e0 c with
  | Done c' => rej_finish P pick c'
  | o => o
  end.

(** A call of importance_sample, as recorded in a history. *)
Record rej_call := mkRejCall {
  rc_target : vec -> Q; rc_n : nat; rc_timeout : Q; rc_e0 : Q;
  rc_tape : list rej_round; rc_pick : nat -> nat }.

(** States an object can be in after construction/reset and any sequence of calls, including calls
    that ended in an exception the caller caught. *)
Inductive rej_reachable (P : rej_params) : core -> Prop :=
| rej_reach_init : rej_reachable P core_init
| rej_reach_reset c : rej_reachable P c -> rej_reachable P (core_reset c)
| rej_reach_sample c pick m :
    rej_reachable P c -> rej_reachable P (out_state (core_sample (rj_kde P) pick m c))
| rej_reach_query c pick :
    rej_reachable P c -> rej_reachable P (out_state (core_query (rj_kde P) pick c))
| rej_reach_call c k c' :
    rej_reachable P c ->
    (rej_importance_sample P (rc_target k) (rc_n k) (rc_timeout k) (rc_e0 k) (rc_tape k) (rc_pick k) c = Done c' \/
     exists e, rej_importance_sample P (rc_target k) (rc_n k) (rc_timeout k) (rc_e0 k) (rc_tape k) (rc_pick k) c = Failed e c') ->
    rej_reachable P c'.
