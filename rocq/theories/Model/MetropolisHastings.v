(** Model of ais_benchmarks/sampling_methods/metropolis_hastings.py. *)
From Coq Require Import List Bool Arith QArith.
Import ListNotations.
From Verif Require Import Prelude.Py Prelude.QBase Model.Base.
Open Scope Q_scope.

(** metropolis_hastings.py:14-18: labels of trajectory points. *)
Inductive label := REJECT | ACCEPT | BURN_IN | DECORRELATION | SAMPLE.

(** metropolis_hastings.py:39-51: parameters. [mh_lq] is proposal_d.log_prob. *)
Record mh_params := mkMH {
  mh_lo : vec; mh_hi : vec; mh_steps : nat; mh_burnin : nat; mh_kde : nat; mh_lq : vec -> fl Q }.

(** metropolis_hastings.py:50-55: the object. [mh_target] is the log density of target_d.
    Simplified: target_d = None (before the first importance_sample) is not represented. *)
Record mh := mkState {
  mh_core : core;
  mh_current : vec;
  mh_is_init : bool;
  mh_traj : list vec;
  mh_types : list label }.

(** metropolis_hastings.py:20-55: a newly constructed object; [x0] is the draw at line 52. *)
Definition mh_new (x0 : vec) : mh := mkState core_init x0 false [] [].

(** metropolis_hastings.py:77-81 reset: current_sample is kept. *)
Definition mh_reset (s : mh) : mh := mkState (core_reset (mh_core s)) (mh_current s) false [] [].

(** One turn of the loop of mcmc_step consumes: the displacement drawn from the proposal (91), the
    logarithm of the uniform draw (111, 114) and the clock (89, relative to t_ini). *)
Record attempt := mkAttempt { at_delta : vec; at_logu : fl Q; at_clock : Q }.

(** [l[-1] = v]; IndexError on an empty list. *)
Definition set_last {A : Type} (l : list A) (v : A) : res (list A) :=
  match l with
  | [] => Raise IndexError
  | _ => Ok (removelast l ++ [v])
  end.

(** metropolis_hastings.py:91: the proposed state. *)
Definition mh_propose (P : mh_params) (x : vec) (a : attempt) : vec :=
  vclip (vadd x (at_delta a)) (mh_lo P) (mh_hi P).

(** metropolis_hastings.py:97-114: the acceptance decision. *)
Definition mh_accept (P : mh_params) (lp : vec -> fl Q) (x y : vec) (a : attempt) : bool :=
  let metropolis_term := fsubQ (lp y) (lp x) in
  let hastings_term := fsubQ (mh_lq P (vsub x y)) (mh_lq P (vsub y x)) in
  fltQ (at_logu a) (faddQ metropolis_term hastings_term).

(** metropolis_hastings.py:91-116: bookkeeping of one attempt: trajectory, label REJECT, counters. *)
Definition mh_record (y : vec) (s : mh) : mh :=
  let c := mh_core s in
  mkState (mkCore (samples c) (weights c) (num_q_samples c + 1) (num_q_evals c + 2) (num_pi_evals c + 2)
                  (model c) (ghost_drawn c))
          (mh_current s) (mh_is_init s) (mh_traj s ++ [y]) (mh_types s ++ [REJECT]).

(** Result of mcmc_step: the returned point with the object; or not finished; or an exception. *)
Inductive stepres :=
| SDone (x : vec) (s : mh)
| SRunning (s : mh)
| SFail (e : exn) (s : mh).

(** metropolis_hastings.py:88-120: the loop of mcmc_step started at [x_old]. [x_new], [accepted] and
    [elapsed] are the loop variables. *)
Fixpoint mh_step_loop (P : mh_params) (lp : vec -> fl Q) (timeout : Q) (x_old : vec)
         (tape : list attempt) (accepted : bool) (elapsed : Q) (x_new : vec) (s : mh) : stepres :=
  if negb accepted && Qltb elapsed timeout then
    match tape with
    | [] => SRunning s
    | a :: t =>
        let y := mh_propose P x_old a in
        mh_step_loop P lp timeout x_old t (mh_accept P lp x_old y a) (at_clock a) y (mh_record y s)
    end
  else
    match set_last (mh_types s) ACCEPT with
    | Raise e => SFail e s
    | Ok ty => SDone x_new (mkState (mh_core s) (mh_current s) (mh_is_init s) (mh_traj s) ty)
    end.

(** metropolis_hastings.py:83-120 mcmc_step. *)
Definition mcmc_step (P : mh_params) (lp : vec -> fl Q) (timeout : Q) (tape : list attempt)
           (x_old : vec) (s : mh) : stepres :=
  mh_step_loop P lp timeout x_old tape false 0 x_old s.

(** The events of one call of mcmc_step: the elapsed time of the caller (127) and the attempts. *)
Record step_ev := mkStep { se_elapsed : Q; se_attempts : list attempt }.

(** metropolis_hastings.py:128-129 (and 67-68 with label BURN_IN): one step from current_sample,
    storing the result and relabelling the last point. *)
Definition mh_advance (P : mh_params) (lp : vec -> fl Q) (timeout : Q) (lab : label)
           (tape : list attempt) (s : mh) : outcome mh :=
  match mcmc_step P lp timeout tape (mh_current s) s with
  | SRunning s' => Running s'
  | SFail e s' => Failed e s'
  | SDone x s' =>
      match set_last (mh_types s') lab with
      | Raise e => Failed e (mkState (mh_core s') x (mh_is_init s') (mh_traj s') (mh_types s'))
      | Ok ty => Done (mkState (mh_core s') x (mh_is_init s') (mh_traj s') ty)
      end
  end.

(** metropolis_hastings.py:126-129: n steps of the inner loop of mcmc; returns the unused events. *)
Fixpoint mh_steps_n (P : mh_params) (lp : vec -> fl Q) (timeout : Q) (n : nat)
         (tape : list step_ev) (s : mh) : outcome mh * list step_ev :=
  match n with
  | O => (Done s, tape)
  | S m =>
      match tape with
      | [] => (Running s, [])
      | e :: t =>
          match mh_advance P lp (timeout - se_elapsed e) DECORRELATION (se_attempts e) s with
          | Done s' => mh_steps_n P lp timeout m t s'
          | o => (o, t)
          end
      end
  end.

(** metropolis_hastings.py:122-132 mcmc(n_samples, n_steps, timeout): returns the rows. *)
Fixpoint mcmc (P : mh_params) (lp : vec -> fl Q) (timeout : Q) (n_samples : nat)
         (tape : list step_ev) (s : mh) (acc : list vec) : outcome mh * list vec * list step_ev :=
  match n_samples with
  | O => (Done s, acc, tape)
  | S m =>
      match mh_steps_n P lp timeout (mh_steps P) tape s with
      | (Done s1, t1) =>
          match set_last (mh_types s1) SAMPLE with
          | Raise e => (Failed e s1, acc, t1)
          | Ok ty =>
              let s2 := mkState (mh_core s1) (mh_current s1) (mh_is_init s1) (mh_traj s1) ty in
              mcmc P lp timeout m t1 s2 (acc ++ [mh_current s2])
          end
      | (o, t1) => (o, acc, t1)
      end
  end.

(** metropolis_hastings.py:65-69: the burn-in. Line 67 calls mcmc_step with its default timeout 60. *)
Fixpoint mh_burn (P : mh_params) (lp : vec -> fl Q) (n : nat) (tape : list step_ev) (s : mh)
  : outcome mh * list step_ev :=
  match n with
  | O => (Done s, tape)
  | S m =>
      match tape with
      | [] => (Running s, [])
      | e :: t =>
          match mh_advance P lp 60 BURN_IN (se_attempts e) s with
          | Done s' => mh_burn P lp m t s'
          | o => (o, t)
          end
      end
  end.

(** metropolis_hastings.py:71-75: the loop over n_samples calls of mcmc(n_samples, ...). *)
Fixpoint mh_sample_loop (P : mh_params) (lp : vec -> fl Q) (timeout : Q) (n k : nat)
         (tape : list step_ev) (s : mh) (acc : list vec) : outcome mh * list vec * list step_ev :=
  match k with
  | O => (Done s, acc, tape)
  | S m =>
      match mcmc P lp timeout n tape s [] with
      | (Done s1, rows, t1) => mh_sample_loop P lp timeout n m t1 s1 (acc ++ rows)
      | (o, _, t1) => (o, acc, t1)
      end
  end.

(** metropolis_hastings.py:57-75 sample(n_samples, timeout). *)
Definition mh_sample (P : mh_params) (lp : vec -> fl Q) (timeout : Q) (n : nat)
           (tape : list step_ev) (s : mh) : outcome mh * list vec * list step_ev :=
  if mh_is_init s then mh_sample_loop P lp timeout n n tape s []
  else
    match mh_burn P lp (mh_burnin P) tape s with
    | (Done s1, t1) =>
        let s2 := mkState (mh_core s1) (mh_current s1) true (mh_traj s1) (mh_types s1) in
        mh_sample_loop P lp timeout n n t1 s2 []
    | (o, t1) => (o, [], t1)
    end.

(** One turn of the loop of importance_sample: the events of sample(1) and the clock (142). *)
Record is_ev := mkIs { ie_steps : list step_ev; ie_clock : Q }.

(** metropolis_hastings.py:139-142: the while loop. *)
Fixpoint mh_is_loop (P : mh_params) (lp : vec -> fl Q) (timeout : Q) (n : nat)
         (tape : list is_ev) (elapsed : Q) (s : mh) : outcome mh :=
  if (length (samples (mh_core s)) <? n)%nat && Qltb elapsed timeout then
    match tape with
    | [] => Running s
    | e :: t =>
        match mh_sample P lp timeout 1 (ie_steps e) s with
        | (Done s1, rows, _) =>
            let c := mh_core s1 in
            let c' := mkCore (samples c ++ rows) (weights c) (num_q_samples c) (num_q_evals c) (num_pi_evals c)
                             (model c) (ghost_drawn c) in
            mh_is_loop P lp timeout n t (ie_clock e)
              (mkState c' (mh_current s1) (mh_is_init s1) (mh_traj s1) (mh_types s1))
        | (o, _, _) => o
        end
    end
  else Done s.

(** metropolis_hastings.py:134-146 importance_sample. *)
Definition mh_importance_sample (P : mh_params) (lp : vec -> fl Q) (n : nat) (timeout : Q)
           (tape : list is_ev) (pick : nat -> nat) (s : mh) : outcome mh :=
  match mh_is_loop P lp timeout n tape 0 s with
  | Done s1 =>
      let c := mh_core s1 in
      let w := repeat (1 / Qnat (length (samples c))) (length (samples c)) in
      match update_model (mh_kde P) pick (samples c) with
      | Raise e => Failed e (mkState (mkCore (samples c) w (num_q_samples c) (num_q_evals c) (num_pi_evals c)
                                             (model c) (ghost_drawn c))
                                     (mh_current s1) (mh_is_init s1) (mh_traj s1) (mh_types s1))
      | Ok m => Done (mkState (mkCore (samples c) w (num_q_samples c) (num_q_evals c) (num_pi_evals c)
                                      (Some m) (ghost_drawn c))
                              (mh_current s1) (mh_is_init s1) (mh_traj s1) (mh_types s1))
      end
  | o => o
  end.

(** Histories: construction, reset, sample, prob/log_prob and importance_sample calls in any order,
    with any targets, timeouts and random events. *)
Inductive mh_op :=
| OpReset
| OpQuery (pick : nat -> nat)
| OpSample (lp : vec -> fl Q) (timeout : Q) (n : nat) (tape : list step_ev)
| OpIS (lp : vec -> fl Q) (timeout : Q) (n : nat) (tape : list is_ev) (pick : nat -> nat).

(** base.py:151-160 prob/log_prob on this object: only the model can change. *)
Definition mh_query (P : mh_params) (pick : nat -> nat) (s : mh) : outcome mh :=
  let put c := mkState c (mh_current s) (mh_is_init s) (mh_traj s) (mh_types s) in
  match core_query (mh_kde P) pick (mh_core s) with
  | Done c => Done (put c)
  | Running c => Running (put c)
  | Failed e c => Failed e (put c)
  end.

(** One operation of a history: metropolis_hastings.py:77 (reset), base.py:151-160 (prob, log_prob),
    metropolis_hastings.py:57 (sample), 134 (importance_sample). *)
Definition mh_run (P : mh_params) (o : mh_op) (s : mh) : outcome mh :=
  match o with
  | OpReset => Done (mh_reset s)
  | OpQuery pick => mh_query P pick s
  | OpSample lp timeout n tape => fst (fst (mh_sample P lp timeout n tape s))
  | OpIS lp timeout n tape pick => mh_importance_sample P lp n timeout tape pick s
  end.

(** [mh_reachable P x0 ops s]: [s] is the object after construction with first draw [x0] and the
    completed operations [ops] (most recent first); each returned or raised an exception that was
    caught. *)
Inductive mh_reachable (P : mh_params) (x0 : vec) : list mh_op -> mh -> Prop :=
| mh_reach_new : mh_reachable P x0 [] (mh_new x0)
| mh_reach_op ops s o s' :
    mh_reachable P x0 ops s ->
    (mh_run P o s = Done s' \/ exists e, mh_run P o s = Failed e s') ->
    mh_reachable P x0 (o :: ops) s'.
