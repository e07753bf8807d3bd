(** Model of ais_benchmarks/sampling_methods/dm_ais.py and layered_ais.py. *)
From Coq Require Import List Bool Arith QArith.
Import ListNotations.
From Verif Require Import Prelude.Py Prelude.QBase Model.Base Model.Mixture.
Open Scope Q_scope.

(** dm_ais.py:23-26 and layered_ais.py:26-33. [pp_comp m x] is the density at x of the proposal with mean m
    (CMultivariateNormal with the fixed covariance). Simplified: its values, and those of the target, are
    abstract non-negative rationals; J is never read. *)
Record pop_params := mkPop {
  pp_lo : vec; pp_hi : vec; pp_N : nat; pp_K : nat; pp_L : nat; pp_comp : vec -> vec -> Q }.

(** dm_ais.py:27-45, layered_ais.py:34-52: the object; the proposals are represented by their means.
    [pop_qdens] is a ghost field: how often the density of a proposal was evaluated. *)
Record pop := mkPopS {
  pop_means : list vec;
  pop_samples : list vec;
  pop_weights : list (fl Q);
  pop_q_samples : nat;
  pop_q_evals : nat;
  pop_pi_evals : nat;
  pop_qdens : nat }.

(** np.random.uniform(space_min, space_max) for unit draws u (dm_ais.py:37, layered_ais.py:44). *)
Definition uniform_draw (lo hi u : vec) : vec := vadd lo (map2 Qmult u (vsub hi lo)).

(** dm_ais.py:22-45, layered_ais.py:25-52: construction; [us] are the N unit draws. *)
Definition pop_new (P : pop_params) (us : list vec) : pop :=
  mkPopS (map (uniform_draw (pp_lo P) (pp_hi P)) us) [] [] 0 0 0 0.
(** base.py:29-35 on this object: the proposals are not touched. The ghost field counts since the last reset. *)
Definition pop_base_reset (s : pop) : pop := mkPopS (pop_means s) [] [] 0 0 0 0.
(** dm_ais.py:31-45, layered_ais.py:38-52 reset: the base class, then new proposals (and the model made of them). *)
Definition pop_reset (P : pop_params) (us : list vec) (s : pop) : pop :=
  let b := pop_base_reset s in
  mkPopS (map (uniform_draw (pp_lo P) (pp_hi P)) us) (pop_samples b) (pop_weights b)
         (pop_q_samples b) (pop_q_evals b) (pop_pi_evals b) (pop_qdens b).

(** base.py:151-154 prob on the mixture of dm_ais.py:43-45 (layered_ais.py:50-52): weights 1/N. *)
Definition pop_prob (P : pop_params) (means : list vec) (x : vec) : Q :=
  Qsum (map (fun m => (1 / Qnat (length means)) * pp_comp P m x) means).

(** Random outcomes of one turn of the while loop: k-th draw of proposal j (dm_ais.py:67), the draws of the
    multinomial of proposal j (dm_ais.py:53), displacement and uniform draw of MCMC step l of proposal j
    (layered_ais.py:58, 63), and the clock. *)
Record pop_round := mkPopR {
  pr_draw : nat -> nat -> vec; pr_u : nat -> nat -> Q; pr_mh : nat -> nat -> vec * Q; pr_clock : Q }.

(** dm_ais.py:64-69, layered_ais.py:82-87: K draws of each proposal. [pr_draw r j k] is the draw of the
    proposal with the j-th mean. *)
Definition pop_draws (P : pop_params) (means : list vec) (r : pop_round) : list vec :=
  flat_map (fun j => map (pr_draw r j) (seq 0 (pp_K P))) (seq 0 (length means)).

(** dm_ais.py:72-76, layered_ais.py:90-94: numpy division. *)
Definition pop_weigh (P : pop_params) (pi : vec -> Q) (means : list vec) (xs : list vec) : list (fl Q) :=
  map (fun x => fdivQ (pi x) (pop_prob P means x)) xs.

Definition is_fin {A : Type} (x : fl A) : bool := match x with Fin _ => true | _ => false end.
Definition fin_val (x : fl Q) : Q := match x with Fin a => a | _ => 0 end.

(** dm_ais.py:49: weights / weights.sum(). *)
Definition normalise (ws : list (fl Q)) : list (fl Q) := map (fun w => fdivflQ w (fsumQ ws)) ws.

(** dm_ais.py:47-56 resample: every mean becomes a sample selected by the normalised weights. multinomial
    refuses probabilities that are not numbers. *)
Definition dm_adapt (P : pop_params) (pi : vec -> Q) (r : pop_round) (xs : list vec) (ws : list (fl Q)) (s : pop)
  : outcome pop :=
  let nw := normalise ws in
  if forallb is_fin nw then
    let pv := map fin_val nw in
    Done (mkPopS (map (fun j => nth (multinomial1 pv 1 (pr_u r j) 0) xs []) (seq 0 (length (pop_means s))))
                 (pop_samples s) (pop_weights s) (pop_q_samples s) (pop_q_evals s) (pop_pi_evals s) (pop_qdens s))
  else Failed ValueError s.

(** layered_ais.py:54-68 mcmc_mh: n steps from x; [ev l] are displacement and uniform draw of step l. *)
Fixpoint mcmc_mh (P : pop_params) (pi : vec -> Q) (ev : nat -> vec * Q) (n l : nat) (x : vec) : vec :=
  match n with
  | O => x
  | S m =>
      let x_hat := vclip (vadd x (fst (ev l))) (pp_lo P) (pp_hi P) in
      let ratio := fdivQ (pi x_hat) (pi x) in
      mcmc_mh P pi ev m (S l) (if fgtQ ratio (snd (ev l)) then x_hat else x)
  end.

(** layered_ais.py:70-74 resample with the counters of mcmc_mh (57, 59, 62). *)
Definition lais_adapt (P : pop_params) (pi : vec -> Q) (r : pop_round) (xs : list vec) (ws : list (fl Q)) (s : pop)
  : outcome pop :=
  let n := length (pop_means s) in
  Done (mkPopS (map (fun jm => mcmc_mh P pi (pr_mh r (fst jm)) (pp_L P) 0 (snd jm)) (combine (seq 0 n) (pop_means s)))
               (pop_samples s) (pop_weights s) (pop_q_samples s + n * pp_L P) (pop_q_evals s)
               (pop_pi_evals s + n * (2 * pp_L P)) (pop_qdens s)).

(** Which of the two samplers. *)
Inductive pop_kind := DM | LAIS.
Definition pop_adapt (k : pop_kind) := match k with DM => dm_adapt | LAIS => lais_adapt end.

(** dm_ais.py:63-82, layered_ais.py:81-100: one turn of the while loop. q_evals is not touched by the code.
    Simplified: with N * K = 1 the single new sample is not stacked into a matrix by the code; only
    N * K >= 2 is meant. *)
Definition pop_iter (k : pop_kind) (P : pop_params) (pi : vec -> Q) (r : pop_round) (s : pop) : outcome pop :=
  let xs := pop_draws P (pop_means s) r in
  let ws := pop_weigh P pi (pop_means s) xs in
  let s1 := mkPopS (pop_means s) (pop_samples s) (pop_weights s) (pop_q_samples s + length xs) (pop_q_evals s)
                   (pop_pi_evals s + length xs) (pop_qdens s + length xs * length (pop_means s)) in
  match pop_adapt k P pi r xs ws s1 with
  | Done s2 => Done (mkPopS (pop_means s2) (pop_samples s2 ++ xs) (pop_weights s2 ++ ws) (pop_q_samples s2)
                            (pop_q_evals s2) (pop_pi_evals s2) (pop_qdens s2))
  | o => o
  end.

(** dm_ais.py:59-84, layered_ais.py:77-102: the while loop. *)
Fixpoint pop_loop (k : pop_kind) (P : pop_params) (pi : vec -> Q) (n : nat) (timeout : Q) (tape : list pop_round)
         (elapsed : Q) (s : pop) : outcome pop :=
  if (length (pop_samples s) <? n)%nat && Qltb elapsed timeout then
    match tape with
    | [] => Running s
    | r :: t => match pop_iter k P pi r s with
                | Done s' => pop_loop k P pi n timeout t (pr_clock r) s'
                | o => o
                end
    end
  else Done s.

(** dm_ais.py:58-86, layered_ais.py:76-104 importance_sample. *)
Definition pop_call (k : pop_kind) (P : pop_params) (pi : vec -> Q) (n : nat) (timeout : Q) (tape : list pop_round)
           (s : pop) : outcome pop := pop_loop k P pi n timeout tape 0 s.
(** dm_ais.py:86, layered_ais.py:104: the returned weights. *)
Definition pop_returned (s : pop) : list (fl Q) := normalise (pop_weights s).

(** base.py:145-149 sample(m) on this object (the model always exists). *)
Definition pop_sample (m : nat) (s : pop) : pop :=
  mkPopS (pop_means s) (pop_samples s) (pop_weights s) (pop_q_samples s + m) (pop_q_evals s) (pop_pi_evals s) (pop_qdens s).

Inductive pop_op :=
| PopCall (pi : vec -> Q) (n : nat) (timeout : Q) (tape : list pop_round)
| PopSample (m : nat)
| PopReset (us : list vec).
Definition pop_run (k : pop_kind) (P : pop_params) (o : pop_op) (s : pop) : outcome pop :=
  match o with
  | PopCall pi n timeout tape => pop_call k P pi n timeout tape s
  | PopSample m => Done (pop_sample m s)
  | PopReset us => Done (pop_reset P us s)
  end.

(** Histories, latest operation first; the flag tells whether the operation returned (true) or raised (false). *)
Inductive pop_reachable (k : pop_kind) (P : pop_params) (us : list vec) : list (pop_op * bool) -> pop -> Prop :=
| pop_init : pop_reachable k P us [] (pop_new P us)
| pop_done o ops s s' :
    pop_reachable k P us ops s -> pop_run k P o s = Done s' -> pop_reachable k P us ((o, true) :: ops) s'
| pop_fail o ops s e s' :
    pop_reachable k P us ops s -> pop_run k P o s = Failed e s' -> pop_reachable k P us ((o, false) :: ops) s'.
