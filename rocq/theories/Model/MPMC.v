(** Model of ais_benchmarks/sampling_methods/m_pmc.py. *)
From Coq Require Import List Bool Arith QArith Reals.
Import ListNotations.
From Verif Require Import Prelude.Py Prelude.QBase Prelude.RBase Model.Base Model.Mixture Model.Population.
Open Scope Q_scope.

Definition mat := list (list Q).

(** np.linalg.det (used by CMultivariateNormal.py:55): expansion along the first row; n is the dimension. *)
Fixpoint drop_col (j : nat) (row : list Q) : list Q :=
  match row, j with [], _ => [] | _ :: r, O => r | a :: r, S i => a :: drop_col i r end.
Fixpoint detn (n : nat) (m : mat) : Q :=
  match n with
  | O => 1
  | S k => match m with
           | [] => 0
           | row :: rest =>
               Qsum (map (fun j => (if Nat.even j then 1 else - (1)) * nth j row 0 * detn k (map (drop_col j) rest)) (seq 0 n))
           end
  end.

(** m_pmc.py:25-29. [mp_comp mean cov x] is the density of a Gaussian proposal (CMultivariateNormal.prob).
    Simplified: its values, and those of the target, are abstract rationals; J is never read. *)
Record mp_params := mkMpP {
  mp_lo : vec; mp_hi : vec; mp_N : nat; mp_K : nat; mp_sigma : Q; mp_comp : vec -> mat -> vec -> Q }.
Definition mp_dims (P : mp_params) : nat := length (mp_hi P).

(** m_pmc.py:30-51: proposals (mean and covariance), wproposals, the weights of the mixture model and the fields
    of base.py. [mp_dead] is set when a batch had no positive weight: means, covariances and mixture weights
    of the code are then NaN or zero and are not represented. *)
Record mp := mkMp {
  mp_props : list (vec * mat); mp_alpha : list Q; mp_mixw : list Q;
  mp_samples : list vec; mp_weights : list (fl Q);
  mp_q_samples : nat; mp_q_evals : nat; mp_pi_evals : nat; mp_dead : bool }.

(** np.diag of a constant vector (m_pmc.py:43, 72). *)
Definition diag_const (n : nat) (c : Q) : mat :=
  map (fun i => map (fun j => if (i =? j)%nat then c else 0) (seq 0 n)) (seq 0 n).

(** m_pmc.py:25-51 construction; [us] are the N unit draws of the centres. *)
Definition mp_new (P : mp_params) (us : list vec) : mp :=
  mkMp (map (fun u => (uniform_draw (mp_lo P) (mp_hi P) u, diag_const (mp_dims P) (mp_sigma P))) us)
       (repeat (1 / Qnat (mp_N P)) (mp_N P)) (repeat (1 / Qnat (mp_N P)) (mp_N P)) [] [] 0 0 0 false.
(** base.py:29-35 on this object: proposals and mixture weights are not touched. *)
Definition mp_base_reset (s : mp) : mp := mkMp (mp_props s) (mp_alpha s) (mp_mixw s) [] [] 0 0 0 (mp_dead s).
(** m_pmc.py:35-51 reset: the base class, then new proposals (38-44), wproposals (47) and the model (50), whose
    weights are those of wproposals; all are numbers again. *)
Definition mp_reset (P : mp_params) (us : list vec) (s : mp) : mp :=
  let b := mp_base_reset s in
  let w := repeat (1 / Qnat (mp_N P)) (mp_N P) in
  mkMp (map (fun u => (uniform_draw (mp_lo P) (mp_hi P) u, diag_const (mp_dims P) (mp_sigma P))) us) w w
       (mp_samples b) (mp_weights b) (mp_q_samples b) (mp_q_evals b) (mp_pi_evals b) false.

(** The density of the mixture at x (m_pmc.py:95, CMixtureModel.py:43-57) as exponential of log_prob. *)
Definition mp_mix (P : mp_params) (s : mp) (x : vec) : Q :=
  Qsum (map2 (fun w p => w * mp_comp P (fst p) (snd p) x) (mp_mixw s) (mp_props s)).

(** m_pmc.py:94-96 and 103-105: exp(pi_x - q_x) and exp(log(alpha_d) + q_d - q_x), written as quotients; the two
    definitions over the reals below are the code's, and the properties file shows the agreement. *)
Definition mp_raw (P : mp_params) (pi : vec -> Q) (s : mp) (x : vec) : Q := pi x / mp_mix P s x.
Definition mp_rho (P : mp_params) (s : mp) (d : nat) (x : vec) : Q :=
  let p := nth d (mp_props s) ([], []) in nth d (mp_alpha s) 0 * mp_comp P (fst p) (snd p) x / mp_mix P s x.
Definition mp_raw_R (log_pi log_q : fl R) : fl R := fexp (fsubR log_pi log_q).
Definition mp_rho_R (alpha : R) (log_qd log_q : fl R) : fl R := fexp (fsubR (faddR (fln (Fin alpha)) log_qd) log_q).

(** m_pmc.py:61: the new mean for weights [ws] and posteriors [rd]; [a] is the new alpha_d. *)
Definition mp_mu (n : nat) (xs : list vec) (ws rd : list Q) (a : Q) : vec :=
  map (fun c => Qsum (map2 (fun x wr => wr * nth c x 0) xs (map2 Qmult ws rd)) / a) (seq 0 n).
(** m_pmc.py:64: (samples - mu).T @ (samples - mu). *)
Definition mp_scatter (n : nat) (xs : list vec) (mu : vec) : mat :=
  map (fun i => map (fun j => Qsum (map (fun x => (nth i x 0 - nth i mu 0) * (nth j x 0 - nth j mu 0)) xs)) (seq 0 n)) (seq 0 n).
(** m_pmc.py:65-68. *)
Definition mp_cov (K : nat) (ws rd : list Q) (a : Q) (cov_val : mat) : mat :=
  map (map (fun v => Qsum (map (fun i => nth i ws 0 * nth i rd 0 * v) (seq 0 K)) / a)) cov_val.
(** m_pmc.py:71-72: the failsafe. Entries are numbers here (the new alpha_d is positive, as proved). *)
Definition mp_failsafe (n : nat) (cov : mat) : mat :=
  if existsb (existsb (fun v => Qltb 10 v)) cov then diag_const n 10 else cov.

(** m_pmc.py:55-74: the loop over the proposals; the flag is false when set_moments
    (CMultivariateNormal.py:55-56) refused a covariance. wproposals is updated in place on the way. *)
Fixpoint mp_adapt (P : mp_params) (xs : list vec) (ws : list Q) (rho : nat -> list Q) (ds : list nat)
         (alpha : list Q) (props : list (vec * mat)) : list Q * list (vec * mat) * bool :=
  match ds with
  | [] => (alpha, props, true)
  | d :: r =>
      let rd := rho d in
      let a := Qsum (map2 Qmult ws rd) in
      let alpha1 := upd alpha d a in
      let mu := mp_mu (mp_dims P) xs ws rd a in
      let cov := mp_failsafe (mp_dims P) (mp_cov (mp_K P) ws rd a (mp_scatter (mp_dims P) xs mu)) in
      if Qltb 0 (detn (mp_dims P) cov) then mp_adapt P xs ws rho r alpha1 (upd props d (mu, cov))
      else (alpha1, props, false)
  end.

(** Random outcomes of a turn of the loop: selector draws and component draws of the k-th sample, clock. *)
Record mp_round := mkMpR { mr_us : nat -> nat -> Q; mr_draw : nat -> nat -> vec; mr_clock : Q }.

(** m_pmc.py:85-114: one turn. *)
Definition mp_iter (P : mp_params) (pi : vec -> Q) (r : mp_round) (s : mp) : outcome mp :=
  match mixture_sample (mp_mixw s) (mp_K P) (mr_us r) (mr_draw r) with
  | Raise e => Failed e s
  | Ok xs =>
      let raw := map (mp_raw P pi s) xs in
      let rho d := map (mp_rho P s d) xs in
      let qs := (mp_q_samples s + mp_K P)%nat in
      let qe := (mp_q_evals s + mp_K P * (1 + mp_N P))%nat in
      let pe := (mp_pi_evals s + mp_K P)%nat in
      if Qeq_bool (Qsum raw) 0 then
        Done (mkMp (mp_props s) (mp_alpha s) (mp_mixw s) (mp_samples s ++ xs) (mp_weights s ++ map (fun _ => NaN) xs)
                   qs qe pe true)
      else
        let ws := map (fun w => w / Qsum raw) raw in
        match mp_adapt P xs ws rho (seq 0 (mp_N P)) (mp_alpha s) (mp_props s) with
        | (alpha, props, true) =>
            let alpha' := map (fun a => a / Qsum alpha) alpha in
            let mixw := match set_weights (mp_N P) (map Fin alpha') with Ok l => map fin_val l | Raise _ => [] end in
            Done (mkMp props (map fin_val (zeroed (map Fin alpha'))) mixw (mp_samples s ++ xs) (mp_weights s ++ map Fin ws)
                       qs qe pe false)
        | (alpha, props, false) =>
            Failed AssertionError (mkMp props alpha (mp_mixw s) (mp_samples s) (mp_weights s) qs qe pe false)
        end
  end.

(** m_pmc.py:84-116: the while loop. What the code does once the mixture is NaN is not modelled: the loop is
    then reported as still running. *)
Fixpoint mp_loop (P : mp_params) (pi : vec -> Q) (n : nat) (timeout : Q) (tape : list mp_round) (elapsed : Q) (s : mp)
  : outcome mp :=
  if (length (mp_samples s) <? n)%nat && Qltb elapsed timeout then
    if mp_dead s then Running s else
    match tape with
    | [] => Running s
    | r :: t => match mp_iter P pi r s with
                | Done s' => mp_loop P pi n timeout t (mr_clock r) s'
                | o => o
                end
    end
  else Done s.

(** m_pmc.py:80-118 importance_sample; it returns the samples and weights of the final state as they are. *)
Definition mp_call (P : mp_params) (pi : vec -> Q) (n : nat) (timeout : Q) (tape : list mp_round) (s : mp) : outcome mp :=
  mp_loop P pi n timeout tape 0 s.

(** base.py:145-149 sample(m). *)
Definition mp_sample (m : nat) (s : mp) : mp :=
  mkMp (mp_props s) (mp_alpha s) (mp_mixw s) (mp_samples s) (mp_weights s) (mp_q_samples s + m) (mp_q_evals s)
       (mp_pi_evals s) (mp_dead s).

Inductive mp_op :=
| MpCall (pi : vec -> Q) (n : nat) (timeout : Q) (tape : list mp_round)
| MpSample (m : nat)
| MpReset (us : list vec).
Definition mp_run (P : mp_params) (o : mp_op) (s : mp) : outcome mp :=
  match o with
  | MpCall pi n timeout tape => mp_call P pi n timeout tape s
  | MpSample m => Done (mp_sample m s)
  | MpReset us => Done (mp_reset P us s)
  end.

(** Histories, latest operation first; the flag tells whether the operation returned. *)
Inductive mp_reachable (P : mp_params) (us : list vec) : list (mp_op * bool) -> mp -> Prop :=
| mp_init : mp_reachable P us [] (mp_new P us)
| mp_done o ops s s' : mp_reachable P us ops s -> mp_run P o s = Done s' -> mp_reachable P us ((o, true) :: ops) s'
| mp_fail o ops s e s' : mp_reachable P us ops s -> mp_run P o s = Failed e s' -> mp_reachable P us ((o, false) :: ops) s'.
