(** Model of ais_benchmarks/distributions/mixture/CMixtureModel.py. *)
From Coq Require Import List Bool Arith QArith Reals Qreals.
Import ListNotations.
From Verif Require Import Prelude.Py Prelude.QBase Prelude.RBase.
Open Scope Q_scope.

(** CMixtureModel.py:29: the mask [isnan(weights) or weights <= 0]. *)
Definition bad_weight (w : fl Q) : bool :=
  match w with Fin a => Qle_bool a 0 | PInf => false | NInf => true | NaN => true end.

(** [x <= 0] for a float. *)
Definition fnonpos (x : fl Q) : bool :=
  match x with Fin a => Qle_bool a 0 | PInf => false | NInf => true | NaN => false end.

(** CMixtureModel.py:33: the array passed in, after the masked entries were overwritten (in place, so
    also seen by the caller of set_weights). *)
Definition zeroed (weights : list (fl Q)) : list (fl Q) :=
  map (fun w => if bad_weight w then Fin 0 else w) weights.

(** CMixtureModel.py:25-41 set_weights on a mixture with [n] components: the new value of
    self.weights. *)
Definition set_weights (n : nat) (weights : list (fl Q)) : res (list (fl Q)) :=
  if negb (n =? length weights)%nat then Raise AssertionError
  else let w := zeroed weights in
       let s := fsumQ w in
       if fnonpos s then Ok w
       else Ok (map (fun x => fdivflQ x s) w).

(** np.random.multinomial(1, pvals) (used by CMixtureModel.py:83) as numpy computes it: category j is
    taken with a Bernoulli draw of probability pvals[j] / (what is left of 1); the last category gets
    the rest. [u j] is the uniform draw in [0,1) that decides category j. Returns the position of the one,
    which is what np.argmax finds. *)
Fixpoint multinomial1 (ws : list Q) (left : Q) (u : nat -> Q) (j : nat) : nat :=
  match ws with
  | [] => j
  | [_] => j
  | p :: r => if Qltb (u j) (p / left) then j else multinomial1 r (left - p) u (S j)
  end.

(** CMixtureModel.py:79-89 sample. [us k] are the draws of the selector at the k-th iteration and
    [draw k i] is what component i returns for it. With no component multinomial and argmax fail;
    modelled as ValueError. Simplified: a component's sample(1) is one row. *)
Definition mixture_sample {X : Type} (ws : list Q) (n : nat) (us : nat -> nat -> Q)
           (draw : nat -> nat -> X) : res (list X) :=
  match ws, n with
  | _, O => Ok []
  | [], _ => Raise ValueError
  | _, _ => Ok (map (fun k => draw k (multinomial1 ws 1 (us k) 0)) (seq 0 n))
  end.

Open Scope R_scope.

(** np.finfo(float64).min, CMixtureModel.py:74. *)
Definition finfo_min : R := - ((2 - / 2 ^ 52) * 2 ^ 1023).

(** CMixtureModel.py:59-77 prob for one row whose component log densities are [ls]; [ws] are the stored
    weights. *)
Definition mixture_prob (ls : list (fl R)) (ws : list Q) : fl R :=
  let s := fsumR (map2 (fun l w => fmulR (fexp l) (Fin (Q2R w))) ls ws) in
  match s with
  | Fin a => if Rltb a finfo_min then Fin finfo_min else s
  | NInf => Fin finfo_min
  | _ => s
  end.

(** scipy.special.logsumexp(a, b=b) over one column (called at CMixtureModel.py:56): entries with zero
    b are replaced by -inf, the largest entry is subtracted (zero if it is not finite). *)
Definition logsumexp (a : list (fl R)) (b : list Q) : fl R :=
  let a1 := map2 (fun x w => if Qeq_bool w 0 then NInf else x) a b in
  let m := fold_right fmaxR NInf a1 in
  let m0 := match m with Fin r => r | _ => 0 end in
  let s := fsumR (map2 (fun x w => fmulR (Fin (Q2R w)) (fexp (fsubR x (Fin m0)))) a1 b) in
  faddR (fln s) (Fin m0).

(** CMixtureModel.py:43-57 log_prob for one row. *)
Definition mixture_log_prob (ls : list (fl R)) (ws : list Q) : fl R := logsumexp ls ws.

(** CMixtureModel.py:53-57, 69-77: a batch, one result per row; [models] are the components' log_prob. *)
Definition mixture_prob_batch {X : Type} (models : list (X -> fl R)) (ws : list Q) (rows : list X) : list (fl R) :=
  map (fun x => mixture_prob (map (fun m => m x) models) ws) rows.
Definition mixture_log_prob_batch {X : Type} (models : list (X -> fl R)) (ws : list Q) (rows : list X) : list (fl R) :=
  map (fun x => mixture_log_prob (map (fun m => m x) models) ws) rows.
