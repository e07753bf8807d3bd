(** The same requests to a tree sampler in other coordinates. *)
From Coq Require Import List ZArith QArith.
Import ListNotations.
From Verif Require Import Prelude.Py Prelude.QBase Model.Tree Model.TreeSampler Spec.ScaleSpec Spec.UnitsSpec.
Open Scope Q_scope.

(** Two calls return related values, or raise the same exception. *)
Definition result_units {X Y : Type} (T : X -> Y -> Prop) (r : res X) (r' : res Y) : Prop :=
  match r, r' with Ok x, Ok y => T x y | Raise e, Raise e' => e' = e | _, _ => False end.

Section Units.
Variables (a : Q) (b : list Q).
Notation pt := (recoord a b).
(** A draw of the uniform kernel is made of unit numbers, a draw of the normal kernel is a point. *)
Definition draw_units (k : kernel) (u u' : vec) : Prop :=
  match k with Haar => u' = u /\ length u = length b | Normal => pt u u' end.
(** The covariance of a normal kernel is the radius divided by four, not squared: only the origin can be changed. The density
    depends on the displacement from the mean. *)
Definition kernel_units (P P' : tp_params) : Prop :=
  match p_kernel P with
  | Haar => True
  | Normal => a == 1 /\ forall v v' m m' x x', v' == v -> length m = length b -> length m' = length b -> length x = length b -> length x' = length b ->
      (forall i, nth i x' 0 - nth i m' 0 == nth i x 0 - nth i m 0) -> p_nden P' v' m' x' == p_nden P v m x
  end.
Definition tp_space (P P' : tp_params) : Prop :=
  pt (p_lo P) (p_lo P') /\ pt (p_hi P) (p_hi P') /\ p_kernel P' = p_kernel P /\ p_flow P' = p_flow P /\ p_leaf_resampling P' = p_leaf_resampling P /\ p_ess P' = p_ess P /\
  p_nmin P' = p_nmin P /\ p_parallel P' = p_parallel P /\ p_frames P' = p_frames P /\ kernel_units P P'.
Definition tp_round_units (k : kernel) (r r' : tp_round) : Prop :=
  (forall i, rd_key r' i = rd_key r i) /\ (forall i, draw_units k (rd_draw r i) (rd_draw r' i)) /\ (forall i, rd_re r' i = rd_re r i /\ length (rd_re r i) = length b) /\ rd_clock r' = rd_clock r /\
  (forall i j, rd_psel r' i j = rd_psel r i j) /\ (forall i j, draw_units k (rd_pdraw r i j) (rd_pdraw r' i j)) /\
  (forall i j, rd_nsel r' i j = rd_nsel r i j) /\ (forall i j, draw_units k (rd_ndraw r i j) (rd_ndraw r' i j)).
Definition tp_units (k : kernel) (o o' : tp_op * bool) : Prop :=
  snd o' = snd o /\
  match fst o, fst o' with
  | TpCall pi n t u tape, TpCall pi' n' t' u' tape' => redensity a b pi pi' /\ n' = n /\ t' = t /\ draw_units k u u' /\ Forall2 (tp_round_units k) tape tape'
  | TpSample m sel draw, TpSample m' sel' draw' => m' = m /\ (forall i j, sel' i j = sel i j) /\ (forall i j, draw_units k (draw i j) (draw' i j))
  | TpReset, TpReset => True
  | _, _ => False
  end.
(** A returned row: the same point with the same weight. A cell that has not been drawn from yet shows a row of zeros with weight
    zero, in all coordinates. *)
Definition row_units (x y : vec * fl Q) : Prop :=
  times 1 (snd x) (snd y) /\
  (pt (fst x) (fst y) \/ times 1 (snd x) (Fin 0) /\ fst x = repeat 0 (length b) /\ fst y = repeat 0 (length b)).
End Units.
