(** The same request to M-PMC with the coordinate axes listed in another order. *)
From Coq Require Import List ZArith QArith.
Import ListNotations.
From Verif Require Import Prelude.Py Prelude.QBase Model.Base Model.MPMC Spec.AxesSpec.
Open Scope Q_scope.

Section Axes.
Variables (dm : nat) (sg : list nat).
Notation pt := (relabel dm sg).
(** The same covariance: the entry of two new axes is that of the old axes they are. *)
Definition relabel_mat (v v' : list (list Q)) : Prop :=
  length v = dm /\ Forall (fun row => length row = dm) v /\
  Forall2 (fun i row' => Forall2 (fun j q => q == nth j (nth i v []) 0) sg row') sg v'.
Definition mp_space (P P' : mp_params) : Prop :=
  pt (mp_lo P) (mp_lo P') /\ pt (mp_hi P) (mp_hi P') /\ mp_N P' = mp_N P /\ mp_K P' = mp_K P /\ mp_sigma P' == mp_sigma P /\
  forall m m' v v', pt m m' -> relabel_mat v v' -> same_density dm sg (mp_comp P m v) (mp_comp P' m' v').
Definition mp_round_axes (r r' : mp_round) : Prop :=
  (forall j i, mr_us r' j i = mr_us r j i) /\ (forall k j, pt (mr_draw r k j) (mr_draw r' k j)) /\ mr_clock r' = mr_clock r.
Definition mp_axes (N : nat) (o o' : mp_op * bool) : Prop :=
  snd o' = snd o /\
  match fst o, fst o' with
  | MpCall pi n t tape, MpCall pi' n' t' tape' => same_density dm sg pi pi' /\ n' = n /\ t' = t /\ Forall2 mp_round_axes tape tape'
  | MpSample m, MpSample m' => m' = m
  | MpReset us, MpReset us' => Forall2 pt us us' /\ length us = N
  | _, _ => False
  end.
End Axes.
