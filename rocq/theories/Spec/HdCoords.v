(** The same request to HiDaisee in other coordinates. *)
From Coq Require Import List ZArith QArith.
Import ListNotations.
From Verif Require Import Prelude.Py Prelude.QBase Model.HiDaisee Spec.UnitsSpec Spec.AxesSpec.
Open Scope Q_scope.

(** The box is described in the new coordinates; the parameters that are no lengths are the same. *)
Definition hd_box (R : list Q -> list Q -> Prop) (P P' : hd_params) : Prop :=
  R (hp_lo P) (hp_lo P') /\ R (hp_hi P) (hp_hi P') /\ (forall t n, hp_boost P' t n == hp_boost P t n) /\ hp_nmin P' = hp_nmin P /\ hp_ess P' == hp_ess P.
(** Another origin and another unit: all random numbers are the same. The dimension to split is one of them. *)
Definition hd_units (a : Q) (b : list Q) (o o' : hd_op * bool) : Prop :=
  snd o' = snd o /\
  match fst o, fst o' with
  | HdCall pi n rds, HdCall pi' n' rds' => redensity a b pi pi' /\ n' = n /\ rds' = rds /\ forall t, (hr_dim (rds t) < length b)%nat
  | HdSample n, HdSample n' => n' = n
  | HdReset, HdReset => True
  | _, _ => False
  end.
(** Another order of the axes: every axis has its unit draw, and the dimension to split is the same axis. *)
Definition hround_axes (dm : nat) (sg : list nat) (r r' : hround) : Prop :=
  (forall j, hr_pick r' j = hr_pick r j) /\ (forall k, (k < dm)%nat -> hr_draw r' k == hr_draw r (nth k sg 0%nat)) /\
  (hr_dim r' < dm)%nat /\ hr_dim r = nth (hr_dim r') sg 0%nat.
Definition hd_axes (dm : nat) (sg : list nat) (o o' : hd_op * bool) : Prop :=
  snd o' = snd o /\
  match fst o, fst o' with
  | HdCall pi n rds, HdCall pi' n' rds' => same_density dm sg pi pi' /\ n' = n /\ forall t, hround_axes dm sg (rds t) (rds' t)
  | HdSample n, HdSample n' => n' = n
  | HdReset, HdReset => True
  | _, _ => False
  end.
