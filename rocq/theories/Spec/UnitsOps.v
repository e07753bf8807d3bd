(** The same request to a sampler, written in other coordinates: random draws of points are the same points, random
    displacements the same displacements, every other random number, the clock and the counts are the same numbers. *)
From Coq Require Import List ZArith QArith.
Import ListNotations.
From Verif Require Import Prelude.Py Prelude.QBase Model.Base Model.MetropolisHastings Model.Rejection Model.Nested Model.Population Model.MPMC Spec.UnitsSpec.
Open Scope Q_scope.

Section Units.
Variables (a : Q) (b : list Q).
Notation pt := (recoord a b).
Notation disp := (stretch a (length b)).

(** * Metropolis-Hastings *)
Definition mh_space (P P' : mh_params) : Prop :=
  pt (mh_lo P) (mh_lo P') /\ pt (mh_hi P) (mh_hi P') /\ mh_steps P' = mh_steps P /\ mh_burnin P' = mh_burnin P /\ mh_kde P' = mh_kde P /\
  relog_shift a (length b) (mh_lq P) (mh_lq P').
Definition attempt_units (e e' : attempt) : Prop := disp (at_delta e) (at_delta e') /\ at_logu e' = at_logu e /\ at_clock e' = at_clock e.
Definition step_units (e e' : step_ev) : Prop := se_elapsed e' = se_elapsed e /\ Forall2 attempt_units (se_attempts e) (se_attempts e').
Definition is_units (e e' : is_ev) : Prop := Forall2 step_units (ie_steps e) (ie_steps e') /\ ie_clock e' = ie_clock e.
Definition mh_units (o o' : mh_op) : Prop :=
  match o, o' with
  | OpReset, OpReset => True
  | OpQuery p, OpQuery p' => p' = p
  | OpSample lp t n tape, OpSample lp' t' n' tape' => relog a b lp lp' /\ t' = t /\ n' = n /\ Forall2 step_units tape tape'
  | OpIS lp t n tape p, OpIS lp' t' n' tape' p' => relog a b lp lp' /\ t' = t /\ n' = n /\ Forall2 is_units tape tape' /\ p' = p
  | _, _ => False
  end.

(** * Rejection sampling *)
Definition rej_space (P P' : rej_params) : Prop := redensity a b (rj_q P) (rj_q P') /\ rj_scaling P' == rj_scaling P /\ rj_kde P' = rj_kde P.
Definition round_units (r r' : rej_round) : Prop := (forall i, pt (rr_draw r i) (rr_draw r' i)) /\ (forall i, rr_u r' i = rr_u r i) /\ rr_clock r' = rr_clock r.

(** * Nested sampling *)
Definition redraw_units (rel : vec -> vec -> Prop) (d d' : vec * Q) : Prop := rel (fst d) (fst d') /\ snd d' = snd d.
(** In nested.py a draw is a displacement, in multi_nested.py a point. *)
Definition repl_units (rel : vec -> vec -> Prop) (r r' : repl) : Prop :=
  rp_pick r' = rp_pick r /\ rel (rp_first r) (rp_first r') /\ Forall2 (redraw_units rel) (rp_redraws r) (rp_redraws r').
Definition ns_space (P P' : ns_params) : Prop := pt (ns_lo P) (ns_lo P') /\ pt (ns_hi P) (ns_hi P') /\ ns_kde P' = ns_kde P.
(** Unit draws have one entry for every coordinate. *)
Definition unit_draws (us : list vec) : Prop := Forall (fun u => length u = length b) us.
Definition ns_units (o o' : ns_op) : Prop :=
  match o, o' with
  | NsCall pi n t tape pick, NsCall pi' n' t' tape' pick' => redensity a b pi pi' /\ n' = n /\ t' = t /\ Forall2 (repl_units disp) tape tape' /\ pick' = pick
  | NsSample pick m, NsSample pick' m' => pick' = pick /\ m' = m
  | NsQuery pick, NsQuery pick' => pick' = pick
  | NsReset us, NsReset us' => us' = us /\ unit_draws us
  | _, _ => False
  end.
(** * Multi-nested sampling. The clusters, the volumes and the distances are those of the live points, all of them
    in the sampler; [v] and [d] say how much volumes and distances grow. *)
Definition oracle_units (v d : Q) (oc oc' : oracle) : Prop :=
  o_labels oc' = o_labels oc /\ (forall m, o_volume oc' m == v * o_volume oc m) /\ (forall m m', o_dist oc' m m' == d * o_dist oc m m').
Definition mn_units (N : nat) (v d : Q) (o o' : mn_op) : Prop :=
  match o, o' with
  | MnCall oc pi n t tape pick, MnCall oc' pi' n' t' tape' pick' => oracle_units v d oc oc' /\ (forall k, length (o_labels oc k) = N) /\
      redensity a b pi pi' /\ n' = n /\ t' = t /\ Forall2 (repl_units pt) tape tape' /\ pick' = pick
  | MnSample pick m, MnSample pick' m' => pick' = pick /\ m' = m
  | MnQuery pick, MnQuery pick' => pick' = pick
  | MnReset us, MnReset us' => us' = us /\ unit_draws us /\ length us = N
  | _, _ => False
  end.

(** * Deterministic-mixture and layered adaptive importance sampling *)
Definition pop_space (P P' : pop_params) : Prop :=
  pt (pp_lo P) (pp_lo P') /\ pt (pp_hi P) (pp_hi P') /\ pp_N P' = pp_N P /\ pp_K P' = pp_K P /\ pp_L P' = pp_L P /\
  forall m m', pt m m' -> redensity a b (pp_comp P m) (pp_comp P' m').
Definition pop_round_units (r r' : pop_round) : Prop :=
  (forall j k, pt (pr_draw r j k) (pr_draw r' j k)) /\ (forall j i, pr_u r' j i = pr_u r j i) /\
  (forall j l, disp (fst (pr_mh r j l)) (fst (pr_mh r' j l)) /\ snd (pr_mh r' j l) = snd (pr_mh r j l)) /\ pr_clock r' = pr_clock r.
Definition pop_units (o o' : pop_op * bool) : Prop :=
  snd o' = snd o /\
  match fst o, fst o' with
  | PopCall pi n t tape, PopCall pi' n' t' tape' => redensity a b pi pi' /\ n' = n /\ t' = t /\ Forall2 pop_round_units tape tape'
  | PopSample m, PopSample m' => m' = m
  | PopReset us, PopReset us' => us' = us /\ unit_draws us
  | _, _ => False
  end.

(** * M-PMC: only the origin is changed, so that covariances are the same *)
Definition mp_space (P P' : mp_params) : Prop :=
  pt (mp_lo P) (mp_lo P') /\ pt (mp_hi P) (mp_hi P') /\ mp_N P' = mp_N P /\ mp_K P' = mp_K P /\ mp_sigma P' == mp_sigma P /\
  forall m m' v v', pt m m' -> Forall2 (Forall2 Qeq) v v' -> redensity a b (mp_comp P m v) (mp_comp P' m' v').
Definition mp_round_units (r r' : mp_round) : Prop :=
  (forall j i, mr_us r' j i = mr_us r j i) /\ (forall k j, pt (mr_draw r k j) (mr_draw r' k j)) /\ mr_clock r' = mr_clock r.
Definition mp_units (N : nat) (o o' : mp_op * bool) : Prop :=
  snd o' = snd o /\
  match fst o, fst o' with
  | MpCall pi n t tape, MpCall pi' n' t' tape' => redensity a b pi pi' /\ n' = n /\ t' = t /\ Forall2 mp_round_units tape tape'
  | MpSample m, MpSample m' => m' = m
  | MpReset us, MpReset us' => us' = us /\ unit_draws us /\ length us = N
  | _, _ => False
  end.
End Units.
