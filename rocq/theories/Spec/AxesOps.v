(** The same request to a sampler with the coordinate axes listed in another order: random points and displacements are
    the same ones, every other random number, the clock and the counts are the same numbers. *)
From Coq Require Import List ZArith QArith.
Import ListNotations.
From Verif Require Import Prelude.Py Prelude.QBase Model.Base Model.MetropolisHastings Model.Rejection Model.Nested Model.Population Spec.AxesSpec.
Open Scope Q_scope.

Section Axes.
Variables (dm : nat) (sg : list nat).
Notation pt := (relabel dm sg).

(** * Metropolis-Hastings *)
Definition mh_space (P P' : mh_params) : Prop :=
  pt (mh_lo P) (mh_lo P') /\ pt (mh_hi P) (mh_hi P') /\ mh_steps P' = mh_steps P /\ mh_burnin P' = mh_burnin P /\ mh_kde P' = mh_kde P /\
  same_log dm sg (mh_lq P) (mh_lq P').
Definition attempt_axes (e e' : attempt) : Prop := pt (at_delta e) (at_delta e') /\ at_logu e' = at_logu e /\ at_clock e' = at_clock e.
Definition step_axes (e e' : step_ev) : Prop := se_elapsed e' = se_elapsed e /\ Forall2 attempt_axes (se_attempts e) (se_attempts e').
Definition is_axes (e e' : is_ev) : Prop := Forall2 step_axes (ie_steps e) (ie_steps e') /\ ie_clock e' = ie_clock e.
Definition mh_axes (o o' : mh_op) : Prop :=
  match o, o' with
  | OpReset, OpReset => True
  | OpQuery p, OpQuery p' => p' = p
  | OpSample lp t n tape, OpSample lp' t' n' tape' => same_log dm sg lp lp' /\ t' = t /\ n' = n /\ Forall2 step_axes tape tape'
  | OpIS lp t n tape p, OpIS lp' t' n' tape' p' => same_log dm sg lp lp' /\ t' = t /\ n' = n /\ Forall2 is_axes tape tape' /\ p' = p
  | _, _ => False
  end.

(** * Rejection sampling *)
Definition rej_space (P P' : rej_params) : Prop := same_density dm sg (rj_q P) (rj_q P') /\ rj_scaling P' == rj_scaling P /\ rj_kde P' = rj_kde P.
Definition round_axes (r r' : rej_round) : Prop := (forall i, pt (rr_draw r i) (rr_draw r' i)) /\ (forall i, rr_u r' i = rr_u r i) /\ rr_clock r' = rr_clock r.

(** * Nested sampling *)
Definition redraw_axes (d d' : vec * Q) : Prop := pt (fst d) (fst d') /\ snd d' = snd d.
Definition repl_axes (r r' : repl) : Prop :=
  rp_pick r' = rp_pick r /\ pt (rp_first r) (rp_first r') /\ Forall2 redraw_axes (rp_redraws r) (rp_redraws r').
Definition ns_space (P P' : ns_params) : Prop := pt (ns_lo P) (ns_lo P') /\ pt (ns_hi P) (ns_hi P') /\ ns_kde P' = ns_kde P.
Definition ns_axes (o o' : ns_op) : Prop :=
  match o, o' with
  | NsCall pi n t tape pick, NsCall pi' n' t' tape' pick' => same_density dm sg pi pi' /\ n' = n /\ t' = t /\ Forall2 repl_axes tape tape' /\ pick' = pick
  | NsSample pick m, NsSample pick' m' => pick' = pick /\ m' = m
  | NsQuery pick, NsQuery pick' => pick' = pick
  | NsReset us, NsReset us' => Forall2 pt us us'
  | _, _ => False
  end.
(** * Multi-nested sampling. The clusters, the volumes and the distances are those of the live points, all of them
    in the sampler; they do not depend on the order of the axes. *)
Definition oracle_axes (oc oc' : oracle) : Prop :=
  o_labels oc' = o_labels oc /\ (forall m, o_volume oc' m == o_volume oc m) /\ (forall m m', o_dist oc' m m' == o_dist oc m m').
Definition mn_axes (N : nat) (o o' : mn_op) : Prop :=
  match o, o' with
  | MnCall oc pi n t tape pick, MnCall oc' pi' n' t' tape' pick' => oracle_axes oc oc' /\ (forall k, length (o_labels oc k) = N) /\
      same_density dm sg pi pi' /\ n' = n /\ t' = t /\ Forall2 repl_axes tape tape' /\ pick' = pick
  | MnSample pick m, MnSample pick' m' => pick' = pick /\ m' = m
  | MnQuery pick, MnQuery pick' => pick' = pick
  | MnReset us, MnReset us' => Forall2 pt us us' /\ length us = N
  | _, _ => False
  end.

(** * Deterministic-mixture and layered adaptive importance sampling *)
Definition pop_space (P P' : pop_params) : Prop :=
  pt (pp_lo P) (pp_lo P') /\ pt (pp_hi P) (pp_hi P') /\ pp_N P' = pp_N P /\ pp_K P' = pp_K P /\ pp_L P' = pp_L P /\
  forall m m', pt m m' -> same_density dm sg (pp_comp P m) (pp_comp P' m').
Definition pop_round_axes (r r' : pop_round) : Prop :=
  (forall j k, pt (pr_draw r j k) (pr_draw r' j k)) /\ (forall j i, pr_u r' j i = pr_u r j i) /\
  (forall j l, pt (fst (pr_mh r j l)) (fst (pr_mh r' j l)) /\ snd (pr_mh r' j l) = snd (pr_mh r j l)) /\ pr_clock r' = pr_clock r.
Definition pop_axes (o o' : pop_op * bool) : Prop :=
  snd o' = snd o /\
  match fst o, fst o' with
  | PopCall pi n t tape, PopCall pi' n' t' tape' => same_density dm sg pi pi' /\ n' = n /\ t' = t /\ Forall2 pop_round_axes tape tape'
  | PopSample m, PopSample m' => m' = m
  | PopReset us, PopReset us' => Forall2 pt us us'
  | _, _ => False
  end.

End Axes.
