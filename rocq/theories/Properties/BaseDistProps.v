(** C15 and C16: density and log density through the base class, ABC targets. *)
From Coq Require Import List Bool Arith Lia QArith Reals Lra.
Import ListNotations.
From Verif Require Import Prelude.Py Prelude.QBase Prelude.RBase Model.Shape Model.DistBase Spec.DensitySpec.
Open Scope R_scope.

Lemma log_of_exp l : log_value l -> log_of l (density_of l).
Proof.
  destruct l; simpl; try tauto; intros _; [left|right; auto]. split; [apply exp_pos|now rewrite ln_exp].
Qed.
Lemma fexp_density l : log_value l -> fexp l = Fin (density_of l).
Proof. destruct l; simpl; tauto. Qed.
Lemma fln_log d : 0 <= d -> log_of (fln (Fin d)) d.
Proof.
  intros H. unfold log_of, fln, Rltb, Reqb. destruct (Rlt_dec 0 d); [now left|]. right.
  assert (d = 0) as -> by lra. destruct (Req_EM_T 0 0); [auto|lra].
Qed.

(** From a log likelihood whose values are numbers or -infinity: prob and log_prob agree on every batch
    of the right shape. *)
Theorem C15_from_log_likelihood : forall (X : Type) dims (lf : lik (X := X)) rows,
  Forall log_value (lf rows) ->
  exists ps ls, base_prob dims None (Some lf) (Arr2 dims rows) = Ok ps /\
    base_log_prob dims None (Some lf) (Arr2 dims rows) = Ok ls /\ ls = lf rows /\
    Forall2 (fun p l => exists d, p = Fin d /\ log_of l d) ps ls.
Proof.
  intros X dims lf rows F. unfold base_prob, base_log_prob, assert_shape. rewrite Nat.eqb_refl. cbn [bind].
  do 2 eexists. split; [reflexivity|]. split; [reflexivity|]. split; [reflexivity|].
  induction F as [|l ls V F IH]; [constructor|]. cbn [map]. constructor; [|exact IH].
  exists (density_of l). split; [now apply fexp_density|now apply log_of_exp].
Qed.

(** From a likelihood with non-negative values. *)
Theorem C15_from_likelihood : forall (X : Type) dims (f : lik (X := X)) rows,
  Forall (fun p => exists d, p = Fin d /\ 0 <= d) (f rows) ->
  exists ps ls, base_prob dims (Some f) None (Arr2 dims rows) = Ok ps /\
    base_log_prob dims (Some f) None (Arr2 dims rows) = Ok ls /\ ps = f rows /\
    Forall2 (fun p l => exists d, p = Fin d /\ log_of l d) ps ls.
Proof.
  intros X dims f rows F. unfold base_prob, base_log_prob, assert_shape. rewrite Nat.eqb_refl. cbn [bind].
  do 2 eexists. split; [reflexivity|]. split; [reflexivity|]. split; [reflexivity|].
  induction F as [|p ps (d & -> & V) F IH]; [constructor|]. cbn [map]. constructor; [|exact IH].
  exists d. split; [reflexivity|now apply fln_log].
Qed.

Example C15_example : Forall log_value ((fun _ : list (list Q) => [Fin (-1); NInf]) [[0%Q]; [1%Q]]) /\
  Forall (fun p => exists d, p = Fin d /\ 0 <= d) ((fun _ : list (list Q) => [Fin 0; Fin 3]) [[0%Q]; [1%Q]]).
Proof. split; repeat constructor; [exists 0|exists 3]; split; auto; lra. Qed.

(** With neither there is no value for any query, and queries of another shape are refused. *)
Theorem C15_no_value : forall (X : Type) dims (f lf : option (lik (X := X))) x,
  (f = None /\ lf = None) \/ (forall rows, x <> Arr2 dims rows) ->
  (exists e, base_prob dims f lf x = Raise e) /\ (exists e, base_log_prob dims f lf x = Raise e).
Proof.
  intros X dims f lf x H. unfold base_prob, base_log_prob, assert_shape. destruct x as [v|w rows|k]; [split; eexists; reflexivity| |split; eexists; reflexivity].
  destruct (Nat.eqb_spec w dims) as [->|N]; [|split; eexists; reflexivity]. cbn [bind].
  destruct H as [[-> ->]|H]; [split; eexists; reflexivity|]. exfalso. now apply (H rows).
Qed.

Example C15_no_value_example : forall rows, @Arr2 Q 3 [[1%Q; 2%Q; 3%Q]] <> Arr2 2 rows.
Proof. discriminate. Qed.

Lemma abc_history {Z O : Type} (s : abc Z O) os o :
  fold_left abc_condition (os ++ [o]) s = mkAbc (abc_lik s) (abc_loglik s) (abc_prior s) (Some o).
Proof.
  rewrite fold_left_app. simpl. unfold abc_condition at 1. revert s. induction os as [|o' os IH]; intros s; simpl; [reflexivity|].
  now rewrite (IH (abc_condition s o')).
Qed.

(** A target with a surrogate of either form answers density queries exactly when at least one
    observation was given before, both ways of asking alike and whatever the query and the simulator are. *)
Theorem C16_answers_iff_conditioned : forall (Z O : Type) lik loglik prior os (sim : nat -> Z -> O) zs,
  lik <> None \/ loglik <> None ->
  let s := fold_left abc_condition os (abc_new lik loglik prior) in
  ((exists ls, abc_log_prob s sim zs = Ok ls) <-> os <> []) /\
  ((exists ps, abc_prob s sim zs = Ok ps) <-> os <> []).
Proof.
  intros Z O lik loglik prior os sim zs H s. unfold s. clear s.
  assert (C : os = [] \/ exists os' o, os = os' ++ [o]).
  { destruct os as [|o os]; [now left|]. right.
    destruct (@exists_last _ (o :: os)) as (os' & o' & E); [discriminate|eauto]. }
  destruct C as [->|(os' & o & ->)].
  - split; (split; [intros [? E]; discriminate|intros E; now contradict E]).
  - assert (N : os' ++ [o] <> []) by (intros E; now apply app_eq_nil in E as [_ E]).
    rewrite abc_history. unfold abc_log_prob, abc_prob, abc_new. cbn [abc_obs abc_lik abc_loglik].
    split; (split; [intros _; exact N|intros _]); (destruct loglik; [eauto|destruct lik; [eauto|tauto]]).
Qed.

(** The surrogate given as a log likelihood: after any history of observations ending with [o], log
    density = surrogate + prior, and the density is its exponential. *)
Theorem C16_log_surrogate : forall (Z O : Type) (s : abc Z O) g os o sim zs,
  abc_loglik s = Some g ->
  Forall (fun kz => log_value (g o (sim (fst kz) (snd kz))) /\ log_value (abc_prior s (snd kz))) (combine (seq 0 (length zs)) zs) ->
  let s' := fold_left abc_condition (os ++ [o]) s in
  exists ls ps, abc_log_prob s' sim zs = Ok ls /\ abc_prob s' sim zs = Ok ps /\
    length ls = length zs /\
    Forall2 (fun kz l => l = faddR (g o (sim (fst kz) (snd kz))) (abc_prior s (snd kz))) (combine (seq 0 (length zs)) zs) ls /\
    Forall2 (fun l p => exists d, p = Fin d /\ log_of l d) ls ps.
Proof.
  intros Z O s g os o sim zs G F s'. unfold s'. rewrite abc_history. unfold abc_log_prob, abc_prob. simpl. rewrite G.
  do 2 eexists. split; [reflexivity|]. split; [reflexivity|]. split; [rewrite map_length, combine_length, seq_length; lia|].
  induction F as [|kz l [V W] F [IH1 IH2]]; [split; constructor|]. cbn [map].
  set (a := g o (sim (fst kz) (snd kz))) in *. set (b := abc_prior s (snd kz)) in *.
  assert (E : faddR (faddR a b) (Fin 0) = faddR a b).
  { destruct a, b; simpl in *; try tauto. now rewrite Rplus_0_r. }
  rewrite E. split; constructor; auto.
  assert (LV : log_value (faddR a b)) by (destruct a, b; simpl in *; tauto).
  exists (density_of (faddR a b)). split; [now apply fexp_density|now apply log_of_exp].
Qed.

(** The surrogate given as a likelihood: log density = log surrogate + prior, and again the density is its
    exponential. *)
Theorem C16_likelihood_surrogate : forall (Z O : Type) (s : abc Z O) g os o sim zs,
  abc_loglik s = None -> abc_lik s = Some g ->
  Forall (fun kz => (exists d, g o (sim (fst kz) (snd kz)) = Fin d /\ 0 <= d) /\ log_value (abc_prior s (snd kz))) (combine (seq 0 (length zs)) zs) ->
  let s' := fold_left abc_condition (os ++ [o]) s in
  exists ls ps, abc_log_prob s' sim zs = Ok ls /\ abc_prob s' sim zs = Ok ps /\
    length ls = length zs /\
    Forall2 (fun kz l => exists a d, g o (sim (fst kz) (snd kz)) = Fin d /\ log_of a d /\ l = faddR a (abc_prior s (snd kz)))
      (combine (seq 0 (length zs)) zs) ls /\
    Forall2 (fun l p => exists d, p = Fin d /\ log_of l d) ls ps.
Proof.
  intros Z O s g os o sim zs GN G F s'. unfold s'. rewrite abc_history. unfold abc_log_prob, abc_prob. simpl. rewrite GN, G.
  do 2 eexists. split; [reflexivity|]. split; [reflexivity|]. split; [rewrite map_length, combine_length, seq_length; lia|].
  induction F as [|kz l [(d & V & P) W] F [IH1 IH2]]; [split; constructor|]. cbn [map]. rewrite V.
  pose proof (fln_log d P) as LD. set (a := fln (Fin d)) in *. clearbody a.
  assert (E : faddR (faddR a (abc_prior s (snd kz))) (Fin 0) = faddR a (abc_prior s (snd kz))).
  { destruct LD as [[_ ->]|[_ ->]]; destruct (abc_prior s (snd kz)); simpl in *; try tauto. now rewrite Rplus_0_r. }
  rewrite E. split; constructor; auto.
  - exists a, d. split; [try exact V; reflexivity|]. split; [exact LD|reflexivity].
  - destruct LD as [[D ->]|[-> ->]]; destruct (abc_prior s (snd kz)) as [b| | |]; simpl in *; try tauto.
    + eexists. split; [reflexivity|]. left. rewrite Rplus_0_r. split; [apply Rmult_lt_0_compat; [auto|apply exp_pos]|].
      rewrite ln_mult by (auto; apply exp_pos). now rewrite ln_exp.
    + eexists. split; [reflexivity|]. right. split; [ring|reflexivity].
    + eexists. split; [reflexivity|]. right. split; [ring|reflexivity].
    + eexists. split; [reflexivity|]. right. split; [ring|reflexivity].
Qed.

Example C16_conditioned_example :
  Some (fun o o' : R => Fin (Rabs (o - o'))) <> None \/ @None (R -> R -> fl R) <> None.
Proof. left. discriminate. Qed.

Example C16_example : let s := mkAbc (Z := R) (O := R) (Some (fun o o' => Fin (Rabs (o - o')))) None (fun z => Fin (- z)) None in
  abc_loglik s = None /\
  Forall (fun kz => (exists d, (fun o o' => Fin (Rabs (o - o'))) 1 (snd kz) = Fin d /\ 0 <= d) /\ log_value (abc_prior s (snd kz)))
    (combine (seq 0 2) [3; 4]).
Proof.
  split; [reflexivity|]. repeat apply Forall_cons; [| |apply Forall_nil]; split; simpl; auto; eexists; (split; [reflexivity|apply Rabs_pos]).
Qed.

Print Assumptions C15_from_log_likelihood.
Print Assumptions C15_from_likelihood.
Print Assumptions C15_no_value.
Print Assumptions C16_answers_iff_conditioned.
Print Assumptions C16_log_surrogate.
Print Assumptions C16_likelihood_surrogate.
