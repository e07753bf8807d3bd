(** Histories of deterministic mixture AIS and layered AIS. *)
From Coq Require Import List Bool Arith Lia QArith Lqa.
Import ListNotations.
From Verif Require Import Prelude.Py Prelude.QBase Prelude.QFacts Prelude.ListFacts Model.Base Model.Mixture Model.Population
  Spec.Box Spec.PopulationSpec Proofs.MHProofs Proofs.NestedHistory Proofs.PopulationProofs.
Open Scope Q_scope.

(** What can come out of the random number generators, and targets are densities. *)
Definition round_ok (P : pop_params) (r : pop_round) : Prop :=
  (forall j i, 0 <= pr_u r j i < 1) /\
  (forall j l, length (fst (pr_mh r j l)) = length (pp_lo P) /\ 0 <= snd (pr_mh r j l) < 1).
Definition us_ok (P : pop_params) (us : list vec) : Prop :=
  length us = pp_N P /\ Forall (fun u => length u = length (pp_lo P) /\ Forall (fun a => 0 <= a <= 1) u) us.
Definition pop_op_ok (P : pop_params) (o : pop_op) : Prop :=
  match o with
  | PopCall pi n timeout tape => (forall x, 0 <= pi x) /\ Forall (round_ok P) tape
  | PopSample m => True
  | PopReset us => us_ok P us
  end.
Definition pop_params_ok (P : pop_params) : Prop :=
  is_box (pp_lo P) (pp_hi P) /\ (0 < pp_N P)%nat /\ (0 < pp_K P)%nat /\ comp_pos P.

(** Events since the last reset: draws asked for with sample(), and calls that raised. *)
Definition asked (e : pop_op * bool) : bool * nat :=
  match fst e with PopReset _ => (true, 0%nat) | PopSample m => (false, m) | PopCall _ _ _ _ => (false, 0%nat) end.
Definition raised (e : pop_op * bool) : bool * nat :=
  match fst e with PopReset _ => (true, 0%nat) | _ => (false, if snd e then 0%nat else 1%nat) end.

(** Books after t batches. *)
Definition books (k : pop_kind) (P : pop_params) (extra fails t : nat) (s : pop) : Prop :=
  length (pop_means s) = pp_N P /\
  length (pop_samples s) = (t * (pp_N P * pp_K P))%nat /\ length (pop_weights s) = length (pop_samples s) /\
  pop_q_evals s = 0%nat /\ pop_qdens s = ((t + fails) * (pp_N P * pp_K P * pp_N P))%nat /\
  pop_q_samples s = ((t + fails) * dqs k P (pp_N P) + extra)%nat /\
  pop_pi_evals s = ((t + fails) * dps k P (pp_N P))%nat /\
  (k = LAIS -> fails = 0)%nat.

Lemma books_iter k P pi r s extra fails t : books k P extra fails t s ->
  match pop_iter k P pi r s with
  | Done s' => books k P extra fails (S t) s'
  | Failed e s' => books k P extra (S fails) t s'
  | Running _ => False
  end.
Proof.
  intros (M & A & B & C & D & E & F & G). destruct (pop_iter k P pi r s) as [s'|s'|e s'] eqn:Q.
  - destruct (pop_iter_done _ _ _ _ _ _ Q) as (A1 & B1 & M1 & E1 & C1 & F1 & D1). unfold books.
    rewrite A1, B1, !app_length, M1, C1, D1, E1, F1. unfold pop_weigh. rewrite map_length, pop_draws_length, A, B, C, D, E, F, M, A.
    repeat split; auto; try lia.
  - exact (pop_iter_not_running _ _ _ _ _ _ Q).
  - destruct (pop_iter_failed _ _ _ _ _ _ _ Q) as (-> & _ & A1 & B1 & M1 & E1 & C1 & F1 & D1). unfold books.
    rewrite A1, B1, M1, C1, D1, E1, F1, A, B, C, D, E, F, M. unfold dqs, dps. repeat split; auto; try lia; try discriminate.
Qed.

Lemma books_loop k P pi n timeout tape : forall elapsed s extra fails t, books k P extra fails t s ->
  match pop_loop k P pi n timeout tape elapsed s with
  | Done s' => exists t', books k P extra fails t' s'
  | Failed e s' => exists t', books k P extra (S fails) t' s'
  | Running s' => exists t', books k P extra fails t' s'
  end.
Proof.
  induction tape as [|r tp IH]; intros elapsed s extra fails t H; simpl.
  - destruct (_ && _); eauto.
  - destruct (_ && _); eauto. pose proof (books_iter k P pi r s extra fails t H) as B.
    destruct (pop_iter k P pi r s) as [s'|s'|e s']; [exact (IH _ _ _ _ _ B)|tauto|eauto].
Qed.

Lemma books_new k P us : length us = pp_N P -> books k P 0 0 0 (pop_new P us).
Proof. intros H. unfold books, pop_new. simpl. rewrite map_length. repeat split; auto. Qed.

Lemma books_reachable k P us ops s : length us = pp_N P -> Forall (fun e => pop_op_ok P (fst e)) ops ->
  pop_reachable k P us ops s ->
  exists t, books k P (since_reset (map asked ops)) (since_reset (map raised ops)) t s.
Proof.
  intros U O R. induction R as [|o ops s s' R IH E|o ops s e s' R IH E].
  - exists 0%nat. apply books_new; auto.
  - inversion O; subst. destruct (IH H2) as (t & B). destruct o as [pi n timeout tape|m|us']; simpl in *.
    + pose proof (books_loop k P pi n timeout tape 0 s _ _ _ B) as L. unfold pop_call in E. rewrite E in L. auto.
    + inversion E; subst. exists t. destruct B as (b1 & b2 & b3 & b4 & b5 & b6 & b7 & b8). unfold books. simpl. repeat split; auto; lia.
    + inversion E; subst. exists 0%nat. destruct H1. apply (books_new k P us'); auto.
  - inversion O; subst. destruct (IH H2) as (t & B). destruct o as [pi n timeout tape|m|us']; simpl in *; try discriminate.
    pose proof (books_loop k P pi n timeout tape 0 s _ _ _ B) as L. unfold pop_call in E. rewrite E in L. auto.
Qed.

(** ** Weights stay finite and non-negative *)
Definition good_weights (P : pop_params) (s : pop) : Prop :=
  length (pop_means s) = pp_N P /\ exists ws, pop_weights s = map Fin ws /\ Forall (fun w => 0 <= w) ws.

Lemma good_iter k P pi r s : pop_params_ok P -> (forall x, 0 <= pi x) -> good_weights P s ->
  good_weights P (out_state (pop_iter k P pi r s)).
Proof.
  intros (_ & N & K & C) Pi (M & ws & W & F).
  assert (Mn : pop_means s <> []) by (intros E; rewrite E in M; simpl in M; lia).
  destruct (pop_iter k P pi r s) as [s'|s'|e s'] eqn:Q; simpl.
  - destruct (pop_iter_done _ _ _ _ _ _ Q) as (_ & B1 & M1 & _). split; [congruence|].
    rewrite (pop_weigh_fin P pi _ _ C Mn) in B1. rewrite B1, W.
    exists (ws ++ batch_w P pi (pop_means s) (pop_draws P (pop_means s) r)). rewrite map_app. split; auto.
    apply Forall_app. split; auto. apply batch_w_nonneg; auto.
  - destruct (pop_iter_not_running _ _ _ _ _ _ Q).
  - destruct (pop_iter_failed _ _ _ _ _ _ _ Q) as (_ & _ & _ & B1 & M1 & _). split; [congruence|]. exists ws. rewrite B1. auto.
Qed.

(** Invariants kept by construction, sample() and every turn of the loop hold in every history, and at every moment
    of the next operation. *)
Section Inv.
Variables (k : pop_kind) (P : pop_params) (I : pop -> Prop).
Hypothesis I_new : forall us, us_ok P us -> I (pop_new P us).
Hypothesis I_sample : forall m s, I s -> I (pop_sample m s).
Hypothesis I_iter : forall pi r s, (forall x, 0 <= pi x) -> round_ok P r -> I s -> I (out_state (pop_iter k P pi r s)).
Lemma inv_run o s : pop_op_ok P o -> I s -> I (out_state (pop_run k P o s)).
Proof.
  destruct o as [pi n timeout tape|m|us]; simpl; auto.
  - intros [Pi F] H. unfold pop_call. apply (pop_loop_inv_ok k P pi (round_ok P)); auto.
  - intros U _. apply (I_new us U).
Qed.
Lemma inv_reachable us ops s : us_ok P us -> Forall (fun e => pop_op_ok P (fst e)) ops -> pop_reachable k P us ops s -> I s.
Proof.
  intros U O R. induction R as [|o ops s s' R IH E|o ops s e s' R IH E]; auto; inversion O; subst;
    pose proof (inv_run o s H1 (IH H2)) as St; rewrite E in St; auto.
Qed.
End Inv.

Lemma good_new P us : us_ok P us -> good_weights P (pop_new P us).
Proof. intros [L _]. split; simpl; [rewrite map_length; auto|]. exists []. auto. Qed.

Lemma good_reachable k P us ops s : pop_params_ok P -> us_ok P us -> Forall (fun e => pop_op_ok P (fst e)) ops ->
  pop_reachable k P us ops s -> good_weights P s.
Proof.
  intros PO U O R. refine (inv_reachable k P (good_weights P) (good_new P) _ _ us ops s U O R).
  - intros m s0 H. exact H.
  - intros pi r s0 Pi _. apply good_iter; auto.
Qed.

Lemma returned_shares s ws : pop_weights s = map Fin ws -> Forall (fun w => 0 <= w) ws -> Exists (fun w => 0 < w) ws ->
  exists out, pop_returned s = map Fin out /\ shares ws out.
Proof.
  intros W F E. unfold pop_returned. rewrite W. apply Exists_exists in E. destruct E as (a & A & B).
  pose proof (Qsum_pos_in ws a F A B) as H. rewrite (normalise_fin ws H). eauto using shares_norm.
Qed.

(** ** Means of layered AIS *)
Definition means_in (P : pop_params) (s : pop) : Prop := Forall (in_box (pp_lo P) (pp_hi P)) (pop_means s).

Lemma means_in_iter P pi r s : is_box (pp_lo P) (pp_hi P) -> round_ok P r -> means_in P s ->
  means_in P (out_state (pop_iter LAIS P pi r s)).
Proof.
  intros B [_ R] H. unfold means_in in *. simpl. apply Forall_forall. intros m M. apply in_map_iff in M.
  destruct M as ((j & m0) & <- & I). apply in_combine_r in I. rewrite Forall_forall in H. simpl.
  apply mcmc_mh_box; auto. intros l. apply (R j l).
Qed.

Lemma means_in_new P us : is_box (pp_lo P) (pp_hi P) -> us_ok P us -> means_in P (pop_new P us).
Proof.
  intros B [_ F]. unfold means_in. simpl. apply Forall_forall. intros m M. apply in_map_iff in M.
  destruct M as (u & <- & I). rewrite Forall_forall in F. destruct (F u I). apply uniform_draw_box; auto.
Qed.

Lemma means_in_reachable P us ops s o : is_box (pp_lo P) (pp_hi P) -> us_ok P us ->
  Forall (fun e => pop_op_ok P (fst e)) ops -> pop_op_ok P o -> pop_reachable LAIS P us ops s ->
  means_in P s /\ means_in P (out_state (pop_run LAIS P o s)).
Proof.
  intros B U O Oo R.
  assert (X : means_in P s).
  { refine (inv_reachable LAIS P (means_in P) (fun us => means_in_new P us B) _ _ us ops s U O R); intros; auto.
    apply means_in_iter; auto. }
  split; auto. apply (inv_run LAIS P (means_in P)); auto.
  - intros. apply means_in_new; auto.
  - intros. apply means_in_iter; auto.
Qed.

(** ** Runs *)
Lemma run_app {M X : Type} (pi : X -> Q) (dens : M -> X -> Q) size adapt ms xs ws ms1 :
  population_run pi dens size adapt ms xs ws ms1 -> forall xs' ws' ms',
  population_run pi dens size adapt ms1 xs' ws' ms' -> population_run pi dens size adapt ms (xs ++ xs') (ws ++ ws') ms'.
Proof. induction 1; intros; auto. rewrite <- !app_assoc. econstructor; eauto. Qed.

Section Runs.
Variables (k : pop_kind) (P : pop_params) (pi : vec -> Q) (OK : pop_round -> Prop).
Variable (adapt : list vec -> list vec -> list Q -> list vec -> Prop).
Variable (J : pop -> Prop).
Hypothesis comp : comp_pos P.
Hypothesis one : forall r s s', OK r -> pop_means s <> [] -> J s -> pop_iter k P pi r s = Done s' -> J s' /\
  adapt (pop_means s) (pop_draws P (pop_means s) r) (batch_w P pi (pop_means s) (pop_draws P (pop_means s) r)) (pop_means s').
Lemma run_loop_inv n timeout tape : Forall OK tape -> forall elapsed s s', pop_means s <> [] -> J s ->
  pop_loop k P pi n timeout tape elapsed s = Done s' ->
  exists xs ws, pop_samples s' = pop_samples s ++ xs /\ pop_weights s' = pop_weights s ++ map Fin ws /\
    population_run pi (pp_comp P) (length (pop_means s) * pp_K P) adapt (pop_means s) xs ws (pop_means s').
Proof.
  induction 1 as [|r t R F IH]; intros elapsed s s' M In; simpl.
  - destruct (_ && _); intros E; [discriminate|]. assert (s' = s) by congruence. subst.
    exists [], []. simpl. rewrite !app_nil_r. repeat split; auto. constructor.
  - destruct (_ && _); intros E.
    2:{ assert (s' = s) by congruence. subst. exists [], []. simpl. rewrite !app_nil_r. repeat split; auto. constructor. }
    destruct (pop_iter k P pi r s) as [s1|s1|e s1] eqn:Q; try discriminate.
    destruct (one r s s1 R M In Q) as [In1 A].
    destruct (pop_iter_done _ _ _ _ _ _ Q) as (A1 & B1 & M1 & _).
    assert (Mn : pop_means s1 <> []) by (intros Z; rewrite Z in M1; destruct (pop_means s); [congruence|discriminate]).
    destruct (IH _ s1 s' Mn In1 E) as (xs & ws & X1 & W1 & R1). rewrite (pop_weigh_fin P pi _ _ comp M) in B1.
    exists (pop_draws P (pop_means s) r ++ xs), (batch_w P pi (pop_means s) (pop_draws P (pop_means s) r) ++ ws).
    rewrite X1, A1, W1, B1, map_app, !app_assoc. repeat split; auto.
    rewrite M1 in R1. eapply run_batch; eauto.
    + apply pop_draws_length.
    + apply batch_w_spec; auto.
Qed.
End Runs.

Lemma vclip_clipped : forall lo hi x d, is_box lo hi -> length x = length lo -> length d = length lo ->
  clipped_move lo hi x d (vclip (vadd x d) lo hi).
Proof.
  unfold vadd. induction lo as [|l lo IH]; intros [|h hi] [|a x] [|b d] B L1 L2; simpl in *; try tauto; try discriminate.
  destruct B as [B0 B]. split; [|apply IH; auto]. unfold clip1, qmin, qmax.
  destruct (Qle_bool_spec (a + b) l).
  - destruct (Qle_bool_spec l h); [|lra]. destruct (Qlt_le_dec (a + b) l); [left; split; auto; reflexivity|right; left; split; lra].
  - destruct (Qle_bool_spec (a + b) h); [right; left; split; [lra|reflexivity]|right; right; split; [lra|reflexivity]].
Qed.

Lemma fgt_ratio a b u : 0 <= a -> 0 <= b -> 0 <= u -> fgtQ (fdivQ b a) u = true <-> u * a < b.
Proof.
  intros A B U. unfold fdivQ, fgtQ. destruct (Qeq_bool_spec a 0) as [Z|Z].
  - assert (u * a == 0) as -> by (rewrite Z; ring).
    destruct (Qeq_bool_spec b 0); [split; [discriminate|intros; lra]|].
    destruct (Qltb_spec 0 b); [split; auto|split; [discriminate|intros; lra]].
  - assert (P : 0 < a) by lra. rewrite Qltb_true. split; intros H.
    + assert (E : b == b / a * a) by (field; auto). rewrite E. apply Qmult_lt_compat_r; auto.
    + apply Qlt_shift_div_l; auto.
Qed.

Lemma mcmc_walk P (pi : vec -> Q) (ev : nat -> vec * Q) n : is_box (pp_lo P) (pp_hi P) -> (forall x, 0 <= pi x) ->
  (forall l, length (fst (ev l)) = length (pp_lo P) /\ 0 <= snd (ev l) < 1) -> forall l x, length x = length (pp_lo P) ->
  walk pi (pp_lo P) (pp_hi P) (map ev (seq l n)) x (mcmc_mh P pi ev n l x).
Proof.
  intros B Pi D. induction n as [|n IH]; intros l x L; cbn [mcmc_mh seq map]; [constructor|].
  destruct (D l) as [D1 D2]. set (x' := vclip (vadd x (fst (ev l))) (pp_lo P) (pp_hi P)).
  assert (L' : length x' = length (pp_lo P)).
  { apply (in_box_length _ (pp_hi P)). apply vclip_in_box; auto. rewrite vadd_length; congruence. }
  assert (Cm : clipped_move (pp_lo P) (pp_hi P) x (fst (ev l)) x') by (apply vclip_clipped; auto).
  pose proof (fgt_ratio (pi x) (pi x') (snd (ev l)) (Pi x) (Pi x') ltac:(lra)) as G. cbv zeta. fold x'. clearbody x'.
  destruct (fgtQ (fdivQ (pi x') (pi x)) (snd (ev l))); destruct (ev l) as [d a]; simpl in *.
  - refine (walk_move _ _ _ d a _ x x' _ Cm _ (IH _ _ L')). apply G; auto.
  - refine (walk_stay _ _ _ d a _ x x' _ Cm _ (IH _ _ L)). destruct (Qlt_le_dec (a * pi x) (pi x')) as [H|H]; auto.
    apply G in H. discriminate.
Qed.

Lemma walk_pos pi lo hi evs x y : (forall x, 0 <= pi x) -> Forall (fun e => 0 <= snd e < 1) evs ->
  walk pi lo hi evs x y -> 0 < pi x -> 0 < pi y.
Proof.
  intros Pi F W. induction W; auto; inversion F; subst; auto. simpl in *. intros H2. apply IHW; auto.
  assert (0 <= a * pi x) by (apply Qmult_le_0_compat; [apply H3|apply Pi]). lra.
Qed.

Lemma forall2_map_seq {A B : Type} (R : A -> B -> Prop) (f : nat * A -> B) l : forall n,
  (forall j a, In a l -> R a (f (j, a))) -> Forall2 R l (map f (combine (seq n (length l)) l)).
Proof. induction l as [|a l IH]; intros n H; simpl; constructor; [apply H; left; auto|apply IH; intros; apply H; right; auto]. Qed.

(** Calls of the two samplers as runs. *)
Lemma dm_run P pi n timeout tape s s' : pop_params_ok P -> (forall x, 0 <= pi x) -> Forall (round_ok P) tape ->
  pop_means s <> [] -> pop_call DM P pi n timeout tape s = Done s' ->
  exists xs ws, pop_samples s' = pop_samples s ++ xs /\ pop_weights s' = pop_weights s ++ map Fin ws /\
    population_run pi (pp_comp P) (length (pop_means s) * pp_K P) resampled (pop_means s) xs ws (pop_means s').
Proof.
  intros (B & N & K & C) Pi F M E. refine (run_loop_inv DM P pi (round_ok P) resampled (fun _ => True) C _ n timeout tape F 0 s s' M I E).
  clear - K C Pi. intros r s s' [R _] M _ Q. split; auto. split.
  - apply (pop_iter_done _ _ _ _ _ _ Q).
  - apply (dm_iter_means P pi r s s'); auto.
Qed.
Lemma lais_run P pi n timeout tape s s' : pop_params_ok P -> (forall x, 0 <= pi x) -> Forall (round_ok P) tape ->
  pop_means s <> [] -> means_in P s -> pop_call LAIS P pi n timeout tape s = Done s' ->
  exists xs ws, pop_samples s' = pop_samples s ++ xs /\ pop_weights s' = pop_weights s ++ map Fin ws /\
    population_run pi (pp_comp P) (length (pop_means s) * pp_K P) (walked pi (pp_lo P) (pp_hi P) (pp_L P))
      (pop_means s) xs ws (pop_means s').
Proof.
  intros (B & N & K & C) Pi F M In E.
  assert (G : forall r s s', round_ok P r -> pop_means s <> [] -> means_in P s -> pop_iter LAIS P pi r s = Done s' ->
    means_in P s' /\
    walked pi (pp_lo P) (pp_hi P) (pp_L P) (pop_means s) (pop_draws P (pop_means s) r)
      (batch_w P pi (pop_means s) (pop_draws P (pop_means s) r)) (pop_means s')).
  { clear - B Pi. intros r s s' Rr M In Q. split.
    - pose proof (means_in_iter P pi r s B Rr In) as X. rewrite Q in X. auto.
    - destruct Rr as [_ R]. unfold walked. unfold pop_iter, pop_adapt, lais_adapt in Q. inversion Q. simpl.
      apply forall2_map_seq. intros j a A. exists (map (pr_mh r j) (seq 0 (pp_L P))).
      rewrite map_length, seq_length. repeat split.
      + apply Forall_forall. intros e E. apply in_map_iff in E. destruct E as (l & <- & _). apply (R j l).
      + simpl. apply mcmc_walk; auto. unfold means_in in In. rewrite Forall_forall in In.
        apply (in_box_length _ (pp_hi P)); auto. }
  exact (run_loop_inv LAIS P pi (round_ok P) (walked pi (pp_lo P) (pp_hi P) (pp_L P)) (means_in P) C G n timeout tape F 0 s s' M In E).
Qed.
