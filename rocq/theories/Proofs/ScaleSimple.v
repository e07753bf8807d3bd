(** Metropolis-Hastings, rejection, nested and multi-nested sampling on scaled targets. *)
From Coq Require Import List Bool Arith Lia QArith Lqa.
Import ListNotations.
From Verif Require Import Prelude.Py Prelude.QBase Prelude.QFacts Model.Base Model.Rejection Model.MetropolisHastings Model.Nested Spec.ScaleSpec Proofs.ScaleBase.
Open Scope Q_scope.

Section MH.
Variables (P : mh_params) (k : Q) (lp lp' : vec -> fl Q).
Hypothesis S : shifted k lp lp'.
Lemma mh_accept_shift x y a : mh_accept P lp' x y a = mh_accept P lp x y a.
Proof.
  unfold mh_accept. assert (T : times 1 (fsubQ (lp y) (lp x)) (fsubQ (lp' y) (lp' x))).
  { pose proof (S x) as A. pose proof (S y) as B. destruct (lp x), (lp' x), (lp y), (lp' y); simpl in *; try tauto. rewrite A, B. ring. }
  apply (times_lt 1); [reflexivity|apply times_refl|apply times_add; [exact T|apply times_refl]].
Qed.
Lemma mh_step_shift timeout x_old tape : forall acc el x_new s, mh_step_loop P lp' timeout x_old tape acc el x_new s = mh_step_loop P lp timeout x_old tape acc el x_new s.
Proof.
  induction tape as [|a t IH]; intros acc el x_new s; simpl; auto. rewrite mh_accept_shift. now rewrite IH.
Qed.
Lemma mh_advance_shift timeout lab tape s : mh_advance P lp' timeout lab tape s = mh_advance P lp timeout lab tape s.
Proof. unfold mh_advance, mcmc_step. now rewrite mh_step_shift. Qed.
Lemma mh_steps_shift timeout n : forall tape s, mh_steps_n P lp' timeout n tape s = mh_steps_n P lp timeout n tape s.
Proof.
  induction n as [|n IH]; intros [|e t] s; simpl; auto. rewrite mh_advance_shift. destruct (mh_advance _ _ _ _ _ _); auto.
Qed.
Lemma mcmc_shift timeout n : forall tape s acc, mcmc P lp' timeout n tape s acc = mcmc P lp timeout n tape s acc.
Proof.
  induction n as [|n IH]; intros tape s acc; simpl; auto. rewrite mh_steps_shift. destruct (mh_steps_n _ _ _ _ _ _) as [[s1|s1|e s1] t1]; auto.
  destruct (set_last (mh_types s1) SAMPLE); auto.
Qed.
Lemma mh_burn_shift n : forall tape s, mh_burn P lp' n tape s = mh_burn P lp n tape s.
Proof. induction n as [|n IH]; intros [|e t] s; simpl; auto. rewrite mh_advance_shift. destruct (mh_advance _ _ _ _ _ _); auto. Qed.
Lemma mh_sample_loop_shift timeout n k0 : forall tape s acc, mh_sample_loop P lp' timeout n k0 tape s acc = mh_sample_loop P lp timeout n k0 tape s acc.
Proof. induction k0 as [|m IH]; intros tape s acc; simpl; auto. rewrite mcmc_shift. destruct (mcmc _ _ _ _ _ _ _) as [[[s1|s1|e s1] r1] t1]; auto. Qed.
Lemma mh_sample_shift timeout n tape s : mh_sample P lp' timeout n tape s = mh_sample P lp timeout n tape s.
Proof.
  unfold mh_sample. rewrite !mh_sample_loop_shift. rewrite mh_burn_shift. destruct (mh_is_init s); auto. destruct (mh_burn _ _ _ _ _) as [[s1|s1|e s1] t1]; auto. apply mh_sample_loop_shift.
Qed.
Lemma mh_is_shift timeout n tape : forall el s, mh_is_loop P lp' timeout n tape el s = mh_is_loop P lp timeout n tape el s.
Proof.
  induction tape as [|e t IH]; intros el s; simpl; auto. rewrite mh_sample_shift. destruct (_ && _); auto. destruct (mh_sample _ _ _ _ _ _) as [[[s1|s1|e1 s1] r1] t1]; auto.
Qed.
Lemma mh_call_shift n timeout tape pick s : mh_importance_sample P lp' n timeout tape pick s = mh_importance_sample P lp n timeout tape pick s.
Proof. unfold mh_importance_sample. now rewrite mh_is_shift. Qed.
End MH.

Section Rej.
Variables (P P' : rej_params) (c : Q) (pi pi' : vec -> Q).
Hypothesis C : 0 < c.
Hypothesis S : scaled c pi pi'.
Hypothesis Eq : rj_q P' = rj_q P.
Hypothesis Es : rj_scaling P' == c * rj_scaling P.
Hypothesis Ek : rj_kde P' = rj_kde P.
Lemma rej_accepted_scale r k : rej_accepted P' pi' r k = rej_accepted P pi r k.
Proof.
  unfold rej_accepted. f_equal. apply filter_ext. intros i. apply (times_gt 1); [reflexivity| |ring].
  apply times_k with (c / c); [field; intros E; rewrite E in C; discriminate|]. unfold rej_ratio. apply times_fdivQ; auto. rewrite Eq, Es. ring.
Qed.
Lemma rej_loop_scale n timeout tape : forall el s, rej_loop P' pi' n timeout tape el s = rej_loop P pi n timeout tape el s.
Proof. induction tape as [|r t IH]; intros el s; simpl; auto. rewrite IH. unfold rej_iter. rewrite rej_accepted_scale. reflexivity. Qed.
Lemma rej_call_scale n timeout e0 tape pick s : rej_importance_sample P' pi' n timeout e0 tape pick s = rej_importance_sample P pi n timeout e0 tape pick s.
Proof. unfold rej_importance_sample. rewrite rej_loop_scale. unfold rej_finish. now rewrite Ek. Qed.
End Rej.

(** Nested sampling: everything but the likelihoods is the same. *)
Definition ns_like (c : Q) (s s' : nst) : Prop :=
  ns_live s' = ns_live s /\ ns_view s' = ns_view s /\ ns_rows s' = ns_rows s /\ Forall2 (fun a b => b == c * a) (ns_L s) (ns_L s') /\
  ns_q_samples s' = ns_q_samples s /\ ns_pi_evals s' = ns_pi_evals s /\ ns_model s' = ns_model s /\ ns_seen s' = ns_seen s.
Lemma ns_like_samples c s s' : ns_like c s s' -> ns_samples s' = ns_samples s.
Proof. intros (A & B & D & _). unfold ns_samples. now rewrite A, B, D. Qed.
Ltac ns_open H := let A := fresh "L1" in let B := fresh "L2" in destruct H as (A & B & ?H & ?H & ?H & ?H & ?H & ?H).
Lemma ns_like_append c k l l' s s' : ns_like c s s' -> l' == c * l -> ns_like c (ns_append k l s) (ns_append k l' s').
Proof.
  intros H E. pose proof (ns_like_samples _ _ _ H) as N. unfold ns_append. rewrite N. destruct H as (A & B & D & F & G & H & I & J).
  destruct (ns_samples s); unfold ns_like; simpl; rewrite ?A, ?G, ?H, ?I, ?J; repeat split; auto; apply app_rel; auto.
Qed.
Lemma ns_like_count c pts s s' : ns_like c s s' -> ns_like c (ns_count pts s) (ns_count pts s').
Proof. intros (A & B & D & F & G & H & I & J). unfold ns_like, ns_count; simpl. rewrite A, B, D, G, H, I, J. repeat split; auto. Qed.

Section Nested.
Variables (P : ns_params) (c : Q) (pi pi' : vec -> Q).
Hypothesis C : 0 < c.
Hypothesis S : scaled c pi pi'.
Lemma ns_search_scale cand v v' timeout big tape : v' == c * v -> forall cur el,
  ns_search pi' cand v' timeout big tape cur el = ns_search pi cand v timeout big tape cur el.
Proof.
  intros V. induction tape as [|[d t] r IH]; intros cur el; simpl; rewrite (Qltb_scale c (pi cur) v (pi' cur) v' C (S cur) V); auto.
  now rewrite IH.
Qed.
(** The candidates depend on the live points only. *)
Variable cand : nst -> repl -> vec -> vec.
Hypothesis Cand : forall s s', ns_live s' = ns_live s -> cand s' = cand s.
Definition vals (a b : Q) : Prop := b == c * a.
Lemma ns_iter_scale timeout g big ev s s' v v' : ns_like c s s' -> Forall2 vals v v' ->
  let r := ns_iter P pi timeout g cand big ev s v in let r' := ns_iter P pi' timeout g cand big ev s' v' in
  outs (ns_like c) (fst r) (fst r') /\ Forall2 vals (snd r) (snd r').
Proof.
  intros L V. unfold ns_iter. destruct g as [|g0 g]; [simpl; auto|].
  assert (G : Forall2 vals (map (fun i => nth i v 0) (g0 :: g)) (map (fun i => nth i v' 0) (g0 :: g))).
  { apply map_same. intros i. apply nth_scale. exact V. }
  revert G. generalize (map (fun i => nth i v 0) (g0 :: g)) (map (fun i => nth i v' 0) (g0 :: g)). intros w w' G.
  rewrite (argminQ_scale c w w' C G). rewrite (Cand s s') by (apply L).
  rewrite (ns_search_scale _ (nth (argminQ w) w 0) (nth (argminQ w) w' 0)) by (apply nth_scale; exact G).
  set (k := nth (argminQ w) (g0 :: g) 0%nat). destruct (ns_search _ _ _ _ _ _ _ _) as [[y|] seen].
  - pose proof (ns_like_count c (vclip (cand s ev (rp_first ev)) (ns_lo P) (ns_hi P) :: seen) _ _ (ns_like_append c k _ _ s s' L (nth_scale c w w' (argminQ w) G))) as Q.
    destruct Q as (A & B & D & F & E & H & I & J). split.
    + cbn [fst outs]. unfold ns_like. cbn [ns_live ns_view ns_rows ns_L ns_q_samples ns_pi_evals ns_model ns_seen]. rewrite A, B, D, E, H, I, J. repeat split; auto.
    + cbn [snd]. apply upd_rel; [exact V|apply S].
  - split; [|exact V]. cbn [fst outs]. apply ns_like_count, ns_like_append; auto. apply nth_scale; exact G.
Qed.
Lemma ns_for_scale timeout g big m : forall tape s s' v v', ns_like c s s' -> Forall2 vals v v' ->
  let r := ns_for P pi timeout g cand big m tape s v in let r' := ns_for P pi' timeout g cand big m tape s' v' in
  outs (ns_like c) (fst (fst r)) (fst (fst r')) /\ Forall2 vals (snd (fst r)) (snd (fst r')) /\ snd r' = snd r.
Proof.
  induction m as [|m IH]; intros tape s s' v v' L V; [simpl; auto|]. cbn [ns_for]. destruct tape as [|ev t]; [simpl; auto|].
  pose proof (ns_iter_scale timeout g big ev s s' v v' L V) as H. cbn zeta in H.
  destruct (ns_iter P pi timeout g cand big ev s v) as [o w], (ns_iter P pi' timeout g cand big ev s' v') as [o' w']. cbn [fst snd] in H. destruct H as (H & W).
  destruct o as [s1|s1|e1 s1], o' as [s2|s2|e2 s2]; simpl in H; try tauto; try (apply IH; auto); simpl; auto.
Qed.
End Nested.

Lemma nested_cand_live s s' : ns_live s' = ns_live s -> nested_cand s' = nested_cand s.
Proof. intros E. unfold nested_cand. now rewrite E. Qed.
Lemma ns_finish_scale c P pick s s' : ns_like c s s' -> outs (ns_like c) (ns_finish P pick s) (ns_finish P pick s').
Proof.
  intros L. unfold ns_finish. rewrite (ns_like_samples _ _ _ L). destruct (ns_samples s) eqn:E; [simpl; auto|]. destruct (update_model _ _ _); [|simpl; auto].
  destruct L as (A & B & D & F & G & H & I & J). unfold ns_like. simpl. rewrite A, B, D, G, H, J. repeat split; auto.
Qed.
Lemma ns_begin_scale c s s' : ns_like c s s' -> ns_like c (ns_begin s) (ns_begin s').
Proof. intros (A & B & D & F & G & H & I & J). unfold ns_like, ns_begin; simpl. rewrite A, B, D, G, H, I, J. repeat split; auto. Qed.
Lemma live_values c pi pi' l : scaled c pi pi' -> Forall2 (vals c) (map pi l) (map pi' l).
Proof. intros S. apply map_same. exact S. Qed.

Lemma nested_call_scale c P pi pi' n timeout tape pick s s' : 0 < c -> scaled c pi pi' -> ns_like c s s' ->
  outs (ns_like c) (nested_call P pi n timeout tape pick s) (nested_call P pi' n timeout tape pick s').
Proof.
  intros C S L. unfold nested_call. rewrite (ns_like_samples _ _ _ L). replace (ns_live s') with (ns_live s) by (symmetry; apply L).
  pose proof (ns_for_scale P c pi pi' C S nested_cand nested_cand_live timeout (seq 0 (length (ns_live s))) true (n - length (ns_samples s)) tape _ _ _ _
    (ns_begin_scale c s s' L) (live_values c pi pi' (ns_live s) S)) as H. cbn zeta in H.
  destruct (ns_for P pi _ _ _ _ _ _ _ _) as [[o w] t], (ns_for P pi' _ _ _ _ _ _ _ _) as [[o' w'] t']. cbn [fst snd] in H. destruct H as (H & _ & _).
  destruct o, o'; simpl in H; try tauto; try (now apply ns_finish_scale); simpl; auto.
Qed.
Lemma multi_groups_scale c P pi pi' timeout m : 0 < c -> scaled c pi pi' -> forall gs tape s s' v v', ns_like c s s' -> Forall2 (vals c) v v' ->
  outs (ns_like c) (multi_groups P pi timeout m gs tape s v) (multi_groups P pi' timeout m gs tape s' v').
Proof.
  intros C S. induction gs as [|g r IH]; intros tape s s' v v' L V; [exact L|]. cbn [multi_groups].
  pose proof (ns_for_scale P c pi pi' C S multi_cand (fun _ _ _ => eq_refl) timeout (mask_positions (g_mask g)) (Qltb (ns_radius P) (g_vol g)) m tape _ _ _ _ L V) as H. cbn zeta in H.
  destruct (ns_for P pi _ _ _ _ _ _ _ _) as [[o w] t], (ns_for P pi' _ _ _ _ _ _ _ _) as [[o' w'] t']. cbn [fst snd] in H. destruct H as (H & W & T). subst t'.
  destruct o, o'; simpl in H; try tauto; try (now apply IH); simpl; auto.
Qed.
Lemma multi_call_scale c P oc pi pi' n timeout tape pick s s' : 0 < c -> scaled c pi pi' -> ns_like c s s' ->
  outs (ns_like c) (multi_call P oc pi n timeout tape pick s) (multi_call P oc pi' n timeout tape pick s').
Proof.
  intros C S L. unfold multi_call. rewrite (ns_like_samples _ _ _ L). replace (ns_live s') with (ns_live s) by (symmetry; apply L).
  pose proof (ns_begin_scale c s s' L) as B. destruct (cluster_all _ _ _ _ _ _) as [[gs|e]|]; [|simpl; auto|exact B].
  pose proof (multi_groups_scale c P pi pi' timeout (Nat.max ((n - length (ns_samples s)) / length gs) 1) C S gs tape _ _ _ _ B (live_values c pi pi' (ns_live s) S)) as H.
  destruct (multi_groups P pi _ _ _ _ _ _) , (multi_groups P pi' _ _ _ _ _ _); simpl in H; try tauto; try (now apply ns_finish_scale); simpl; auto.
Qed.
Lemma ns_sample_scale c P pick m s s' : ns_like c s s' -> outs (ns_like c) (ns_sample P pick m s) (ns_sample P pick m s').
Proof.
  intros L. unfold ns_sample. rewrite (ns_like_samples _ _ _ L). pose proof L as L0. destruct L as (A & B & D & F & G & H & I & J). rewrite I.
  destruct (ns_model s) as [l|]; [|destruct (update_model _ _ _) as [l|e]; [|split; auto]]; unfold ns_like; simpl; rewrite A, B, D, G, H, J; repeat split; auto.
Qed.
Lemma ns_query_scale c P pick s s' : ns_like c s s' -> outs (ns_like c) (ns_query P pick s) (ns_query P pick s').
Proof.
  intros L. unfold ns_query. rewrite (ns_like_samples _ _ _ L). pose proof L as L0. destruct L as (A & B & D & F & G & H & I & J). rewrite I.
  destruct (ns_model s) as [l|]; [exact L0|destruct (update_model _ _ _) as [l|e]; [|split; auto]]; unfold ns_like; simpl; rewrite A, B, D, G, H, J; repeat split; auto.
Qed.
