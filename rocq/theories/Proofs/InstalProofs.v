(** Requests in instalments: Metropolis-Hastings, population samplers, nested sampling, HiDaisee. *)
From Coq Require Import List Bool Arith Lia QArith Lqa.
Import ListNotations.
From Verif Require Import Prelude.Py Prelude.QBase Prelude.QFacts Model.Base Model.MetropolisHastings Model.Population Model.MPMC Model.Nested Model.HiDaisee
  Spec.InstalmentSpec Proofs.ScaleBase Proofs.InstalLoop Proofs.NestedProofs.
Open Scope Q_scope.

Definition omap {S : Type} (f : S -> S) (o : outcome S) : outcome S :=
  match o with Done s => Done (f s) | Running s => Running (f s) | Failed e s => Failed e (f s) end.

(** * Population samplers *)
Definition pop_same (r r' : pop_round) : Prop := pr_draw r' = pr_draw r /\ pr_u r' = pr_u r /\ pr_mh r' = pr_mh r.
Lemma pop_loop_is k P pi n limit tape : forall el s, pop_loop k P pi n limit tape el s = loop pop pop_round (fun s => length (pop_samples s)) (pop_iter k P pi) pr_clock (fun _ => false) n limit tape el s.
Proof.
  induction tape as [|r t IH]; intros el s; simpl; auto. destruct (_ && _); auto. destruct (pop_iter k P pi r s); auto.
Qed.
Lemma pop_iter_same k P pi r r' s : pop_same r r' -> pop_iter k P pi r' s = pop_iter k P pi r s.
Proof. destruct r, r'. unfold pop_same; simpl. intros (-> & -> & ->). destruct k; reflexivity. Qed.
Lemma outs_refl {S : Type} (R : S -> S -> Prop) o : (forall s, R s s) -> outs R o o.
Proof. intros H. destruct o; simpl; auto. Qed.
Lemma pop_twice k P pi n1 T1 tape1 n2 T2 tape2 s s1 s2 : (n1 <= n2)%nat -> pop_call k P pi n1 T1 tape1 s = Done s1 -> (n1 <= length (pop_samples s1))%nat ->
  pop_call k P pi n2 T2 tape2 s1 = Done s2 -> (n2 <= length (pop_samples s2))%nat ->
  exists used1 used2, initial used1 tape1 /\ initial used2 tape2 /\ forall T again, 0 < T -> in_time pop_same pr_clock T (used1 ++ used2) again -> pop_call k P pi n2 T again s = Done s2.
Proof.
  unfold pop_call. rewrite !pop_loop_is. intros L H1 G1 H2 G2.
  destruct (loop_instalments pop pop_round (fun s => length (pop_samples s)) (pop_iter k P pi) pr_clock (fun _ => false) eq pop_same) with (n1 := n1) (limit1 := T1) (tape1 := tape1) (el1 := 0) (s := s) (s1 := s1) (n2 := n2) (limit2 := T2) (tape2 := tape2) (el2 := 0) (s1' := s1) (s2 := s2)
    as (u1 & u2 & I1 & I2 & K); auto; try congruence.
  - intros r r' a b Sr <-. rewrite (pop_iter_same k P pi r r' a Sr). apply outs_refl. auto.
  - exists u1, u2. split; auto. split; auto. intros T again Tp I. rewrite pop_loop_is. destruct (K T again 0 s I Tp eq_refl) as (s2' & E & <-). exact E.
Qed.

(** * M-PMC *)
Definition mp_same (r r' : mp_round) : Prop := mr_us r' = mr_us r /\ mr_draw r' = mr_draw r.
Lemma mp_loop_is P pi n limit tape : forall el s, mp_loop P pi n limit tape el s = loop mp mp_round (fun s => length (mp_samples s)) (mp_iter P pi) mr_clock mp_dead n limit tape el s.
Proof.
  induction tape as [|r t IH]; intros el s; simpl; auto. destruct (_ && _); auto. destruct (mp_dead s); auto. destruct (mp_iter P pi r s); auto.
Qed.
Lemma mp_iter_same P pi r r' s : mp_same r r' -> mp_iter P pi r' s = mp_iter P pi r s.
Proof. destruct r, r'. unfold mp_same; simpl. intros (-> & ->). reflexivity. Qed.
Lemma mp_twice P pi n1 T1 tape1 n2 T2 tape2 s s1 s2 : (n1 <= n2)%nat -> mp_call P pi n1 T1 tape1 s = Done s1 -> (n1 <= length (mp_samples s1))%nat ->
  mp_call P pi n2 T2 tape2 s1 = Done s2 -> (n2 <= length (mp_samples s2))%nat ->
  exists used1 used2, initial used1 tape1 /\ initial used2 tape2 /\ forall T again, 0 < T -> in_time mp_same mr_clock T (used1 ++ used2) again -> mp_call P pi n2 T again s = Done s2.
Proof.
  unfold mp_call. rewrite !mp_loop_is. intros L H1 G1 H2 G2.
  destruct (loop_instalments mp mp_round (fun s => length (mp_samples s)) (mp_iter P pi) mr_clock mp_dead eq mp_same) with (n1 := n1) (limit1 := T1) (tape1 := tape1) (el1 := 0) (s := s) (s1 := s1) (n2 := n2) (limit2 := T2) (tape2 := tape2) (el2 := 0) (s1' := s1) (s2 := s2)
    as (u1 & u2 & I1 & I2 & K); auto; try congruence.
  - intros r r' a b Sr <-. rewrite (mp_iter_same P pi r r' a Sr). apply outs_refl. auto.
  - exists u1, u2. split; auto. split; auto. intros T again Tp I. rewrite mp_loop_is. destruct (K T again 0 s I Tp eq_refl) as (s2' & E & <-). exact E.
Qed.

(** * Metropolis-Hastings: the weights and the model are written at the end of a call only *)
Section MH.
Variables (P : mh_params) (lp : vec -> fl Q) (w : list Q) (m : option (list vec)).
Definition put_core (c : core) : core := mkCore (samples c) w (num_q_samples c) (num_q_evals c) (num_pi_evals c) m (ghost_drawn c).
Definition put (s : mh) : mh := mkState (put_core (mh_core s)) (mh_current s) (mh_is_init s) (mh_traj s) (mh_types s).
Definition smap (r : stepres) : stepres := match r with SDone x s => SDone x (put s) | SRunning s => SRunning (put s) | SFail e s => SFail e (put s) end.
Lemma put_step timeout x_old tape : forall acc el x_new s, mh_step_loop P lp timeout x_old tape acc el x_new (put s) = smap (mh_step_loop P lp timeout x_old tape acc el x_new s).
Proof.
  induction tape as [|a t IH]; intros acc el x_new s; simpl; destruct (negb acc && Qltb el timeout); auto; try (destruct (set_last (mh_types s) ACCEPT); reflexivity).
  rewrite <- IH. reflexivity.
Qed.
Lemma put_advance timeout lab tape s : mh_advance P lp timeout lab tape (put s) = omap put (mh_advance P lp timeout lab tape s).
Proof.
  unfold mh_advance, mcmc_step. change (mh_current (put s)) with (mh_current s). rewrite put_step. destruct (mh_step_loop _ _ _ _ _ _ _ _ _); simpl; auto. destruct (set_last _ _); reflexivity.
Qed.
Lemma put_steps timeout n : forall tape s, mh_steps_n P lp timeout n tape (put s) = (omap put (fst (mh_steps_n P lp timeout n tape s)), snd (mh_steps_n P lp timeout n tape s)).
Proof.
  induction n as [|n IH]; intros [|e t] s; simpl; auto. rewrite put_advance. destruct (mh_advance _ _ _ _ _ _); simpl; auto.
Qed.
Lemma put_mcmc timeout n : forall tape s acc, mcmc P lp timeout n tape (put s) acc =
  (omap put (fst (fst (mcmc P lp timeout n tape s acc))), snd (fst (mcmc P lp timeout n tape s acc)), snd (mcmc P lp timeout n tape s acc)).
Proof.
  induction n as [|n IH]; intros tape s acc; simpl; auto. rewrite put_steps. destruct (mh_steps_n _ _ _ _ _ _) as [[s1|s1|e s1] t1]; simpl; auto.
  destruct (set_last (mh_types s1) SAMPLE); simpl; auto. rewrite <- IH. reflexivity.
Qed.
Lemma put_burn n : forall tape s, mh_burn P lp n tape (put s) = (omap put (fst (mh_burn P lp n tape s)), snd (mh_burn P lp n tape s)).
Proof.
  induction n as [|n IH]; intros [|e t] s; simpl; auto. rewrite put_advance. destruct (mh_advance _ _ _ _ _ _); simpl; auto.
Qed.
Lemma put_sample_loop timeout n k : forall tape s acc, mh_sample_loop P lp timeout n k tape (put s) acc =
  (omap put (fst (fst (mh_sample_loop P lp timeout n k tape s acc))), snd (fst (mh_sample_loop P lp timeout n k tape s acc)), snd (mh_sample_loop P lp timeout n k tape s acc)).
Proof.
  induction k as [|k IH]; intros tape s acc; simpl; auto. rewrite put_mcmc. destruct (mcmc _ _ _ _ _ _ _) as [[[s1|s1|e s1] r1] t1]; simpl; auto.
Qed.
Lemma put_sample timeout n tape s : mh_sample P lp timeout n tape (put s) =
  (omap put (fst (fst (mh_sample P lp timeout n tape s))), snd (fst (mh_sample P lp timeout n tape s)), snd (mh_sample P lp timeout n tape s)).
Proof.
  unfold mh_sample. change (mh_is_init (put s)) with (mh_is_init s). destruct (mh_is_init s); [apply put_sample_loop|]. rewrite put_burn.
  destruct (mh_burn _ _ _ _ _) as [[s1|s1|e s1] t1]; simpl; auto. rewrite <- put_sample_loop. reflexivity.
Qed.
End MH.
Definition mh_same (e e' : is_ev) : Prop := ie_steps e' = ie_steps e.
Definition mh_iter P lp timeout (e : is_ev) (s : mh) : outcome mh :=
  match mh_sample P lp timeout 1 (ie_steps e) s with
  | (Done s1, rows, _) => let c := mh_core s1 in
      Done (mkState (mkCore (samples c ++ rows) (weights c) (num_q_samples c) (num_q_evals c) (num_pi_evals c) (model c) (ghost_drawn c)) (mh_current s1) (mh_is_init s1) (mh_traj s1) (mh_types s1))
  | (o, _, _) => o
  end.
Lemma mh_loop_is P lp n T tape : forall el s, mh_is_loop P lp T n tape el s = loop mh is_ev (fun s => length (samples (mh_core s))) (mh_iter P lp T) ie_clock (fun _ => false) n T tape el s.
Proof.
  induction tape as [|r t IH]; intros el s; simpl; auto. destruct (_ && _); auto. destruct (mh_sample P lp T 1 (ie_steps r) s) as [[[s1|s1|e s1] r1] t1] eqn:E; assert (X : mh_iter P lp T r s = _) by (unfold mh_iter; rewrite E; reflexivity); rewrite X; auto.
Qed.
Definition mh_eq (s s' : mh) : Prop := exists w m, s' = put w m s.
Lemma put_iter P lp T w m e e' s : mh_same e e' -> mh_iter P lp T e' (put w m s) = omap (put w m) (mh_iter P lp T e s).
Proof.
  unfold mh_iter, mh_same. intros ->. rewrite put_sample. destruct (mh_sample _ _ _ _ _ _) as [[[s1|s1|e1 s1] r1] t1]; simpl; auto.
Qed.
Definition mh_end (P : mh_params) (pick : nat -> nat) (s : mh) : outcome mh :=
  let c := mh_core s in
  let w := repeat (1 / Qnat (length (samples c))) (length (samples c)) in
  match update_model (mh_kde P) pick (samples c) with
  | Raise e => Failed e (put w (model c) s)
  | Ok m => Done (put w (Some m) s)
  end.
Lemma mh_call_is P lp n T tape pick s : mh_importance_sample P lp n T tape pick s = match mh_is_loop P lp T n tape 0 s with Done s1 => mh_end P pick s1 | o => o end.
Proof. unfold mh_importance_sample, mh_end. destruct (mh_is_loop _ _ _ _ _ _ _); auto; simpl. Qed.
Lemma mh_twice P lp T n1 tape1 pick1 n2 tape2 pick s s1 s2 : (n1 <= n2)%nat -> mh_importance_sample P lp n1 T tape1 pick1 s = Done s1 -> (n1 <= length (samples (mh_core s1)))%nat ->
  mh_importance_sample P lp n2 T tape2 pick s1 = Done s2 -> (n2 <= length (samples (mh_core s2)))%nat ->
  exists used1 used2, initial used1 tape1 /\ initial used2 tape2 /\ forall again, in_time mh_same ie_clock T (used1 ++ used2) again -> 0 < T ->
    mh_importance_sample P lp n2 T again pick s = Done s2.
Proof.
  rewrite !mh_call_is, !mh_loop_is. intros L H1 G1 H2 G2.
  destruct (loop _ _ _ _ _ _ n1 T tape1 0 s) as [a1|a1|e a1] eqn:L1; try discriminate. unfold mh_end in H1. destruct (update_model (mh_kde P) pick1 _) as [m1|] eqn:U1; [|discriminate]. assert (A1 : s1 = put (repeat (1 / Qnat (length (samples (mh_core a1)))) (length (samples (mh_core a1)))) (Some m1) a1) by congruence. clear H1. subst s1.
  destruct (loop _ _ _ _ _ _ n2 T tape2 0 _) as [a2|a2|e a2] eqn:L2; try discriminate. unfold mh_end in H2. destruct (update_model (mh_kde P) pick _) as [m2|] eqn:U2; [|discriminate]. assert (A2 : s2 = put (repeat (1 / Qnat (length (samples (mh_core a2)))) (length (samples (mh_core a2)))) (Some m2) a2) by congruence. clear H2. subst s2.
  assert (Hi : forall r r' a b, mh_same r r' -> mh_eq a b -> outs mh_eq (mh_iter P lp T r a) (mh_iter P lp T r' b)).
  { intros r r' a b Sr (w & m & ->). rewrite (put_iter P lp T w m r r' a Sr). destruct (mh_iter P lp T r a); simpl; try (split; [reflexivity|]); exists w, m; reflexivity. }
  assert (Hz : forall a b, mh_eq a b -> length (samples (mh_core b)) = length (samples (mh_core a))) by (intros a b (w & m & ->); reflexivity).
  assert (Ht : forall a b c, mh_eq a b -> mh_eq b c -> mh_eq a c) by (intros a b c (w & m & ->) (w' & m' & ->); exists w', m'; reflexivity).
  assert (Hs : forall a b, mh_eq a b -> mh_eq b a) by (intros a b (w & m & ->); exists (weights (mh_core a)), (model (mh_core a)); destruct a as [[] ? ? ? ?]; reflexivity).
  assert (X : mh_eq a1 (put (repeat (1 / Qnat (length (samples (mh_core a1)))) (length (samples (mh_core a1)))) (Some m1) a1)) by (eexists _, _; reflexivity).
  destruct (loop_instalments mh is_ev (fun s => length (samples (mh_core s))) (mh_iter P lp T) ie_clock (fun _ => false) mh_eq mh_same Hz (fun _ _ _ => eq_refl) Hi Ht Hs n1 T tape1 0 s a1 n2 T tape2 0 _ a2 L L1 G1 X L2 G2) as (u1 & u2 & I1 & I2 & K).
  exists u1, u2. split; auto. split; auto. intros again I Tp. rewrite mh_call_is, mh_loop_is. destruct (K T again 0 s I Tp) as (s2' & E & (w & m & ->)); [exists (weights (mh_core s)), (model (mh_core s)); destruct s as [[] ? ? ? ?]; reflexivity|].
  rewrite E. unfold mh_end. simpl. rewrite U2. reflexivity.
Qed.

(** * Nested sampling: a call evaluates the live points again *)
Definition ns_eq (j : nat) (s s' : nst) : Prop :=
  ns_live s' = ns_live s /\ ns_view s' = ns_view s /\ ns_rows s' = ns_rows s /\ ns_L s' = ns_L s /\ ns_q_samples s' = ns_q_samples s /\ ns_pi_evals s' = (ns_pi_evals s + j)%nat.
Lemma ns_eq_samples j s s' : ns_eq j s s' -> ns_samples s' = ns_samples s.
Proof. intros (A & B & C & _). unfold ns_samples. now rewrite A, B, C. Qed.
Lemma ns_eq_append j k l s s' : ns_eq j s s' -> ns_eq j (ns_append k l s) (ns_append k l s').
Proof.
  intros H. pose proof (ns_eq_samples _ _ _ H) as N. unfold ns_append. rewrite N. destruct H as (A & B & D & F & G & H). destruct (ns_samples s); unfold ns_eq; simpl; rewrite ?A, ?F, ?G, ?H; repeat split; auto.
Qed.
Lemma ns_eq_count j pts s s' : ns_eq j s s' -> ns_eq j (ns_count pts s) (ns_count pts s').
Proof. intros (A & B & D & F & G & H). unfold ns_eq, ns_count; simpl. rewrite A, B, D, F, G, H. repeat split; auto; lia. Qed.
Lemma ns_eq_iter P pi timeout g big ev j s s' v : ns_eq j s s' -> outs (ns_eq j) (fst (ns_iter P pi timeout g nested_cand big ev s v)) (fst (ns_iter P pi timeout g nested_cand big ev s' v)) /\
  snd (ns_iter P pi timeout g nested_cand big ev s' v) = snd (ns_iter P pi timeout g nested_cand big ev s v).
Proof.
  intros H. unfold ns_iter. destruct g as [|g0 g]; [simpl; auto|]. assert (C : forall d, nested_cand s' ev d = nested_cand s ev d) by (intros d; unfold nested_cand; destruct H as (-> & _); reflexivity).
  cbv zeta. assert (Cs : nested_cand s' ev = nested_cand s ev) by (unfold nested_cand; destruct H as (-> & _); reflexivity). rewrite Cs.
  set (k := nth _ (g0 :: g) 0%nat). set (lm := nth _ _ 0). pose proof (ns_eq_append j k lm s s' H) as A.
  destruct (ns_search _ _ _ _ _ _ _ _) as [[y|] seen]; simpl; (split; [|reflexivity]); pose proof (ns_eq_count j (vclip (nested_cand s ev (rp_first ev)) (ns_lo P) (ns_hi P) :: seen) _ _ A) as B; [|exact B].
  destruct B as (B1 & B2 & B3 & B4 & B5 & B6). unfold ns_count in *. cbn [ns_live ns_view ns_rows ns_L ns_q_samples ns_pi_evals] in *. unfold ns_eq; cbn [ns_live ns_view ns_rows ns_L ns_q_samples ns_pi_evals]. rewrite B1. repeat split; auto.
Qed.
Lemma ns_eq_for P pi timeout g big j m : forall tape s s' v, ns_eq j s s' ->
  outs (ns_eq j) (fst (fst (ns_for P pi timeout g nested_cand big m tape s v))) (fst (fst (ns_for P pi timeout g nested_cand big m tape s' v))).
Proof.
  induction m as [|m IH]; intros tape s s' v H; [exact H|]. cbn [ns_for]. destruct tape as [|ev t]; [exact H|].
  destruct (ns_eq_iter P pi timeout g big ev j s s' v H) as (A & B). destruct (ns_iter _ _ _ _ _ _ _ s v) as [o w], (ns_iter _ _ _ _ _ _ _ s' v) as [o' w']. cbn [fst snd] in *. subst w'.
  destruct o, o'; simpl in A; try contradiction; simpl; auto.
Qed.
Lemma ns_for_app P pi timeout g big a b : forall t1 t2 s v, length t1 = a -> ns_for P pi timeout g nested_cand big (a + b) (t1 ++ t2) s v =
  match ns_for P pi timeout g nested_cand big a t1 s v with (Done s', v', _) => ns_for P pi timeout g nested_cand big b t2 s' v' | (o, v', t) => (o, v', t ++ t2) end.
Proof.
  induction a as [|a IH]; intros t1 t2 s v Ln; destruct t1 as [|ev t1]; try discriminate; [reflexivity|]. simpl. injection Ln as Ln.
  destruct (ns_iter _ _ _ _ _ _ _ _) as [[s1|s1|e s1] w]; auto.
Qed.
(** The tape beyond the turns is not read. *)
Lemma ns_for_firstn P pi timeout g big m : forall tape s v s' v' r, ns_for P pi timeout g nested_cand big m tape s v = (Done s', v', r) ->
  tape = firstn m tape ++ r /\ length (firstn m tape) = m /\ ns_for P pi timeout g nested_cand big m (firstn m tape) s v = (Done s', v', []).
Proof.
  induction m as [|m IH]; intros tape s v s' v' r H; simpl in *; [injection H as <- <- <-; auto|]. destruct tape as [|ev t]; [discriminate|].
  destruct (ns_iter _ _ _ _ _ _ _ _) as [[s1|s1|e s1] w] eqn:E; try discriminate. destruct (IH _ _ _ _ _ _ H) as (A & B & C). simpl. rewrite <- A, B. auto.
Qed.
Lemma ns_for_count P pi timeout big m : forall tape s g s' v' r, g = seq 0 (length (ns_live s)) -> ns_for P pi timeout g nested_cand big m tape s (map pi (ns_live s)) = (Done s', v', r) ->
  v' = map pi (ns_live s') /\ length (ns_live s') = length (ns_live s) /\ length (ns_samples s') = (m + length (ns_samples s))%nat.
Proof.
  induction m as [|m IH]; intros tape s g s' v' r G H; simpl in *; [injection H as <- <- <-; auto|]. destruct tape as [|ev t]; [discriminate|].
  destruct (ns_iter _ _ _ _ _ _ _ _) as [[s1|s1|e s1] w] eqn:E; try discriminate. assert (Gn : g <> []) by (intros ->; discriminate E).
  destruct (iter_done P pi timeout g nested_cand big ev s s1 (map pi (ns_live s)) w Gn) as (V & k & y & seen & F); auto; [subst g; apply Forall_forall; intros i Hi; apply in_seq in Hi; lia|].
  assert (L1 : length (ns_live s1) = length (ns_live s)) by (rewrite (sf_live _ _ _ _ _ _ _ _ _ _ _ _ F); apply upd_length).
  assert (S1 : length (ns_samples s1) = S (length (ns_samples s))).
  { destruct (ns_samples s) as [|a l] eqn:Z; [destruct (sf_first _ _ _ _ _ _ _ _ _ _ _ _ F Z) as (_ & ->); reflexivity|].
    destruct (sf_later _ _ _ _ _ _ _ _ _ _ _ _ F) as (_ & ->); [congruence|]. rewrite Z, app_length. simpl. lia. }
  subst w. destruct (IH t s1 g s' v' r) as (A & B & C); [congruence|exact H|]. split; auto. split; [congruence|]. lia.
Qed.
Lemma nested_twice P pi T n1 tape1 pick1 n2 tape2 pick s s1 s2 : (n1 <= n2)%nat -> nested_call P pi n1 T tape1 pick1 s = Done s1 -> nested_call P pi n2 T tape2 pick s1 = Done s2 ->
  exists used1 used2 s2', initial used1 tape1 /\ initial used2 tape2 /\ nested_call P pi n2 T (used1 ++ used2) pick s = Done s2' /\
    ns_eq (length (ns_live s)) s2' s2 /\ ns_model s2' = ns_model s2.
Proof.
  intros L H1 H2. unfold nested_call in *. set (m1 := (n1 - length (ns_samples s))%nat) in *.
  destruct (ns_for P pi T (seq 0 (length (ns_live s))) nested_cand true m1 tape1 (ns_begin s) (map pi (ns_live s))) as [[[a1|a1|e a1] v1] r1] eqn:F1; try discriminate.
  destruct (ns_for_count P pi T true m1 tape1 (ns_begin s) _ a1 v1 r1 eq_refl F1) as (V1 & L1 & C1). change (ns_live (ns_begin s)) with (ns_live s) in *. change (ns_samples (ns_begin s)) with (ns_samples s) in C1.
  destruct (ns_for_firstn _ _ _ _ _ _ _ _ _ _ _ _ F1) as (U1 & K1 & F1').
  assert (A1 : ns_live s1 = ns_live a1 /\ ns_samples s1 = ns_samples a1 /\ ns_eq (length (ns_live a1)) a1 (ns_begin s1)).
  { unfold ns_finish in H1. destruct (ns_samples a1) as [|x l] eqn:Z; [discriminate|]. destruct (update_model (ns_kde P) pick1 (x :: l)) as [m|]; [|discriminate]. injection H1 as <-. split; [reflexivity|]. split; [exact Z|]. unfold ns_eq; simpl. repeat split. }
  destruct A1 as (A1 & A2 & A3). rewrite A1, A2 in H2. set (m2 := (n2 - length (ns_samples a1))%nat) in *. rewrite L1 in *. rewrite <- V1 in H2.
  pose proof (ns_eq_for P pi T (seq 0 (length (ns_live s))) true (length (ns_live s)) m2 tape2 _ _ v1 A3) as Q. 
  destruct (ns_for P pi T (seq 0 (length (ns_live s))) nested_cand true m2 tape2 (ns_begin s1) v1) as [[[a2|a2|e a2] v2] r2] eqn:F2; try discriminate.
  destruct (ns_for P pi T (seq 0 (length (ns_live s))) nested_cand true m2 tape2 a1 v1) as [[[b2|b2|e b2] w2] q2] eqn:F3; simpl in Q; try contradiction.
  destruct (ns_for_firstn _ _ _ _ _ _ _ _ _ _ _ _ F3) as (U2 & K2 & F3').
  exists (firstn m1 tape1), (firstn m2 tape2). assert (M : (n2 - length (ns_samples s))%nat = (m1 + m2)%nat) by (unfold m1, m2 in *; lia). rewrite M.
  rewrite (ns_for_app P pi T _ true m1 m2 _ _ _ _ K1), F1', F3'. pose proof (ns_eq_samples _ _ _ Q) as Qs. unfold ns_finish in *. rewrite Qs in H2.
  destruct (ns_samples b2) as [|x l] eqn:Z; [discriminate|]. destruct (update_model (ns_kde P) pick (x :: l)) as [m|]; [|discriminate]. injection H2 as <-. eexists. split; [exists r1; exact U1|]. split; [exists q2; exact U2|]. split; [reflexivity|].
  split; [|reflexivity]. destruct Q as (Q1 & Q2 & Q3 & Q4 & Q5 & Q6). unfold ns_eq; simpl. repeat split; auto.
Qed.

(** * HiDaisee: samples and density are read off the tree at the end of a call only *)
Definition hd_put (l : list (vec * Q)) (m : list Uniform.uniform * list (fl Q)) (s : hd) : hd := mkHD (hs_tree s) l (hs_pi s) (hs_q s) (hs_draws s) m.
Lemma hd_put_turn P pi t rd l m s : hd_turn P pi t rd (hd_put l m s) = omap (hd_put l m) (hd_turn P pi t rd s).
Proof.
  unfold hd_turn. cbv zeta. change (hs_tree (hd_put l m s)) with (hs_tree s). destruct (descend _ _ _ _ _) as [[path i]|]; auto. destruct (nth_error _ i); auto. destruct (Qle_bool _ 0); auto.
  destruct (_ && _); auto. destruct (split _ _ _ _) as [t3 ok]. destruct ok; auto.
Qed.
Lemma hd_put_turns P pi rds l m k : forall t s, hd_turns P pi rds t k (hd_put l m s) = omap (hd_put l m) (hd_turns P pi rds t k s).
Proof. induction k as [|k IH]; intros t s; simpl; auto. rewrite hd_put_turn. destruct (hd_turn P pi t (rds t) s); simpl; auto. Qed.
Lemma hd_turns_app P pi rds a b : forall t s, hd_turns P pi rds t (a + b) s = match hd_turns P pi rds t a s with Done s' => hd_turns P pi rds (t + a) b s' | o => o end.
Proof.
  induction a as [|a IH]; intros t s; simpl; [now rewrite Nat.add_0_r|]. destruct (hd_turn P pi t (rds t) s); auto. rewrite IH. replace (S t + a)%nat with (t + S a)%nat by lia. reflexivity.
Qed.
Lemma hd_turns_ext P pi rds rds' k : forall t s, (forall i, (t <= i < t + k)%nat -> rds' i = rds i) -> hd_turns P pi rds' t k s = hd_turns P pi rds t k s.
Proof. induction k as [|k IH]; intros t s H; simpl; auto. rewrite (H t) by lia. destruct (hd_turn P pi t (rds t) s); auto. apply IH. intros i Hi. apply H. lia. Qed.
Lemma hd_twice P pi n1 rds1 n2 rds2 rds s s1 : (n1 <= n2)%nat -> hd_call P pi n1 rds1 s = Done s1 -> length (hs_samples s1) = Nat.max n1 (length (hs_samples s)) ->
  (forall t, (t < n1)%nat -> rds t = rds1 t) -> (forall t, (n1 <= t < n2)%nat -> rds t = rds2 t) ->
  match hd_call P pi n2 rds2 s1 with
  | Done s2 => hd_call P pi n2 rds s = Done s2
  | Running s2 => exists s2', hd_call P pi n2 rds s = Running s2' /\ hs_tree s2' = hs_tree s2
  | Failed e s2 => exists s2', hd_call P pi n2 rds s = Failed e s2' /\ hs_tree s2' = hs_tree s2
  end.
Proof.
  intros L H1 Ln R1 R2. unfold hd_call in *. set (k := length (hs_samples s)) in *. rewrite Ln.
  destruct (hd_turns P pi rds1 k (n1 - k) s) as [a|a|e a] eqn:E1; try discriminate. injection H1 as <-.
  change (mkHD (hs_tree a) (hd_rows (hs_tree a)) (hs_pi a) (hs_q a) (hs_draws a) (hd_model (hs_tree a))) with (hd_put (hd_rows (hs_tree a)) (hd_model (hs_tree a)) a). rewrite hd_put_turns.
  assert (X : hd_turns P pi rds k (n2 - k) s = hd_turns P pi rds2 (Nat.max n1 k) (n2 - Nat.max n1 k) a).
  { replace (n2 - k)%nat with ((n1 - k) + (n2 - Nat.max n1 k))%nat by lia. rewrite hd_turns_app. rewrite (hd_turns_ext P pi rds1 rds) by (intros i Hi; apply R1; lia). rewrite E1. replace (k + (n1 - k))%nat with (Nat.max n1 k) by lia.
    apply hd_turns_ext. intros i Hi. apply R2. lia. }
  rewrite X. destruct (hd_turns P pi rds2 _ _ a) as [b|b|e b]; simpl; auto; exists b; auto.
Qed.
