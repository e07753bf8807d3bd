(** Property C130. *)
From Coq Require Import List Bool Arith Lia QArith Lqa.
Import ListNotations.
From Verif Require Import Prelude.Py Prelude.QBase Model.Base Model.Mixture Model.Rejection Model.Population Model.MPMC.
From Verif Require Import Model.Nested.
From Verif Require Import Proofs.RejectionWitness Proofs.NestedWitness Proofs.PopulationWitness Proofs.MPMCWitness.
Open Scope Q_scope.

(** The two targets have the same values at the points of [l]. *)
Definition agree_on (l : list vec) (pi pi' : vec -> Q) : Prop := forall x, In x l -> pi x = pi' x.

(** ** Rejection sampling *)
Lemma rej_iter_local P pi pi' n c r : agree_on (rej_drawn r (n - length (samples c))) pi pi' -> rej_iter P pi' n c r = rej_iter P pi n c r.
Proof.
  intros A. unfold rej_iter. cbv zeta. replace (rej_accepted P pi' r (n - length (samples c))) with (rej_accepted P pi r (n - length (samples c))); auto.
  unfold rej_accepted. f_equal. apply filter_ext_in. intros i Hi. unfold rej_ratio. rewrite (A (rr_draw r i)); auto. unfold rej_drawn. now apply in_map.
Qed.
Lemma rej_drawn_grows P pi n timeout tape : forall e c x, In x (ghost_drawn c) -> In x (ghost_drawn (out_state (rej_loop P pi n timeout tape e c))).
Proof.
  induction tape as [|r t IH]; intros e c x H; simpl; destruct (_ && _); auto. apply IH. unfold rej_iter. cbn [ghost_drawn]. apply in_or_app. now left.
Qed.
Lemma rej_loop_local P pi pi' n timeout tape : forall e c, agree_on (ghost_drawn (out_state (rej_loop P pi n timeout tape e c))) pi pi' ->
  rej_loop P pi' n timeout tape e c = rej_loop P pi n timeout tape e c.
Proof.
  induction tape as [|r t IH]; intros e c A; simpl in *; destruct (_ && _); auto.
  rewrite (rej_iter_local P pi pi'); [apply IH; exact A|]. intros x Hx. apply A. apply rej_drawn_grows. unfold rej_iter. cbn [ghost_drawn]. apply in_or_app. now right.
Qed.

(** C130. Rejection sampling: two targets with the same values at the points drawn so far give the same call, whatever their values elsewhere. *)
Theorem C130_rejection :
  forall P pi pi' n timeout e0 tape pick c, agree_on (ghost_drawn (out_state (rej_importance_sample P pi n timeout e0 tape pick c))) pi pi' ->
  rej_importance_sample P pi' n timeout e0 tape pick c = rej_importance_sample P pi n timeout e0 tape pick c.
Proof.
  intros P pi pi' n timeout e0 tape pick c A. unfold rej_importance_sample in *. rewrite (rej_loop_local P pi pi'); auto.
  destruct (rej_loop P pi n timeout tape e0 c) as [c1|c1|e c1]; auto. cbn [out_state]. unfold rej_finish in A. destruct (update_model _ _ _); exact A.
Qed.
Print Assumptions C130_rejection.
Example C130_rejection_example :
  length (ghost_drawn ex_c1) = 3%nat /\
  agree_on (ghost_drawn (out_state (rej_importance_sample exP ex_target 2 60 0 [ex_r1; ex_r2] (fun i => i) core_init))) ex_target
    (fun x => if Qle_bool 2 (nth 0 x 0) then 0 else ex_target x) /\ (if Qle_bool 2 (nth 0 [5] 0) then 0 else ex_target [5]) <> ex_target [5].
Proof.
  split; [reflexivity|]. split; [|discriminate]. rewrite ex_c1_run. intros x Hx. simpl in Hx. destruct Hx as [<-|[<-|[<-|[]]]]; reflexivity.
Qed.

(** ** Nested and multi-nested sampling *)
Lemma search_point pi f v timeout big : forall tape cur e y seen, ns_search pi f v timeout big tape cur e = (Some y, seen) -> In y (cur :: seen).
Proof.
  induction tape as [|(d, t) r IH]; intros cur e y seen H; simpl in H; destruct (_ && _ && _).
  - discriminate.
  - injection H as <- <-. now left.
  - destruct (ns_search pi f v timeout big r (f d) t) as [o sn] eqn:E. injection H as -> <-. right. apply (IH _ _ _ _ E).
  - injection H as <- <-. now left.
Qed.
Lemma search_local pi pi' f v timeout big : forall tape cur e, agree_on (cur :: snd (ns_search pi f v timeout big tape cur e)) pi pi' ->
  ns_search pi' f v timeout big tape cur e = ns_search pi f v timeout big tape cur e.
Proof.
  induction tape as [|(d, t) r IH]; intros cur e A; simpl in *; rewrite <- (A cur (or_introl eq_refl)); destruct (_ && _ && _); auto.
  rewrite IH; auto. intros x Hx. apply A. right. destruct (ns_search pi f v timeout big r (f d) t) as [o sn]. exact Hx.
Qed.
Lemma append_seen k l s : ns_seen (ns_append k l s) = ns_seen s.
Proof. unfold ns_append. destruct (ns_samples s); reflexivity. Qed.
Lemma iter_seen P pi timeout g cand big ev s values x : In x (ns_seen s) -> In x (ns_seen (out_state (fst (ns_iter P pi timeout g cand big ev s values)))).
Proof.
  intros H. unfold ns_iter. destruct g as [|i g]; auto. cbv zeta. destruct (ns_search _ _ _ _ _ _ _ _) as [[y|] seen]; cbn [fst out_state ns_seen ns_count]; apply in_or_app; left; now rewrite append_seen.
Qed.
Lemma iter_local P pi pi' timeout g cand big ev s values : agree_on (ns_seen (out_state (fst (ns_iter P pi timeout g cand big ev s values)))) pi pi' ->
  ns_iter P pi' timeout g cand big ev s values = ns_iter P pi timeout g cand big ev s values.
Proof.
  unfold ns_iter. destruct g as [|i g]; auto. cbv zeta.
  match goal with |- context [ns_search pi ?f ?v ?t ?b ?r ?c ?e] => remember (ns_search pi f v t b r c e) as q eqn:E; intros A;
    assert (L : ns_search pi' f v t b r c e = q); [|assert (PT : forall y seen, q = (Some y, seen) -> In y (c :: seen)) by (intros y seen Hq; rewrite Hq in E; symmetry in E; exact (search_point _ _ _ _ _ _ _ _ _ _ E))] end.
  - rewrite E. apply search_local. rewrite <- E. intros x Hx. apply A. destruct q as [[y|] seen]; cbn [fst out_state ns_seen ns_count snd] in *; apply in_or_app; now right.
  - rewrite L. destruct q as [[y|] seen]; auto. do 2 f_equal. symmetry. apply A. cbn [fst out_state ns_seen ns_count]. apply in_or_app. right. apply PT. reflexivity.
Qed.
Lemma for_seen P pi timeout g cand big x : forall m tape s values, In x (ns_seen s) -> In x (ns_seen (out_state (fst (fst (ns_for P pi timeout g cand big m tape s values))))).
Proof.
  induction m as [|m IH]; intros tape s values H; simpl; auto. destruct tape as [|ev t]; auto.
  pose proof (iter_seen P pi timeout g cand big ev s values x H) as G. destruct (ns_iter P pi timeout g cand big ev s values) as [[s1|s1|e s1] v1]; cbn [fst out_state] in *; auto.
Qed.
Lemma for_local P pi pi' timeout g cand big : forall m tape s values, agree_on (ns_seen (out_state (fst (fst (ns_for P pi timeout g cand big m tape s values))))) pi pi' ->
  ns_for P pi' timeout g cand big m tape s values = ns_for P pi timeout g cand big m tape s values.
Proof.
  induction m as [|m IH]; intros tape s values A; simpl in *; auto. destruct tape as [|ev t]; auto.
  rewrite (iter_local P pi pi').
  - destruct (ns_iter P pi timeout g cand big ev s values) as [[s1|s1|e s1] v1]; auto.
  - intros x Hx. apply A. destruct (ns_iter P pi timeout g cand big ev s values) as [[s1|s1|e s1] v1]; cbn [fst out_state] in *; auto. now apply for_seen.
Qed.
Lemma finish_seen P pick s : ns_seen (out_state (ns_finish P pick s)) = ns_seen s.
Proof. unfold ns_finish. destruct (ns_samples s); auto. destruct (update_model _ _ _); reflexivity. Qed.
Lemma live_local pi pi' s : agree_on (ns_seen (ns_begin s)) pi pi' -> map pi' (ns_live s) = map pi (ns_live s).
Proof. intros A. apply map_ext_in. intros x Hx. symmetry. apply A. unfold ns_begin. cbn [ns_seen]. apply in_or_app. now right. Qed.

(** C130. Nested sampling: two targets with the same values at the points at which the target was evaluated (the live points at the start of the
    call and all points drawn) give the same call. *)
Theorem C130_nested :
  forall P pi pi' n timeout tape pick s, agree_on (ns_seen (out_state (nested_call P pi n timeout tape pick s))) pi pi' ->
  nested_call P pi' n timeout tape pick s = nested_call P pi n timeout tape pick s.
Proof.
  intros P pi pi' n timeout tape pick s A. unfold nested_call in *. cbv zeta in *.
  assert (B : agree_on (ns_seen (out_state (fst (fst (ns_for P pi timeout (seq 0 (length (ns_live s))) nested_cand true (n - length (ns_samples s)) tape (ns_begin s) (map pi (ns_live s))))))) pi pi').
  { intros x Hx. apply A. destruct (ns_for _ _ _ _ _ _ _ _ _ _) as [[[s1|s1|e s1] v] t]; cbn [fst out_state] in *; auto. now rewrite finish_seen. }
  rewrite (live_local pi pi'); [now rewrite (for_local P pi pi' _ _ _ _ _ _ _ _ B)|]. intros x Hx. apply B. now apply for_seen.
Qed.
Print Assumptions C130_nested.
Example C130_nested_example : nested_call nP npi 2 60 [rep1; rep2] (fun i => i) (ns_new nP nus) = Done ns1 /\ length (ns_seen ns1) = 6%nat /\
  agree_on (ns_seen (out_state (nested_call nP npi 2 60 [rep1; rep2] (fun i => i) (ns_new nP nus)))) npi (fun x => if Qeq_bool (nth 0 x 0) (1 # 100) then 7 else npi x).
Proof. split; [exact n_run|]. split; [reflexivity|]. intros x Hx. vm_compute in Hx. repeat (destruct Hx as [<-|Hx]; [reflexivity|]). destruct Hx. Qed.

Lemma groups_seen P pi timeout m x : forall gs tape s values, In x (ns_seen s) -> In x (ns_seen (out_state (multi_groups P pi timeout m gs tape s values))).
Proof.
  induction gs as [|g gs IH]; intros tape s values H; simpl; auto.
  pose proof (for_seen P pi timeout (mask_positions (g_mask g)) multi_cand (Qltb (ns_radius P) (g_vol g)) x m tape s values H) as G.
  destruct (ns_for _ _ _ _ _ _ _ _ _ _) as [[[s1|s1|e s1] v] t]; cbn [fst out_state] in *; auto.
Qed.
Lemma groups_local P pi pi' timeout m : forall gs tape s values, agree_on (ns_seen (out_state (multi_groups P pi timeout m gs tape s values))) pi pi' ->
  multi_groups P pi' timeout m gs tape s values = multi_groups P pi timeout m gs tape s values.
Proof.
  induction gs as [|g gs IH]; intros tape s values A; simpl in *; auto. rewrite (for_local P pi pi').
  - destruct (ns_for P pi _ _ _ _ _ _ _ _) as [[[s1|s1|e s1] v] t]; auto.
  - intros x Hx. apply A. destruct (ns_for P pi _ _ _ _ _ _ _ _) as [[[s1|s1|e s1] v] t]; cbn [fst out_state] in *; auto. now apply groups_seen.
Qed.
(** C130. The same for multi-nested sampling. *)
Theorem C130_multi :
  forall P oc pi pi' n timeout tape pick s, agree_on (ns_seen (out_state (multi_call P oc pi n timeout tape pick s))) pi pi' ->
  multi_call P oc pi' n timeout tape pick s = multi_call P oc pi n timeout tape pick s.
Proof.
  intros P oc pi pi' n timeout tape pick s A. unfold multi_call in *. cbv zeta in *.
  destruct (cluster_all _ _ _ _ _ _) as [[gs|e]|]; auto. set (m := Nat.max ((n - length (ns_samples s)) / length gs) 1) in *.
  assert (B : agree_on (ns_seen (out_state (multi_groups P pi timeout m gs tape (ns_begin s) (map pi (ns_live s))))) pi pi').
  { intros x Hx. apply A. destruct (multi_groups _ _ _ _ _ _ _ _) as [s1|s1|e s1]; cbn [out_state] in *; auto. now rewrite finish_seen. }
  rewrite (live_local pi pi'); [now rewrite (groups_local P pi pi' _ _ _ _ _ _ B)|]. intros x Hx. apply B. now apply groups_seen.
Qed.
Print Assumptions C130_multi.
Example C130_multi_example : multi_run mP mcall (ns_new mP mus) = Done ms1 /\ (4 <= length (ns_seen ms1))%nat.
Proof. split; [exact m_run|]. vm_compute. lia. Qed.

(** ** M-PMC and deterministic mixture sampling *)
Lemma mp_iter_samples P pi r s s' : mp_iter P pi r s = Done s' -> forall x, In x (mp_samples s) -> In x (mp_samples s').
Proof.
  unfold mp_iter. cbv zeta. destruct (mixture_sample _ _ _ _) as [xs|e]; [|discriminate]. destruct (Qeq_bool _ 0).
  - intros H. injection H as <-. intros x Hx. cbn [mp_samples]. apply in_or_app. now left.
  - destruct (mp_adapt _ _ _ _ _ _ _) as [[alpha props] [|]]; [|discriminate]. intros H. injection H as <-. intros x Hx. cbn [mp_samples]. apply in_or_app. now left.
Qed.
Lemma mp_iter_local P pi pi' r s s' : mp_iter P pi r s = Done s' -> agree_on (mp_samples s') pi pi' -> mp_iter P pi' r s = Done s'.
Proof.
  unfold mp_iter. cbv zeta. destruct (mixture_sample _ _ _ _) as [xs|e]; [|discriminate]. intros H A.
  assert (B : agree_on xs pi pi').
  { intros x Hx. apply A. destruct (Qeq_bool _ 0); [injection H as <-; cbn [mp_samples]; apply in_or_app; now right|].
    destruct (mp_adapt _ _ _ _ _ _ _) as [[alpha props] [|]]; [|discriminate]. injection H as <-. cbn [mp_samples]. apply in_or_app. now right. }
  replace (map (mp_raw P pi' s) xs) with (map (mp_raw P pi s) xs); [exact H|]. apply map_ext_in. intros x Hx. unfold mp_raw. now rewrite (B x Hx).
Qed.
Lemma mp_loop_samples P pi n timeout tape x : forall e s s', mp_loop P pi n timeout tape e s = Done s' -> In x (mp_samples s) -> In x (mp_samples s').
Proof.
  induction tape as [|r t IH]; intros e s s' H Hx; simpl in H; destruct (_ && _); try (destruct (mp_dead s)); try discriminate; try (injection H as <-; exact Hx).
  destruct (mp_iter P pi r s) as [s1|s1|x0 s1] eqn:E; try discriminate. apply (IH _ _ _ H). exact (mp_iter_samples _ _ _ _ _ E x Hx).
Qed.
(** C130. M-PMC: a call that returns depends on the values of the target at the returned samples only. *)
Theorem C130_mpmc :
  forall P pi pi' n timeout tape s s', mp_call P pi n timeout tape s = Done s' -> agree_on (mp_samples s') pi pi' -> mp_call P pi' n timeout tape s = Done s'.
Proof.
  intros P pi pi' n timeout tape s s'. unfold mp_call. generalize 0 as e. revert s. induction tape as [|r t IH]; intros s e H A; simpl in *; destruct (_ && _); auto; destruct (mp_dead s); auto.
  destruct (mp_iter P pi r s) as [s1|s1|x0 s1] eqn:E; try discriminate. rewrite (mp_iter_local P pi pi' r s s1 E); [apply IH; auto|].
  intros x Hx. apply A. exact (mp_loop_samples _ _ _ _ _ _ _ _ _ H Hx).
Qed.
Print Assumptions C130_mpmc.
Example C130_mpmc_example : exists s', mp_call (vmp 2) vpi 2 1 [vgood] (v0 2) = Done s' /\ length (mp_samples s') = 2%nat.
Proof. eexists. split; [apply done_run; vm_compute; reflexivity|vm_compute; reflexivity]. Qed.

Lemma weigh_local P pi pi' ms xs : agree_on xs pi pi' -> pop_weigh P pi' ms xs = pop_weigh P pi ms xs.
Proof. intros A. unfold pop_weigh. apply map_ext_in. intros x Hx. now rewrite (A x Hx). Qed.
Lemma dm_keeps P pi r xs ws s s' : pop_adapt DM P pi r xs ws s = Done s' -> pop_samples s' = pop_samples s.
Proof. unfold pop_adapt, dm_adapt. cbv zeta. intros H. repeat match type of H with context [match ?x with _ => _ end] => destruct x end; try discriminate; injection H as <-; reflexivity. Qed.
Lemma dm_iter_local P pi pi' r s s' : pop_iter DM P pi r s = Done s' -> agree_on (pop_samples s') pi pi' -> pop_iter DM P pi' r s = Done s' /\ (forall x, In x (pop_samples s) -> In x (pop_samples s')).
Proof.
  unfold pop_iter. cbv zeta. intros H A.
  match type of H with match pop_adapt DM P pi r ?xs ?ws ?s1 with _ => _ end = _ => destruct (pop_adapt DM P pi r xs ws s1) as [s2|s2|e s2] eqn:E end; try discriminate.
  injection H as <-. pose proof (dm_keeps _ _ _ _ _ _ _ E) as K. cbn [pop_samples] in *. split; [|intros x Hx; rewrite K; apply in_or_app; now left].
  rewrite (weigh_local P pi pi'); [|intros x Hx; apply A; apply in_or_app; now right]. change (pop_adapt DM P pi') with (pop_adapt DM P pi). now rewrite E.
Qed.
Lemma dm_loop_samples P pi n timeout tape x : forall e s s', pop_loop DM P pi n timeout tape e s = Done s' -> In x (pop_samples s) -> In x (pop_samples s').
Proof.
  induction tape as [|r t IH]; intros e s s' H Hx; simpl in H; destruct (_ && _); try discriminate; try (injection H as <-; exact Hx).
  destruct (pop_iter DM P pi r s) as [s1|s1|x0 s1] eqn:E; try discriminate. apply (IH _ _ _ H).
  exact (proj2 (dm_iter_local P pi pi r s s1 E (fun y _ => eq_refl)) x Hx).
Qed.
(** C130. Deterministic mixture sampling: the same. *)
Theorem C130_dm :
  forall P pi pi' n timeout tape s s', pop_call DM P pi n timeout tape s = Done s' -> agree_on (pop_samples s') pi pi' -> pop_call DM P pi' n timeout tape s = Done s'.
Proof.
  intros P pi pi' n timeout tape s s'. unfold pop_call. generalize 0 as e. revert s. induction tape as [|r t IH]; intros s e H A; simpl in *; destruct (_ && _); auto.
  destruct (pop_iter DM P pi r s) as [s1|s1|x0 s1] eqn:E; try discriminate.
  destruct (dm_iter_local P pi pi' r s s1 E) as (-> & _); [|apply IH; auto]. intros x Hx. apply A. exact (dm_loop_samples _ _ _ _ _ _ _ _ _ H Hx).
Qed.
Print Assumptions C130_dm.
Example C130_dm_example : pop_call DM wpop wpi 4 1 [wround] w0 = Done wdm /\ length (pop_samples wdm) = 4%nat.
Proof. split; [exact wdm_run|vm_compute; reflexivity]. Qed.
