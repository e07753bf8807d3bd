(** A child of the root whose value is NaN and who is the left one is never chosen again. *)
From Coq Require Import List Bool Arith Lia QArith Lqa Permutation Sorted.
Import ListNotations.
From Verif Require Import Prelude.Py Prelude.QBase Prelude.QFacts Prelude.ListFacts Model.Uniform Model.HiDaisee Spec.UniformSpec Spec.SplitSpec Spec.ResetSpec
  Proofs.UniformProofs Proofs.HiDaiseeBox Proofs.HiDaiseeProofs Proofs.HiDaiseeHistory Proofs.HiDaiseeValues Proofs.HiDaiseeExplore.
Open Scope Q_scope.

Record stuck (n1 : hnode) (t : htree) : Prop := mkStuck {
  st_root : exists n0, nth_error (ht_nodes t) 0 = Some n0 /\ h_kids n0 = Some (1, 2)%nat;
  st_node : nth_error (ht_nodes t) 1 = Some n1;
  st_leaf : In 1%nat (ht_leaves t);
  st_nroot : ~ In 0%nat (ht_leaves t) }.

Lemma stuck_descend d w pis n1 t pick fuel path i : hinv d w pis t -> stuck n1 t -> h_q n1 = NaN ->
  descend fuel t pick 0 0 = Some (path, i) -> (2 <= i)%nat /\ exists p, path = 0%nat :: p /\ Forall (fun a => 2 <= a)%nat p.
Proof.
  intros I [(n0 & E0 & K0) E1 L1 N0] Nan D.
  destruct fuel as [|fuel]; cbn [descend] in D; destruct (existsb (Nat.eqb 0) (ht_leaves t)) eqn:X; try (apply existsb_In in X; contradiction); try discriminate.
  rewrite E0, K0, E1 in D. destruct (nth_error (ht_nodes t) 2) as [n2|] eqn:E2; [|discriminate]. cbv zeta in D. rewrite Nan in D. simpl in D.
  destruct (descend fuel t pick 1 2) as [(p, leaf)|] eqn:D'; [|discriminate]. injection D as <- <-.
  assert (R2 : rooted t 2).
  { pose proof (hi_root _ _ _ _ I) as R. inversion R as [? Hl|? n a b Nn En Kn La Lb Ra Rb]; [contradiction|]. subst. 
    assert (n = n0) by congruence. subst n. rewrite K0 in Kn. injection Kn as <- <-. exact Rb. }
  pose proof (descend_chain _ _ _ t pick I 2%nat R2 _ _ _ _ D') as Ch. destruct (chain_sorted t p 2 leaf Ch) as (_ & F & L).
  split; [exact L|]. exists p. split; [reflexivity|]. apply Forall_forall. intros a Ha. apply F. exact Ha.
Qed.
Lemma refresh_at nodes i j : i <> j -> nth_error (refresh_q nodes i) j = nth_error nodes j.
Proof.
  intros N. unfold refresh_q. destruct (nth_error nodes i) as [n|]; [|reflexivity]. destruct (h_kids n) as [(a, b)|]; [|reflexivity].
  destruct (nth_error nodes a), (nth_error nodes b); try reflexivity. apply upd_nth_error_neq. exact N.
Qed.
Lemma refreshes_at l : forall nodes j, ~ In j l -> nth_error (fold_left refresh_q l nodes) j = nth_error nodes j.
Proof.
  induction l as [|i l IH]; intros nodes j N; simpl; [reflexivity|]. rewrite IH by (intros H; apply N; right; exact H).
  apply refresh_at. intros ->. apply N. left. reflexivity.
Qed.
Lemma removelast_In (A : Type) (x : A) l : In x (removelast l) -> In x l.
Proof.
  induction l as [|a l IH]; [auto|]. destruct l as [|b l]; [simpl; intros []|]. intros [H|H]; [left; exact H|right; apply IH; exact H].
Qed.
Lemma remove1_keep i l j : j <> i -> In j l -> In j (remove1 i l).
Proof.
  intros N. induction l as [|a l IH]; simpl; [auto|]. intros [->|H].
  - destruct (Nat.eqb_spec j i); [contradiction|left; reflexivity].
  - destruct (Nat.eqb_spec a i); [exact H|right; auto].
Qed.

Lemma stuck_turn d w pis P pi t rd s n1 : hinv d w pis (hs_tree s) -> stuck n1 (hs_tree s) -> h_q n1 = NaN -> (hr_dim rd < d)%nat -> pis pi ->
  stuck n1 (hs_tree (out_state (hd_turn P pi t rd s))).
Proof.
  intros I St Nan Hd Hpi. pose proof St as [(n0 & E0 & K0) E1 L1 N0].
  destruct (turn_spec d w pis P pi t rd s I Hd Hpi) as (path & i & n & Ed & Hi & En & _).
  destruct (stuck_descend _ _ _ _ _ _ _ _ _ I St Nan Ed) as (L2 & p & -> & Fp).
  destruct s as [tr smp cp cq cd mo]. cbn [hs_tree] in *. destruct tr as [nodes leaves]. cbn [ht_nodes ht_leaves] in *.
  assert (Li : (i < length nodes)%nat) by (apply nth_error_Some; congruence).
  unfold hd_turn. cbn [hs_tree ht_nodes ht_leaves hs_samples hs_pi hs_q hs_draws hs_model]. rewrite Ed, En. cbv zeta.
  destruct (Qle_bool _ 0); [exact St|].
  match goal with |- context [set_q ?m ?v] => set (n1' := m) end. match goal with |- context [set_q n1' ?v] => set (qv := v) end. set (n2 := set_q n1' qv). cbn [ht_nodes].
  set (base := upd (upd nodes i n1') i n2).
  set (nodes2 := fold_left refresh_q (refreshed_path (0%nat :: p)) base).
  assert (B1 : nth_error nodes2 1 = Some n1).
  { unfold nodes2. rewrite refreshes_at.
    - unfold base. rewrite !upd_nth_error_neq by lia. exact E1.
    - unfold refreshed_path. rewrite <- in_rev. intros H. apply removelast_In in H. destruct H as [H|[H|H]]; try discriminate.
      rewrite Forall_forall in Fp. specialize (Fp 1%nat H). lia. }
  assert (S2 : sim nodes2 base) by apply refreshes_sim.
  assert (B0 : exists m0, nth_error nodes2 0 = Some m0 /\ h_kids m0 = Some (1, 2)%nat).
  { assert (X : nth_error base 0 = Some n0) by (unfold base; rewrite !upd_nth_error_neq by lia; exact E0).
    destruct (sim_nth _ _ _ _ (sim_sym _ _ S2) X) as (m & Em & Hm). destruct (strip_fields _ _ Hm) as (_ & _ & Km & _).
    exists m. split; [exact Em|congruence]. }
  assert (St2 : stuck n1 (mkHT nodes2 leaves)) by (constructor; cbn [ht_nodes ht_leaves]; assumption).
  destruct (_ && _); [|exact St2].
  unfold split. cbn [ht_nodes ht_leaves]. destruct (nth_error nodes2 i) as [m|] eqn:Em; [|exact St2].
  destruct (push _ _ _ _ _) as ((l, r), ok). 
  assert (Ln : length nodes2 = length nodes) by (rewrite (sim_length _ _ S2); unfold base; rewrite !upd_length; reflexivity).
  assert (G : forall n' lv, In 1%nat lv -> ~ In 0%nat lv -> stuck n1 (mkHT (upd nodes2 i n' ++ [l; r]) lv)).
  { intros n' lv A1 A0. constructor; cbn [ht_nodes ht_leaves]; [| |exact A1|exact A0].
    - destruct B0 as (m0 & A & B). exists m0. rewrite nth_error_app1 by (rewrite upd_length; lia). rewrite upd_nth_error_neq by lia. auto.
    - rewrite nth_error_app1 by (rewrite upd_length; lia). rewrite upd_nth_error_neq by lia. exact B1. }
  destruct ok; simpl; apply G; auto.
  - apply in_or_app. left. apply remove1_keep; [lia|exact L1].
  - intros H. apply in_app_or in H. destruct H as [H|[H|[H|[]]]]; [|lia|lia]. apply N0. eapply remove1_in; exact H.
Qed.

Section Starve.
Variable P : hd_params.
Hypothesis C : corners (hp_lo P) (hp_hi P).
Let d := length (hp_lo P).
Let whole := (hp_lo P, hp_hi P).
Let any := fun _ : vec -> Q => True.

Lemma stuck_turns pi rds n1 : dim_ok d rds -> h_q n1 = NaN -> forall k t s, hinv d whole any (hs_tree s) -> stuck n1 (hs_tree s) ->
  hinv d whole any (hs_tree (out_state (hd_turns P pi rds t k s))) /\ stuck n1 (hs_tree (out_state (hd_turns P pi rds t k s))).
Proof.
  intros Hd Nan. induction k as [|k IH]; intros t s I St; simpl; [auto|].
  pose proof (stuck_turn d whole any P pi t (rds t) s n1 I St Nan (Hd t) Logic.I) as St'.
  destruct (turn_spec d whole any P pi t (rds t) s I (Hd t) Logic.I) as (path & i & n & _ & _ & _ & [(_ & s2 & E2 & T2 & _)|(_ & s2 & I2 & _ & _ & _ & [(E2 & _)|(E2 & _)])]);
    rewrite E2 in St' |- *; simpl in *.
  - rewrite T2 in *. auto.
  - apply IH; assumption.
  - auto.
Qed.
Lemma stuck_call pi n rds n1 s : dim_ok d rds -> h_q n1 = NaN -> hinv d whole any (hs_tree s) -> stuck n1 (hs_tree s) ->
  hinv d whole any (hs_tree (out_state (hd_call P pi n rds s))) /\ stuck n1 (hs_tree (out_state (hd_call P pi n rds s))).
Proof.
  intros Hd Nan I St. pose proof (stuck_turns pi rds n1 Hd Nan (n - length (hs_samples s)) (length (hs_samples s)) s I St) as H.
  unfold hd_call. destruct (hd_turns _ _ _ _ _ _); exact H.
Qed.
Lemma stuck_later s n1 : h_q n1 = NaN -> hinv d whole any (hs_tree s) -> stuck n1 (hs_tree s) -> forall later b, leads_to (hd_run P) s later b ->
  (forall f, ~ In (HdReset, f) later) -> dims_ok d later -> hinv d whole any (hs_tree b) /\ stuck n1 (hs_tree b).
Proof.
  intros Nan I St later b L. induction L as [|o later b c L IH E|o later b e c L IH E]; intros Nr D; [auto| |];
    (destruct IH as (Ib & Sb); [intros f H; apply (Nr f); right; exact H|intros ? ? ? ? H; eapply D; right; eauto|]);
    destruct o as [pi n rds|n|]; simpl in E.
  - pose proof (stuck_call pi n rds n1 b ltac:(eapply D; left; reflexivity) Nan Ib Sb) as H. rewrite E in H. exact H.
  - injection E as <-. simpl. auto.
  - exfalso. eapply Nr. left. reflexivity.
  - pose proof (stuck_call pi n rds n1 b ltac:(eapply D; left; reflexivity) Nan Ib Sb) as H. rewrite E in H. exact H.
  - discriminate.
  - discriminate.
Qed.
(** The samples of the stuck leaf are the only ones in its box. *)
Lemma stuck_rows t n1 : hinv d whole any t -> stuck n1 t -> exists others,
  Permutation (map fst (hd_rows t)) (map fst (h_rows n1) ++ others) /\ Forall (fun x => ~ inside (nbox n1) x) others.
Proof.
  intros I [_ E1 L1 _]. pose proof (remove1_perm 1%nat (ht_leaves t) L1) as Pm.
  set (g := fun i => match nth_error (ht_nodes t) i with Some n => h_rows n | None => [] end).
  assert (Hg : hd_rows t = flat_map g (ht_leaves t)) by apply hd_rows_at.
  exists (map fst (flat_map g (remove1 1 (ht_leaves t)))). split.
  - rewrite Hg. rewrite <- map_app. apply Permutation_map. 
    assert (X : flat_map g (1%nat :: remove1 1 (ht_leaves t)) = h_rows n1 ++ flat_map g (remove1 1 (ht_leaves t))) by (simpl; unfold g at 1; rewrite E1; reflexivity).
    rewrite <- X. apply Permutation_flat_map. exact Pm.
  - apply Forall_forall. intros x Hx Hin. apply in_map_iff in Hx. destruct Hx as ((y, v) & Ey & Hx). simpl in Ey. subst y.
    apply in_flat_map in Hx. destruct Hx as (j & Hj & Hx). unfold g in Hx. destruct (nth_error (ht_nodes t) j) as [m|] eqn:Em; [|destruct Hx].
    pose proof (remove1_in _ _ _ Hj) as Hj'. destruct (hi_rows _ _ _ _ I j m x v Hj' Em Hx) as (Hb & _).
    destruct (hi_cut _ _ _ _ I) as (Nd & _ & Dj & _). assert (j = 1%nat).
    { apply (Dj j 1%nat x Hj' L1); unfold bx; [rewrite Em; exact Hb|rewrite E1; exact Hin]. }
    subst j. pose proof (Permutation_NoDup Pm Nd) as Y. inversion Y. contradiction.
Qed.
End Starve.
Lemma call_samples P pi n rds s c : hd_call P pi n rds s = Done c -> hs_samples c = hd_rows (hs_tree c).
Proof. unfold hd_call. destruct (hd_turns _ _ _ _ _ _); try discriminate. intros E. injection E as <-. reflexivity. Qed.
