(** Scaled targets and HiDaisee, with the optimism boost scaled along. *)
From Coq Require Import List Bool Arith Lia QArith Lqa.
Import ListNotations.
From Verif Require Import Prelude.Py Prelude.QBase Prelude.QFacts Model.Uniform Model.Mixture Model.Tree Model.HiDaisee Spec.ScaleSpec Proofs.ScaleBase Proofs.ScalePop Proofs.ScaleTree.
Open Scope Q_scope.

Definition row_like (c : Q) (a b : vec * Q) : Prop := fst b = fst a /\ snd b == c * snd a.
Definition hnode_like (c : Q) (n n' : hnode) : Prop :=
  h_center n' = h_center n /\ h_radius n' = h_radius n /\ h_kids n' = h_kids n /\ times 1 (h_q n) (h_q n') /\ Forall2 (row_like c) (h_rows n) (h_rows n').
Definition htree_like (c : Q) (t t' : htree) : Prop := Forall2 (hnode_like c) (ht_nodes t) (ht_nodes t') /\ ht_leaves t' = ht_leaves t.
Definition hd_like (c : Q) (s s' : hd) : Prop :=
  htree_like c (hs_tree s) (hs_tree s') /\ Forall2 (row_like c) (hs_samples s) (hs_samples s') /\ hs_pi s' = hs_pi s /\ hs_q s' = hs_q s /\ hs_draws s' = hs_draws s /\
  fst (hs_model s') = fst (hs_model s) /\ same_weights (snd (hs_model s)) (snd (hs_model s')).

Section Hd.
Variables (P : hd_params) (c : Q) (b' : nat -> nat -> Q) (pi pi' : vec -> Q).
Let P' := mkHP (hp_lo P) (hp_hi P) b' (hp_nmin P) (hp_ess P).
Hypothesis cpos : 0 < c.
Hypothesis bs : forall t n, b' t n == c * hp_boost P t n.
Hypothesis sc : scaled c pi pi'.

Lemma box_like n n' : hnode_like c n n' -> node_box n' = node_box n.
Proof. intros (E1 & E2 & _). unfold node_box. rewrite E1, E2. reflexivity. Qed.
Lemma prob_like n n' x : hnode_like c n n' -> node_prob n' x = node_prob n x.
Proof. intros H. unfold node_prob. rewrite (box_like _ _ H). reflexivity. Qed.
Lemma draw_like n n' u : hnode_like c n n' -> node_draw n' u = node_draw n u.
Proof. intros H. unfold node_draw. rewrite (box_like _ _ H). reflexivity. Qed.
Lemma rows_len n n' : hnode_like c n n' -> length (h_rows n') = length (h_rows n).
Proof. intros (_ & _ & _ & _ & R). symmetry. eapply rel_length; eauto. Qed.
Lemma wsum_like l l' : Forall2 (row_like c) l l' -> Qsum (map snd l') == c * Qsum (map snd l).
Proof. induction 1 as [|a b l l' (_ & H) F IH]; simpl; [ring|]. change (fold_right Qplus 0 ?x) with (Qsum x). rewrite H, IH. ring. Qed.
Lemma sqsum_like l l' : Forall2 (row_like c) l l' -> Qsum (map (fun w => w * w) (map snd l')) == c * c * Qsum (map (fun w => w * w) (map snd l)).
Proof. induction 1 as [|a b l l' (_ & H) F IH]; simpl; [ring|]. change (fold_right Qplus 0 ?x) with (Qsum x). rewrite H, IH. ring. Qed.
Lemma mean_like n n' : hnode_like c n n' -> times c (mean_weight n) (mean_weight n').
Proof.
  intros H. unfold mean_weight. rewrite (rows_len _ _ H). apply times_k with (c / 1); [field|]. apply times_fdivQ; auto; [lra|apply wsum_like; apply H|ring].
Qed.
Lemma ess_like n n' : hnode_like c n n' -> times 1 (node_ess n) (node_ess n').
Proof.
  intros H. unfold node_ess. assert (CC : 0 < c * c) by nra. apply times_k with (c * c / (c * c)); [field; apply Qnz; auto|]. apply times_fdivQ; auto.
  - rewrite (wsum_like _ _ (proj2 (proj2 (proj2 (proj2 H))))). ring.
  - apply sqsum_like, H.
Qed.
Lemma boost_like t n : times c (boost P t n) (boost P' t n).
Proof. unfold boost. destruct (t =? 0)%nat; simpl; auto. Qed.
Lemma add_like n n' x w w' : hnode_like c n n' -> w' == c * w -> hnode_like c (add_row n x w) (add_row n' x w').
Proof. intros (E1 & E2 & E3 & E4 & E5) W. unfold hnode_like; simpl. repeat split; auto. apply app_rel; auto. repeat constructor; auto. Qed.
Lemma setq_like n n' q q' : hnode_like c n n' -> times 1 q q' -> hnode_like c (set_q n q) (set_q n' q').
Proof. intros (E1 & E2 & E3 & E4 & E5) W. unfold hnode_like; simpl. repeat split; auto. Qed.
Lemma push_like k rows rows' : Forall2 (row_like c) rows rows' -> forall l r l' r', hnode_like c l l' -> hnode_like c r r' ->
  let a := push pi k rows l r in let a' := push pi' k rows' l' r' in hnode_like c (fst (fst a)) (fst (fst a')) /\ hnode_like c (snd (fst a)) (snd (fst a')) /\ snd a' = snd a.
Proof.
  induction 1 as [|(x, w) (x', w') rows rows' (E & _) F IH]; intros l r l' r' L R; [simpl; auto|]. simpl in E. subst x'. cbn [push].
  rewrite (proj1 L), (proj1 (proj2 L)), (prob_like _ _ x L), (prob_like _ _ x R).
  assert (W : forall p, pi' x / p == c * (pi x / p)) by (intros p; pose proof (sc x) as S; cbv beta in S; rewrite S; unfold Qdiv; ring).
  destruct (Qltb (nth k x 0) _).
  - destruct (Qle_bool (node_prob l x) 0); [simpl; auto|]. apply IH; auto. apply add_like; auto.
  - destruct (Qle_bool (node_prob r x) 0); [simpl; auto|]. apply IH; auto. apply add_like; auto.
Qed.
Lemma split_like i k t t' : htree_like c t t' -> htree_like c (fst (split pi i k t)) (fst (split pi' i k t')) /\ snd (split pi' i k t') = snd (split pi i k t).
Proof.
  intros (T & L). unfold split. pose proof (F2_nth _ _ _ i T) as H. destruct (nth_error (ht_nodes t) i) as [n|], (nth_error (ht_nodes t') i) as [n'|]; try tauto; [|split; [split; auto|auto]].
  pose proof H as (E1 & E2 & E3 & E4 & E5). rewrite E1, E2, <- (rel_length _ _ _ T), L.
  assert (Q2' : times 1 (fdivflQ (h_q n) (Fin 2)) (fdivflQ (h_q n') (Fin 2))) by (apply times_k with (1 / 1); [field|]; apply times_div; auto; try lra; apply times_refl).
  set (l0 := hnode_new _ _ (fdivflQ (h_q n) (Fin 2))). set (r0 := hnode_new (shift_center _ _ k 1) _ (fdivflQ (h_q n) (Fin 2))).
  set (l0' := hnode_new _ _ (fdivflQ (h_q n') (Fin 2))). set (r0' := hnode_new (shift_center _ _ k 1) _ (fdivflQ (h_q n') (Fin 2))).
  destruct (push_like k _ _ E5 l0 r0 l0' r0') as (A1 & A2 & A3); [unfold hnode_like; simpl; auto|unfold hnode_like; simpl; auto|].
  destruct (push pi k (h_rows n) l0 r0) as [[l r] ok], (push pi' k (h_rows n') l0' r0') as [[l' r'] ok']. simpl in A1, A2, A3. subst ok'. simpl. split; auto. split; simpl; auto.
  apply app_rel; [|constructor; [exact A1|constructor; [exact A2|constructor]]]. apply upd_rel; auto. unfold hnode_like; simpl. repeat split; auto. destruct ok; [constructor|exact E5].
Qed.
Lemma descend_like t t' pick : htree_like c t t' -> forall fuel j i, descend fuel t' pick j i = descend fuel t pick j i.
Proof.
  intros (T & L). induction fuel as [|f IH]; intros j i; cbn [descend]; rewrite L; [reflexivity|]. destruct (existsb _ _); auto.
  pose proof (F2_nth _ _ _ i T) as H. destruct (nth_error (ht_nodes t) i) as [n|], (nth_error (ht_nodes t') i) as [n'|]; try tauto. destruct H as (_ & _ & -> & _).
  destruct (h_kids n) as [[a b]|]; auto.
  pose proof (F2_nth _ _ _ a T) as Ha. pose proof (F2_nth _ _ _ b T) as Hb.
  destruct (nth_error (ht_nodes t) a) as [na|], (nth_error (ht_nodes t') a) as [na'|]; try tauto. destruct (nth_error (ht_nodes t) b) as [nb|], (nth_error (ht_nodes t') b) as [nb'|]; try tauto.
  destruct Ha as (_ & _ & _ & Ha & _), Hb as (_ & _ & _ & Hb & _).
  assert (R : times 1 (fdivflQ (h_q na) (faddQ (h_q nb) (h_q na))) (fdivflQ (h_q na') (faddQ (h_q nb') (h_q na')))).
  { apply times_k with (1 / 1); [field|]. apply times_div; auto; try lra. apply times_add; auto. }
  rewrite (times_lt 1 ltac:(lra) (Fin (pick j)) (Fin (pick j)) _ _ (times_refl _) R). rewrite IH. reflexivity.
Qed.
Lemma leaf_nodes_like t t' : htree_like c t t' -> Forall2 (hnode_like c) (leaf_nodes t) (leaf_nodes t').
Proof.
  intros (T & L). unfold leaf_nodes. rewrite L. clear L. induction (ht_leaves t) as [|i l IH]; simpl; [constructor|]. apply app_rel; auto.
  pose proof (F2_nth _ _ _ i T) as H. destruct (nth_error (ht_nodes t) i) as [n|], (nth_error (ht_nodes t') i) as [n'|]; try tauto; [constructor; [exact H|constructor]|constructor].
Qed.
Lemma filter_rel {A B} (R : A -> B -> Prop) f g l l' : (forall a b, R a b -> g b = f a) -> Forall2 R l l' -> Forall2 R (filter f l) (filter g l').
Proof. intros H. induction 1; simpl; auto. rewrite (H _ _ H0). destruct (f x); auto. Qed.
Lemma total_like t tr tr' : htree_like c tr tr' -> times c (total_ev P t tr) (total_ev P' t tr').
Proof.
  intros T. unfold total_ev. apply times_sum. eapply (map_rel (hnode_like c)).
  - intros a b H. apply times_add; [now apply mean_like|]. rewrite (rows_len _ _ H). apply boost_like.
  - apply filter_rel; [|apply (leaf_nodes_like _ _ T)]. intros a b H. rewrite (rows_len _ _ H). reflexivity.
Qed.
Lemma refresh_like path : forall l l', Forall2 (hnode_like c) l l' -> Forall2 (hnode_like c) (fold_left refresh_q path l) (fold_left refresh_q path l').
Proof.
  induction path as [|i path IH]; intros l l' F; simpl; auto. apply IH. unfold refresh_q. pose proof (F2_nth _ _ _ i F) as H.
  destruct (nth_error l i) as [n|], (nth_error l' i) as [n'|]; try tauto. pose proof H as (_ & _ & -> & _). destruct (h_kids n) as [[a b]|]; auto.
  pose proof (F2_nth _ _ _ a F) as Ha. pose proof (F2_nth _ _ _ b F) as Hb.
  destruct (nth_error l a) as [na|], (nth_error l' a) as [na'|]; try tauto. destruct (nth_error l b) as [nb|], (nth_error l' b) as [nb'|]; try tauto.
  apply upd_rel; auto. apply setq_like; auto. apply times_add; [apply Ha|apply Hb].
Qed.
Lemma hd_turn_scale t rd s s' : hd_like c s s' -> outs (hd_like c) (hd_turn P pi t rd s) (hd_turn P' pi' t rd s').
Proof.
  intros L. pose proof L as (T & S & E1 & E2 & E3 & E4 & E5). unfold hd_turn. rewrite (descend_like _ _ _ T), <- (rel_length _ _ _ (proj1 T)).
  destruct (descend _ (hs_tree s) (hr_pick rd) 0 0) as [[path i]|]; [|exact L]. pose proof (F2_nth _ _ _ i (proj1 T)) as H.
  destruct (nth_error (ht_nodes (hs_tree s)) i) as [n|], (nth_error (ht_nodes (hs_tree s')) i) as [n'|]; try contradiction; [|exact L].
  rewrite (draw_like _ _ _ H), (prob_like _ _ _ H). cbv zeta. set (x := node_draw n (hr_draw rd)). destruct (Qle_bool (node_prob n x) 0).
  { simpl. split; auto. unfold hd_like; simpl. rewrite E1, E2, E3. repeat split; auto; apply T. }
  set (n1 := add_row n x _). set (n1' := add_row n' x _).
  assert (N1 : hnode_like c n1 n1').
  { apply add_like; auto. pose proof (sc x) as Sx. cbv beta in Sx. rewrite Sx. unfold Qdiv. ring. }
  rewrite (rows_len _ _ N1). set (tr1 := mkHT (upd _ i n1) _). set (tr1' := mkHT (upd _ i n1') _).
  assert (T1 : htree_like c tr1 tr1') by (split; simpl; [apply upd_rel; [apply T|exact N1]|apply T]).
  set (n2 := set_q n1 _). set (n2' := set_q n1' _).
  assert (N2 : hnode_like c n2 n2').
  { apply setq_like; auto. apply times_k with (c / c); [field; now apply Qnz|]. apply times_div; auto; [|now apply total_like]. apply times_add; [now apply mean_like|apply boost_like]. }
  set (tr2 := mkHT (fold_left refresh_q _ _) _). set (tr2' := mkHT (fold_left refresh_q _ (upd (ht_nodes tr1') i n2')) _).
  assert (T2 : htree_like c tr2 tr2').
  { split; simpl; [|apply T]. apply refresh_like. apply upd_rel; auto. apply T1. }
  rewrite (rows_len _ _ N2). change (hp_nmin P') with (hp_nmin P). change (hp_ess P') with (hp_ess P).
  rewrite (times_lt 1 ltac:(lra) _ _ (Fin (hp_ess P * Qnat (length (h_rows n2)))) (Fin (hp_ess P * Qnat (length (h_rows n2)))) (ess_like _ _ N2) (times_refl _)).
  destruct (_ && _).
  - destruct (split_like i (hr_dim rd) tr2 tr2' T2) as (A1 & A2). destruct (split pi i (hr_dim rd) tr2) as [tr3 ok], (split pi' i (hr_dim rd) tr2') as [tr3' ok']. simpl in A1, A2. subst ok'.
    assert (K : forall q, hd_like c (mkHD tr3 (hs_samples s) (Datatypes.S (hs_pi s) + q) (Datatypes.S (hs_q s) + q) (Datatypes.S (hs_draws s)) (hs_model s))
                      (mkHD tr3' (hs_samples s') (Datatypes.S (hs_pi s') + q) (Datatypes.S (hs_q s') + q) (Datatypes.S (hs_draws s')) (hs_model s'))).
    { intros q. unfold hd_like; simpl. rewrite E1, E2, E3. split; [exact A1|]. split; auto. }
    destruct ok; cbn [outs]; [apply K|split; [reflexivity|apply K]].
  - cbn [outs]. unfold hd_like; cbn [hs_tree hs_samples hs_pi hs_q hs_draws hs_model]. rewrite E1, E2, E3. split; [exact T2|]. split; auto.
Qed.
Lemma hd_turns_scale rds k : forall t s s', hd_like c s s' -> outs (hd_like c) (hd_turns P pi rds t k s) (hd_turns P' pi' rds t k s').
Proof.
  induction k as [|k IH]; intros t s s' L; [exact L|]. cbn [hd_turns]. pose proof (hd_turn_scale t (rds t) s s' L) as H.
  destruct (hd_turn P pi t (rds t) s), (hd_turn P' pi' t (rds t) s'); simpl in H; try tauto; auto.
Qed.
Lemma hd_call_scale n rds s s' : hd_like c s s' -> outs (hd_like c) (hd_call P pi n rds s) (hd_call P' pi' n rds s').
Proof.
  intros L. unfold hd_call. rewrite <- (rel_length _ _ _ (proj1 (proj2 L))). pose proof (hd_turns_scale rds (n - length (hs_samples s)) (length (hs_samples s)) s s' L) as H.
  destruct (hd_turns P pi _ _ _ s) as [u|u|e u], (hd_turns P' pi' _ _ _ s') as [u'|u'|e' u']; simpl in H; try contradiction; try exact H. destruct H as (T & S & E1 & E2 & E3 & E4 & E5). cbn [outs].
  pose proof (leaf_nodes_like _ _ T) as LN. unfold hd_like; cbn [hs_tree hs_samples hs_pi hs_q hs_draws hs_model]. split; [exact T|]. split; [|split; [exact E1|split; [exact E2|split; [exact E3|]]]].
  - unfold hd_rows. induction LN as [|a b l l' H F IH]; simpl; [constructor|]. apply app_rel; auto. apply H.
  - unfold hd_model; cbn [fst snd]. split; [|].
    + eapply map_F2 with (R := hnode_like c); [|exact LN]. intros a b H. now apply box_like.
    + rewrite <- (rel_length _ _ _ LN). pose proof (set_weights_scale c (length (leaf_nodes (hs_tree u))) _ _ cpos (map_rel _ _ mean_weight mean_weight _ _ mean_like LN)) as H.
      destruct (set_weights _ _), (set_weights _ _); try tauto. constructor.
Qed.
Lemma hd_new_like : hd_like c (hd_new P) (hd_new P').
Proof. unfold hd_like; simpl. repeat split; auto; repeat constructor; simpl; ring. Qed.
Lemma hd_run_scale o o' s s' : match o, o' with HdCall p n rds, HdCall p' n' rds' => p = pi /\ p' = pi' /\ n' = n /\ rds' = rds | HdSample n, HdSample n' => n' = n | HdReset, HdReset => True | _, _ => False end ->
  hd_like c s s' -> outs (hd_like c) (hd_run P o s) (hd_run P' o' s').
Proof.
  intros O L. destruct o, o'; try tauto.
  - destruct O as (-> & -> & -> & ->). now apply hd_call_scale.
  - subst. destruct L as (T & S & E1 & E2 & E3 & E4 & E5). unfold hd_run; cbn [outs]. unfold hd_like, hd_drawn; simpl. rewrite E3. split; [exact T|]. split; [exact S|]. repeat split; auto.
  - unfold hd_run; cbn [outs]. unfold hd_like; simpl. repeat split; auto; repeat constructor; simpl; ring.
Qed.
End Hd.
