(** Nested and multi-nested sampling in renamed coordinates. *)
From Coq Require Import List Bool Arith Lia QArith Lqa.
Import ListNotations.
From Verif Require Import Prelude.Py Prelude.QBase Prelude.QFacts Model.Base Model.Nested Spec.ScaleSpec Spec.AxesSpec Spec.AxesOps Proofs.ScaleBase Proofs.AxesBase.
From Verif Require Proofs.UnitsNested Spec.UnitsOps.
Open Scope Q_scope.

Section Axes.
Variables (dm : nat) (sg : list nat).
Notation R := (relabel dm sg).
Let c : Q := 1.
Let C : 0 < c := eq_refl.
Definition ratio (x y : Q) : Prop := y == c * x.
Definition view_ok (s : nst) : Prop := match ns_view s with Some k => (k < length (ns_live s))%nat | None => True end.
Definition ns_rel (s s' : nst) : Prop :=
  relabels dm sg (ns_live s) (ns_live s') /\ ns_view s' = ns_view s /\ relabels dm sg (ns_rows s) (ns_rows s') /\ Forall2 ratio (ns_L s) (ns_L s') /\
  ns_q_samples s' = ns_q_samples s /\ ns_pi_evals s' = ns_pi_evals s /\ relabels_opt dm sg (ns_model s) (ns_model s') /\ relabels dm sg (ns_seen s) (ns_seen s') /\ view_ok s.
Lemma ns_rel_samples s s' : ns_rel s s' -> relabels dm sg (ns_samples s) (ns_samples s').
Proof.
  intros (H1 & H2 & H3 & _ & _ & _ & _ & _ & V). unfold ns_samples. rewrite H2. unfold view_ok in V. destruct (ns_view s) as [k|]; auto. constructor; [|constructor]. now apply relabels_nth.
Qed.
Lemma ns_rel_append k l l' s s' : ns_rel s s' -> (k < length (ns_live s))%nat -> ratio l l' -> ns_rel (ns_append k l s) (ns_append k l' s').
Proof.
  intros H K E. pose proof (ns_rel_samples _ _ H) as N. unfold ns_append. destruct H as (H1 & H2 & H3 & H4 & H5 & H6 & H7 & H8 & V).
  assert (G : Forall2 ratio (ns_L s ++ [l]) (ns_L s' ++ [l'])) by (apply app_rel; auto).
  destruct N as [|x y xs ys X N]; unfold ns_rel; cbn [ns_live ns_view ns_rows ns_L ns_q_samples ns_pi_evals ns_model ns_seen]; repeat (split; auto); [constructor|].
  change (relabels dm sg ((x :: xs) ++ [nth k (ns_live s) []]) ((y :: ys) ++ [nth k (ns_live s') []])). apply app_rel; [constructor; auto|]. constructor; [|constructor]. now apply relabels_nth.
Qed.
Lemma ns_rel_count pts pts' s s' : relabels dm sg pts pts' -> ns_rel s s' -> ns_rel (ns_count pts s) (ns_count pts' s').
Proof.
  intros F (H1 & H2 & H3 & H4 & H5 & H6 & H7 & H8 & V). unfold ns_rel, ns_count; cbn [ns_live ns_view ns_rows ns_L ns_q_samples ns_pi_evals ns_model ns_seen]. rewrite (relabels_length dm sg _ _ F), H5, H6. repeat (split; auto). now apply app_rel.
Qed.

Section Run.
Variables (P P' : ns_params) (pi pi' : vec -> Q).
Hypothesis Sp : ns_space dm sg P P'.
Hypothesis D : forall x y, R x y -> pi' y == c * pi x.
Lemma ns_search_axes cand cand' v v' timeout big tape tape' : (forall d d', R d d' -> R (cand d) (cand' d')) -> ratio v v' -> Forall2 (redraw_axes dm sg) tape tape' ->
  forall cur cur' el, R cur cur' ->
  let r := ns_search pi cand v timeout big tape cur el in let r' := ns_search pi' cand' v' timeout big tape' cur' el in
  match fst r, fst r' with Some y, Some y' => R y y' | None, None => True | _, _ => False end /\ relabels dm sg (snd r) (snd r').
Proof.
  intros K V F. induction F as [|[d t] [d' t'] l l' (E1 & E2) F IH]; intros cur cur' el X; cbn [ns_search]; rewrite (Qltb_scale c (pi cur) v (pi' cur') v' C (D _ _ X) V);
    destruct (_ && _); simpl; try (split; [exact X|constructor]); try (split; [exact I|constructor]).
  simpl in E1, E2. subst t'. specialize (IH (cand d) (cand' d') t (K _ _ E1)). cbn zeta in IH.
  destruct (ns_search pi cand v timeout big l (cand d) t) as [o s1], (ns_search pi' cand' v' timeout big l' (cand' d') t) as [o' s1']. simpl in *. destruct IH as (I1 & I2). split; auto. constructor; auto.
Qed.
Variable cand : nst -> repl -> vec -> vec.
Hypothesis Cand : forall s s' ev ev' d d', ns_rel s s' -> ns_live s <> [] -> repl_axes dm sg ev ev' -> R d d' -> R (cand s ev d) (cand s' ev' d').
Definition both (r r' : outcome nst * list Q) : Prop := outs ns_rel (fst r) (fst r') /\ Forall2 ratio (snd r) (snd r').
Lemma ns_iter_axes timeout g big ev ev' s s' v v' : ns_rel s s' -> Forall (fun i => (i < length (ns_live s))%nat) g -> repl_axes dm sg ev ev' -> Forall2 ratio v v' ->
  both (ns_iter P pi timeout g cand big ev s v) (ns_iter P' pi' timeout g cand big ev' s' v').
Proof.
  intros L Gr E V. unfold ns_iter. destruct g as [|g0 g]; [split; simpl; auto|].
  assert (G : Forall2 ratio (map (fun i => nth i v 0) (g0 :: g)) (map (fun i => nth i v' 0) (g0 :: g))).
  { apply map_same. intros i. apply nth_scale. exact V. }
  assert (Ln : length (map (fun i => nth i v 0) (g0 :: g)) = length (g0 :: g)) by apply map_length.
  revert G Ln. generalize (map (fun i => nth i v 0) (g0 :: g)) (map (fun i => nth i v' 0) (g0 :: g)). intros w w' G Ln.
  rewrite (argminQ_scale c w w' C G). set (k := nth (argminQ w) (g0 :: g) 0%nat).
  assert (Ne : ns_live s <> []). { inversion Gr; subst. destruct (ns_live s); [simpl in *; lia|discriminate]. }
  assert (K : (k < length (ns_live s))%nat).
  { unfold k. destruct (Nat.lt_ge_cases (argminQ w) (length (g0 :: g))) as [H|H]; [|rewrite nth_overflow by auto; destruct (ns_live s); [congruence|simpl; lia]]. rewrite Forall_forall in Gr. apply Gr. now apply nth_In. }
  assert (F : forall d d', R d d' -> R (cand s ev d) (cand s' ev' d')) by (intros; now apply Cand).
  pose proof E as (_ & E1 & E2). destruct Sp as (Sl & Sh & _).
  assert (X : R (vclip (cand s ev (rp_first ev)) (ns_lo P) (ns_hi P)) (vclip (cand s' ev' (rp_first ev')) (ns_lo P') (ns_hi P'))) by (apply relabel_clip; auto).
  pose proof (ns_search_axes (cand s ev) (cand s' ev') (nth (argminQ w) w 0) (nth (argminQ w) w' 0) timeout big _ _ F (nth_scale c w w' (argminQ w) G) E2 _ _ 0 X) as Hs. cbn zeta in Hs.
  destruct (ns_search pi _ _ _ _ _ _ _) as [o seen], (ns_search pi' _ _ _ _ _ _ _) as [o' seen']. cbn [fst snd] in Hs. destruct Hs as (Ho & Hs).
  assert (Q : ns_rel (ns_count (vclip (cand s ev (rp_first ev)) (ns_lo P) (ns_hi P) :: seen) (ns_append k (nth (argminQ w) w 0) s))
                     (ns_count (vclip (cand s' ev' (rp_first ev')) (ns_lo P') (ns_hi P') :: seen') (ns_append k (nth (argminQ w) w' 0) s'))).
  { apply ns_rel_count; [constructor; auto|]. apply ns_rel_append; auto. apply nth_scale. exact G. }
  destruct o as [y|], o' as [y'|]; try contradiction; [|split; [exact Q|exact V]]. split; [|cbn [snd]; apply upd_rel; [exact V|unfold ratio; now apply D]].
  cbn [fst outs]. revert Q. match goal with |- ns_rel ?u ?u' -> _ => generalize u u' end. intros u u' (H1 & H2 & H3 & H4 & H5 & H6 & H7 & H8 & W).
  unfold ns_rel; cbn [ns_live ns_view ns_rows ns_L ns_q_samples ns_pi_evals ns_model ns_seen]. repeat (split; auto); [apply upd_rel; auto|].
  unfold view_ok in *; cbn [ns_live ns_view]. rewrite UnitsNested.upd_len. exact W.
Qed.
Lemma ns_for_axes timeout g big m : forall tape tape' s s' v v', ns_rel s s' -> Forall (fun i => (i < length (ns_live s))%nat) g -> Forall2 (repl_axes dm sg) tape tape' -> Forall2 ratio v v' ->
  let r := ns_for P pi timeout g cand big m tape s v in let r' := ns_for P' pi' timeout g cand big m tape' s' v' in
  both (fst r) (fst r') /\ Forall2 (repl_axes dm sg) (snd r) (snd r').
Proof.
  induction m as [|m IH]; intros tape tape' s s' v v' L G F V; [simpl; repeat (split; auto)|]. cbn [ns_for]. destruct F as [|ev ev' t t' E F]; [simpl; repeat (split; auto)|].
  pose proof (ns_iter_axes timeout g big ev ev' s s' v v' L G E V) as (H & W). pose proof (UnitsNested.ns_iter_len P pi timeout g cand big ev s v) as Lv.
  destruct (ns_iter P pi timeout g cand big ev s v) as [o w], (ns_iter P' pi' timeout g cand big ev' s' v') as [o' w']. cbn [fst snd] in *.
  destruct o as [s1|s1|e1 s1], o' as [s2|s2|e2 s2]; simpl in H; try tauto; [|simpl; repeat (split; auto)|simpl; split; [split; [exact H|exact W]|auto]].
  apply IH; auto. cbn [out_state] in Lv. now rewrite Lv.
Qed.
End Run.

Lemma nested_cand_axes s s' ev ev' d d' : ns_rel s s' -> ns_live s <> [] -> repl_axes dm sg ev ev' -> relabel dm sg d d' -> R (nested_cand s ev d) (nested_cand s' ev' d').
Proof.
  intros L Ne (E & _) F. unfold nested_cand. rewrite E. rewrite (relabels_length dm sg _ _ (proj1 L)). apply relabel_add; auto. apply relabels_nth; [apply L|]. apply Nat.mod_upper_bound. destruct (ns_live s); [congruence|discriminate].
Qed.
Lemma ns_finish_axes P P' pick s s' : ns_space dm sg P P' -> ns_rel s s' -> outs ns_rel (ns_finish P pick s) (ns_finish P' pick s').
Proof.
  intros (_ & _ & Ek) L. unfold ns_finish. rewrite Ek. pose proof (ns_rel_samples _ _ L) as Sm. pose proof (update_model_axes dm sg (ns_kde P) pick _ _ Sm) as U.
  destruct (ns_samples s) as [|x xs], (ns_samples s') as [|y ys]; try (inversion Sm; fail); [simpl; auto|]. destruct (update_model _ _ (x :: xs)), (update_model _ _ (y :: ys)); try tauto; [|subst; simpl; auto].
  destruct L as (H1 & H2 & H3 & H4 & H5 & H6 & H7 & H8 & V). cbn [outs]. unfold ns_rel; cbn [ns_live ns_view ns_rows ns_L ns_q_samples ns_pi_evals ns_model ns_seen]. repeat (split; auto); first [exact V|exact U].
Qed.
Lemma ns_begin_axes s s' : ns_rel s s' -> ns_rel (ns_begin s) (ns_begin s').
Proof.
  intros (H1 & H2 & H3 & H4 & H5 & H6 & H7 & H8 & V). unfold ns_rel, ns_begin; cbn [ns_live ns_view ns_rows ns_L ns_q_samples ns_pi_evals ns_model ns_seen]. rewrite (relabels_length dm sg _ _ H1), H6.
  repeat (split; auto). now apply app_rel.
Qed.
Lemma live_values_axes pi pi' l l' : (forall x y, R x y -> pi' y == c * pi x) -> relabels dm sg l l' -> Forall2 ratio (map pi l) (map pi' l').
Proof. intros D. apply map_rel. exact D. Qed.
Lemma nested_call_axes P P' pi pi' n timeout tape tape' pick s s' : ns_space dm sg P P' -> (forall x y, R x y -> pi' y == c * pi x) -> Forall2 (repl_axes dm sg) tape tape' -> ns_rel s s' ->
  outs ns_rel (nested_call P pi n timeout tape pick s) (nested_call P' pi' n timeout tape' pick s').
Proof.
  intros Sp D F L. unfold nested_call. rewrite (relabels_length dm sg _ _ (ns_rel_samples _ _ L)), (relabels_length dm sg _ _ (proj1 L)).
  pose proof (ns_for_axes P P' pi pi' Sp D nested_cand nested_cand_axes timeout (seq 0 (length (ns_live s))) true (n - length (ns_samples s)) tape tape' _ _ _ _ (ns_begin_axes _ _ L) (UnitsNested.seq_below _) F (live_values_axes pi pi' _ _ D (proj1 L))) as H.
  cbn zeta in H. destruct (ns_for P pi _ _ _ _ _ _ _ _) as [[o w] t], (ns_for P' pi' _ _ _ _ _ _ _ _) as [[o' w'] t']. cbn [fst snd] in H. destruct H as ((H & _) & _). cbn [fst] in H.
  destruct o, o'; simpl in H; try tauto; try (now apply ns_finish_axes); simpl; auto.
Qed.
Lemma ns_sample_axes P P' pick m s s' : ns_space dm sg P P' -> ns_rel s s' -> outs ns_rel (ns_sample P pick m s) (ns_sample P' pick m s').
Proof.
  intros (_ & _ & Ek) L. unfold ns_sample. rewrite Ek. pose proof (ns_rel_samples _ _ L) as Sm. pose proof (update_model_axes dm sg (ns_kde P) pick _ _ Sm) as U. pose proof L as L0. destruct L as (H1 & H2 & H3 & H4 & H5 & H6 & H7 & H8 & V).
  destruct (ns_model s) as [l|] eqn:El, (ns_model s') as [l'|] eqn:El'; simpl in H7; try tauto;
    [|destruct (update_model _ _ (ns_samples s)), (update_model _ _ (ns_samples s')); try contradiction; [|subst; simpl; auto]];
    cbn [outs]; unfold ns_rel; cbn [ns_live ns_view ns_rows ns_L ns_q_samples ns_pi_evals ns_model ns_seen]; rewrite H5; repeat (split; auto); first [exact V|exact U].
Qed.
Lemma ns_query_axes P P' pick s s' : ns_space dm sg P P' -> ns_rel s s' -> outs ns_rel (ns_query P pick s) (ns_query P' pick s').
Proof.
  intros (_ & _ & Ek) L. unfold ns_query. rewrite Ek. pose proof (ns_rel_samples _ _ L) as Sm. pose proof (update_model_axes dm sg (ns_kde P) pick _ _ Sm) as U. pose proof L as L0. destruct L as (H1 & H2 & H3 & H4 & H5 & H6 & H7 & H8 & V).
  destruct (ns_model s) as [l|] eqn:El, (ns_model s') as [l'|] eqn:El'; simpl in H7; try contradiction; [exact L0|].
  destruct (update_model _ _ (ns_samples s)), (update_model _ _ (ns_samples s')); try contradiction; [|subst; simpl; auto].
    cbn [outs]; unfold ns_rel; cbn [ns_live ns_view ns_rows ns_L ns_q_samples ns_pi_evals ns_model ns_seen]; repeat (split; auto); first [exact V|exact U].
Qed.
Lemma ns_new_axes P P' us us' : ns_space dm sg P P' -> Forall2 R us us' -> ns_rel (ns_new P us) (ns_new P' us').
Proof. intros (Sl & Sh & _) U. unfold ns_rel; simpl. repeat (split; auto); try constructor. now apply relabels_units2. Qed.
Lemma ns_reset_axes P P' us us' s s' : ns_space dm sg P P' -> Forall2 R us us' -> ns_rel (ns_reset P us s) (ns_reset P' us' s').
Proof. intros (Sl & Sh & _) U. unfold ns_rel; simpl. repeat (split; auto); try constructor. now apply relabels_units2. Qed.

(** * Multi-nested *)
Lemma multi_groups_axes P P' pi pi' timeout m : ns_space dm sg P P' -> ns_radius P' == ns_radius P -> (forall x y, R x y -> pi' y == c * pi x) ->
  forall gs gs' tape tape' s s' w w', Forall2 (UnitsNested.group_eq 1) gs gs' -> UnitsNested.groups_in (length (ns_live s)) gs -> Forall2 (repl_axes dm sg) tape tape' -> ns_rel s s' -> Forall2 ratio w w' ->
  outs ns_rel (multi_groups P pi timeout m gs tape s w) (multi_groups P' pi' timeout m gs' tape' s' w').
Proof.
  intros Sp Rr D gs gs' tape tape' s s' w w' G. revert tape tape' s s' w w'. induction G as [|g g' r r' (E1 & E2) G IH]; intros tape tape' s s' w w' I F L W; [exact L|]. cbn [multi_groups].
  rewrite E1. rewrite (Qltb_scale 1 (ns_radius P) (g_vol g) (ns_radius P') (g_vol g') C); [|rewrite Rr; ring|exact E2].
  pose proof (ns_for_axes P P' pi pi' Sp D multi_cand (fun s s' ev ev' d d' _ _ _ H => H) timeout (mask_positions (g_mask g)) (Qltb (ns_radius P) (g_vol g)) m tape tape' s s' w w' L (UnitsNested.positions_below _ _ (Forall_inv I)) F W) as H.
  pose proof (UnitsNested.ns_for_len P pi timeout (mask_positions (g_mask g)) multi_cand (Qltb (ns_radius P) (g_vol g)) m tape s w) as Lv.
  cbn zeta in H. destruct (ns_for P pi _ _ _ _ _ _ _ _) as [[o x] t], (ns_for P' pi' _ _ _ _ _ _ _ _) as [[o' x'] t']. cbn [fst snd] in H, Lv. destruct H as ((H & X) & T). cbn [fst snd] in *.
  destruct o as [s1|s1|e1 s1], o' as [s2|s2|e2 s2]; simpl in H; try contradiction; [|exact H|exact H].
  apply IH; auto. cbn [out_state] in Lv. rewrite Lv. exact (Forall_inv_tail I).
Qed.
Lemma oracle_one oc oc' : oracle_axes oc oc' -> UnitsOps.oracle_units 1 1 oc oc'.
Proof. intros (O1 & O2 & O3). split; [exact O1|]. split; intros; [rewrite O2|rewrite O3]; ring. Qed.
Lemma multi_call_axes P P' oc oc' pi pi' n timeout tape tape' pick s s' : length sg = dm -> ns_space dm sg P P' -> ns_radius P' == ns_radius P -> (forall x y, R x y -> pi' y == c * pi x) ->
  oracle_axes oc oc' -> (forall k, length (o_labels oc k) = length (ns_live s)) -> Forall2 (repl_axes dm sg) tape tape' -> ns_rel s s' ->
  outs ns_rel (multi_call P oc pi n timeout tape pick s) (multi_call P' oc' pi' n timeout tape' pick s').
Proof.
  intros Lsg Sp Rr D O Ln F L. unfold multi_call. rewrite (relabels_length dm sg _ _ (ns_rel_samples _ _ L)), (relabels_length dm sg _ _ (proj1 L)).
  replace (length (ns_lo P')) with (length (ns_lo P)) by (destruct Sp as ((E1 & E2) & _); pose proof (rel_length _ _ _ E2); congruence).
  pose proof (UnitsNested.cluster_all_units (S (length (ns_live s))) 1 (length (ns_live s)) (length (ns_lo P)) oc oc' (4 # 5) (1 # 5) C (oracle_one _ _ O) Ln) as H. pose proof (ns_begin_axes _ _ L) as B.
  destruct (cluster_all _ _ _ oc _ _) as [[gs|e]|], (cluster_all _ _ _ oc' _ _) as [[gs'|e']|]; try contradiction; [|subst; split; [reflexivity|exact B]|exact B].
  destruct H as (G & I0). rewrite <- (rel_length _ _ _ G).
  pose proof (multi_groups_axes P P' pi pi' timeout (Nat.max ((n - length (ns_samples s)) / length gs) 1) Sp Rr D gs gs' tape tape' (ns_begin s) (ns_begin s') _ _ G I0 F B (live_values_axes pi pi' _ _ D (proj1 L))) as H.
  destruct (multi_groups P pi _ _ _ _ _ _) as [s1|s1|e1 s1], (multi_groups P' pi' _ _ _ _ _ _) as [s2|s2|e2 s2]; simpl in H; try contradiction; try exact H. now apply ns_finish_axes.
Qed.
End Axes.
