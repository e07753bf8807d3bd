(** Lemmas for the pictures of the samplers. *)
From Coq Require Import List Bool Arith Lia QArith Lqa.
Import ListNotations.
From Verif Require Import Prelude.Py Prelude.QBase Prelude.QFacts Prelude.ListFacts Model.Base Model.DensityPlots Model.MetropolisHastings Model.Tree Model.HiDaisee Model.SamplerPicture
  Spec.TreeSpec Spec.UniformSpec Spec.SplitSpec Spec.PictureRects Proofs.TreeCells Proofs.TreeProofs Proofs.MHProofs Proofs.MHBook.
Open Scope Q_scope.

Definition as_rect (r : rectangle) : rect := ((rc_x r, rc_y r), (rc_w r, rc_h r)).
Definition cell_rect (c : cell) : rect := ((nth 0 (fst c) 0 - snd c, nth 1 (fst c) 0 - snd c), (2 * snd c, 2 * snd c)).

(** * Trees of cubes *)
Lemma flat_map_single {A B : Type} (f : A -> list B) (g : A -> B) l : (forall a, In a l -> f a = [g a]) -> flat_map f l = map g l.
Proof. induction l as [|a l IH]; intros H; [reflexivity|]. simpl. rewrite (H a (or_introl eq_refl)), IH; [reflexivity|]. intros b Hb. apply H. now right. Qed.
Lemma tree_rects_cells d whole k t : tree_inv d whole k t -> map as_rect (tree_rects t) = map cell_rect (leaf_cells t).
Proof.
  intros I. unfold tree_rects, leaf_cells. rewrite (flat_map_single _ (fun i => let c := leaf_cell t i in mkRect (nth 0 (fst c) 0 - snd c) (nth 1 (fst c) 0 - snd c) (2 * snd c) (2 * snd c))).
  - rewrite !map_map. reflexivity.
  - intros i Hi. apply In_nth_error in Hi. destruct Hi as (j & J). pose proof (ti_leaf_lt _ _ _ _ I _ _ J). unfold leaf_cell. destruct (nth_error (t_nodes t) i) as [n|] eqn:E; [reflexivity|]. apply nth_error_None in E. lia.
Qed.
Lemma leaf_cells_two whole k t c : tree_inv 2 whole k t -> In c (leaf_cells t) -> length (fst c) = 2%nat.
Proof.
  intros I H. unfold leaf_cells in H. apply in_map_iff in H. destruct H as (i & <- & Hi). apply In_nth_error in Hi. destruct Hi as (j & J). pose proof (ti_leaf_lt _ _ _ _ I _ _ J).
  unfold leaf_cell. destruct (nth_error (t_nodes t) i) as [n|] eqn:E; [|apply nth_error_None in E; lia]. exact (proj1 (proj2 (ti_node _ _ _ _ I i n E))).
Qed.
Lemma two (l : list Q) : length l = 2%nat -> exists a b, l = [a; b].
Proof. destruct l as [|a [|b [|c l]]]; try discriminate. eauto. Qed.
Lemma on_cell c x y : length (fst c) = 2%nat -> (on_rect (cell_rect c) x y <-> in_closed c [x; y]).
Proof.
  destruct c as (l & r). simpl. intros L. destruct (two l L) as (a & b & ->). unfold in_closed. simpl. split.
  - intros ((A & B) & C & D). repeat constructor; lra.
  - intros F. inversion F as [|? ? ? ? (A & B) F']; subst. inversion F' as [|? ? ? ? (C & D) _]; subst. lra.
Qed.
Lemma in_cell c x y : length (fst c) = 2%nat -> in_rect (cell_rect c) x y -> in_open c [x; y].
Proof. destruct c as (l & r). simpl. intros L. destruct (two l L) as (a & b & ->). unfold in_open. simpl. intros ((A & B) & C & D). repeat constructor; lra. Qed.
Lemma area_cell c : length (fst c) = 2%nat -> area (cell_rect c) == cell_volume c.
Proof. destruct c as (l & r). simpl. intros L. unfold area, cell_volume. simpl. rewrite L. simpl. ring. Qed.
Lemma tiles_paves cs whole : (forall c, In c cs -> length (fst c) = 2%nat) -> length (fst whole) = 2%nat -> tiles cs whole -> paves (map cell_rect cs) (cell_rect whole).
Proof.
  intros L Lw (A & B & C & D). split; [|split; [|split]].
  - intros x y H. apply on_cell in H; [|exact Lw]. destruct (A _ H) as (c & Ic & Hc). exists (cell_rect c). split; [now apply in_map|]. apply on_cell; auto.
  - intros r x y Ir Hr. apply in_map_iff in Ir. destruct Ir as (c & <- & Ic). apply on_cell; [exact Lw|]. apply (B c); [exact Ic|]. apply on_cell; auto.
  - intros i j r r' x y Hi Hj Hr Hr'. assert (M : forall k q, nth_error (map cell_rect cs) k = Some q -> exists c, nth_error cs k = Some c /\ q = cell_rect c).
    { clear. induction cs as [|c cs IH]; intros [|k] q E; try discriminate E; [injection E as <-; exists c; auto|exact (IH k q E)]. }
    destruct (M _ _ Hi) as (c & Ei & ->). destruct (M _ _ Hj) as (c' & Ej & ->). apply (C i j c c' [x; y]); auto; apply in_cell; auto; apply L; eapply nth_error_In; eauto.
  - rewrite (area_cell whole Lw), <- D. clear - L. induction cs as [|c cs IH]; [reflexivity|]. unfold total_area in *. simpl. rewrite IH by (intros; apply L; now right). rewrite area_cell by (apply L; now left). reflexivity.
Qed.

(** * Trees of boxes *)
Definition rect_box (r : rect) : list Q * list Q := let '((a, b), (w, h)) := r in ([a; b], [a + w; b + h]).
Definition hnode_rect (n : hnode) : rect :=
  ((nth 0 (h_center n) 0 - nth 0 (h_radius n) 0, nth 1 (h_center n) 0 - nth 1 (h_radius n) 0), (2 * nth 0 (h_radius n) 0, 2 * nth 1 (h_radius n) 0)).
Lemma hnode_inside n x : length (h_center n) = 2%nat -> length (h_radius n) = 2%nat ->
  (inside (rect_box (hnode_rect n)) x <-> inside (map2 Qminus (h_center n) (h_radius n), map2 Qplus (h_center n) (h_radius n)) x).
Proof.
  unfold hnode_rect. intros L1 L2. destruct (two _ L1) as (a & b & ->). destruct (two _ L2) as (r & s & ->). unfold inside. cbn [rect_box fst snd map2 nth].
  destruct x as [|u [|v [|? ?]]]; simpl; try tauto. split; intros (A & B & C & D & _); repeat split; lra.
Qed.
Lemma hnode_volume n : length (h_center n) = 2%nat -> length (h_radius n) = 2%nat ->
  box_volume (rect_box (hnode_rect n)) == box_volume (map2 Qminus (h_center n) (h_radius n), map2 Qplus (h_center n) (h_radius n)).
Proof. unfold hnode_rect. intros L1 L2. destruct (two _ L1) as (a & b & ->). destruct (two _ L2) as (r & s & ->). unfold box_volume. cbn [rect_box fst snd map2 nth volume]. ring. Qed.
Lemma hnode_corners n : length (h_center n) = 2%nat -> length (h_radius n) = 2%nat -> Forall (fun r => 0 < r) (h_radius n) ->
  corners (fst (rect_box (hnode_rect n))) (snd (rect_box (hnode_rect n))).
Proof.
  unfold hnode_rect. intros L1 L2. destruct (two _ L1) as (a & b & ->). destruct (two _ L2) as (r & s & ->). intros F. inversion F as [|? ? R F']; subst. inversion F' as [|? ? S' _]; subst.
  cbn [rect_box fst snd nth]. repeat constructor; lra.
Qed.
(** The pieces by their position in the list. *)
Lemma sum_positions (f : nat -> Q) (g : nat -> Q) (ids : list nat) : (forall i k, nth_error ids k = Some i -> f k == g i) -> sum_over f (seq 0 (length ids)) == sum_over g ids.
Proof.
  intros H. assert (G : forall b, (forall i k, nth_error ids k = Some i -> f (b + k)%nat == g i) -> sum_over f (seq b (length ids)) == sum_over g ids).
  { clear H. induction ids as [|i ids IH]; intros b H; [reflexivity|]. unfold sum_over in *. simpl. rewrite (IH (S b)).
    - specialize (H i 0%nat eq_refl). rewrite Nat.add_0_r in H. now rewrite H.
    - intros j k E. rewrite Nat.add_succ_comm. now apply H. }
  apply (G 0%nat). exact H.
Qed.
Lemma cuts_positions (ids : list nat) box whole rs : cuts_up ids box whole -> length rs = length ids ->
  (forall k i r, nth_error ids k = Some i -> nth_error rs k = Some r -> (forall x, inside (rect_box r) x <-> inside (box i) x) /\
     box_volume (rect_box r) == box_volume (box i) /\ corners (fst (rect_box r)) (snd (rect_box r))) ->
  cuts_up (seq 0 (length rs)) (fun k => rect_box (nth k rs ((0, 0), (0, 0)))) whole.
Proof.
  intros (N & A & B & C & D) L H.
  assert (P : forall k, In k (seq 0 (length rs)) -> exists i r, nth_error ids k = Some i /\ nth_error rs k = Some r /\ nth k rs ((0, 0), (0, 0)) = r).
  { intros k K. apply in_seq in K. destruct (nth_error ids k) as [i|] eqn:Ei; [|apply nth_error_None in Ei; lia]. destruct (nth_error rs k) as [r|] eqn:Er; [|apply nth_error_None in Er; lia].
    exists i, r. repeat (split; auto). now apply nth_error_nth. }
  split; [apply seq_NoDup|]. split; [|split; [|split]].
  - intros x. rewrite A. split.
    + intros (i & Ii & X). destruct (In_nth_error _ _ Ii) as (k & K). assert (Lk : (k < length ids)%nat) by (apply nth_error_Some; congruence). exists k. assert (S1 : In k (seq 0 (length rs))) by (apply in_seq; lia). split; [exact S1|].
      destruct (P k S1) as (i' & r & K' & Er & ->). rewrite K in K'. injection K' as <-. now apply (H k i r).
    + intros (k & S1 & X). destruct (P k S1) as (i & r & K & Er & E). rewrite E in X. exists i. split; [eapply nth_error_In; eauto|]. now apply (H k i r).
  - intros k k' x S1 S2 X X'. destruct (P k S1) as (i & r & K & Er & E). destruct (P k' S2) as (i' & r' & K' & Er' & E'). rewrite E in X. rewrite E' in X'.
    assert (i = i'). { apply (B i i' x); [eapply nth_error_In; eauto|eapply nth_error_In; eauto|now apply (H k i r)|now apply (H k' i' r')]. }
    subst i'. apply (proj1 (NoDup_nth_error ids) N); [apply nth_error_Some; congruence|congruence].
  - intros k S1. destruct (P k S1) as (i & r & K & Er & ->). now apply (H k i r).
  - rewrite <- D, L. apply sum_positions. intros i k K. assert (S1 : In k (seq 0 (length rs))) by (apply in_seq; assert ((k < length ids)%nat) by (apply nth_error_Some; congruence); lia).
    destruct (P k S1) as (i' & r & K' & Er & ->). rewrite K in K'. injection K' as <-. now apply (H k i r).
Qed.

(** * The chain is where its trajectory ends. *)
Definition here (s : mh) : Prop := length (mh_types s) = length (mh_traj s) /\ (mh_traj s = [] \/ last (mh_traj s) [] = mh_current s).
Definition settled (o : outcome mh) : Prop := match o with Running _ => True | Done s | Failed _ s => here s end.
Lemma here_step P lp timeout x_old tape : forall acc el x_new s, length (mh_types s) = length (mh_traj s) -> (mh_traj s = [] \/ last (mh_traj s) [] = x_new) ->
  match mh_step_loop P lp timeout x_old tape acc el x_new s with
  | SDone x s' => length (mh_types s') = length (mh_traj s') /\ (mh_traj s' = [] \/ last (mh_traj s') [] = x)
  | SRunning _ => True
  | SFail _ s' => length (mh_types s') = length (mh_traj s') /\ mh_traj s' = []
  end.
Proof.
  assert (Stop : forall x_new s, length (mh_types s) = length (mh_traj s) -> (mh_traj s = [] \/ last (mh_traj s) [] = x_new) ->
    match (match set_last (mh_types s) ACCEPT with
           | Raise e => SFail e s
           | Ok ty => SDone x_new (mkState (mh_core s) (mh_current s) (mh_is_init s) (mh_traj s) ty)
           end) with
    | SDone x s' => length (mh_types s') = length (mh_traj s') /\ (mh_traj s' = [] \/ last (mh_traj s') [] = x)
    | SRunning _ => True
    | SFail _ s' => length (mh_types s') = length (mh_traj s') /\ mh_traj s' = []
    end).
  { intros x_new s L H. destruct (set_last (mh_types s) ACCEPT) as [ty|e] eqn:E.
    - simpl. split; [|exact H]. apply set_last_length in E. congruence.
    - split; [exact L|]. destruct (mh_types s) as [|t ts]; [|discriminate]. destruct (mh_traj s); [reflexivity|discriminate]. }
  induction tape as [|a t IH]; intros acc el x_new s L H; cbn [mh_step_loop]; destruct (negb acc && Qltb el timeout); try exact Logic.I; try (apply Stop; assumption).
  apply IH; simpl; [rewrite !app_length; simpl; lia|]. right. clear. induction (mh_traj s) as [|u l IH]; [reflexivity|]. simpl. destruct (l ++ [mh_propose P x_old a]) eqn:Z; [destruct l; discriminate|exact IH].
Qed.
Lemma here_advance P lp timeout lab tape s : here s -> settled (mh_advance P lp timeout lab tape s).
Proof.
  intros (L & H). unfold mh_advance, mcmc_step. pose proof (here_step P lp timeout (mh_current s) tape false 0 (mh_current s) s L H) as G.
  destruct (mh_step_loop _ _ _ _ _ _ _ _ _) as [x s'|s'|e s']; simpl; auto.
  - destruct (set_last (mh_types s') lab) as [ty|e] eqn:E; simpl; [|split; simpl; tauto]. apply set_last_length in E. split; simpl; [destruct G; congruence|tauto].
  - split; [tauto|left; tauto].
Qed.
Lemma here_steps_n P lp timeout n : forall tape s, here s -> settled (fst (mh_steps_n P lp timeout n tape s)).
Proof.
  induction n as [|n IH]; intros tape s H; simpl; auto. destruct tape as [|e t]; simpl; auto.
  pose proof (here_advance P lp (timeout - se_elapsed e) DECORRELATION (se_attempts e) s H) as G. destruct (mh_advance _ _ _ _ _ _); simpl in *; auto.
Qed.
Lemma here_mcmc P lp timeout n : forall tape s acc, here s -> settled (fst (fst (mcmc P lp timeout n tape s acc))).
Proof.
  induction n as [|n IH]; intros tape s acc H; simpl; auto. pose proof (here_steps_n P lp timeout (mh_steps P) tape s H) as G.
  destruct (mh_steps_n P lp timeout (mh_steps P) tape s) as [[s1|s1|e s1] t1]; simpl in *; auto. destruct (set_last (mh_types s1) SAMPLE) eqn:E; simpl; auto.
  apply IH. apply set_last_length in E. destruct G as (G1 & G2). split; simpl; [congruence|exact G2].
Qed.
Lemma here_burn P lp n : forall tape s, here s -> settled (fst (mh_burn P lp n tape s)).
Proof.
  induction n as [|n IH]; intros tape s H; simpl; auto. destruct tape as [|e t]; simpl; auto.
  pose proof (here_advance P lp 60 BURN_IN (se_attempts e) s H) as G. destruct (mh_advance _ _ _ _ _ _); simpl in *; auto.
Qed.
Lemma here_sample_loop P lp timeout n k : forall tape s acc, here s -> settled (fst (fst (mh_sample_loop P lp timeout n k tape s acc))).
Proof.
  induction k as [|k IH]; intros tape s acc H; simpl; auto. pose proof (here_mcmc P lp timeout n tape s (@nil vec) H) as G.
  destruct (mcmc P lp timeout n tape s []) as [[[s1|s1|e s1] rows] t1]; simpl in *; auto.
Qed.
Lemma here_sample P lp timeout n tape s : here s -> settled (fst (fst (mh_sample P lp timeout n tape s))).
Proof.
  intros H. unfold mh_sample. destruct (mh_is_init s); [now apply here_sample_loop|]. pose proof (here_burn P lp (mh_burnin P) tape s H) as G.
  destruct (mh_burn P lp (mh_burnin P) tape s) as [[s1|s1|e s1] t1]; simpl in *; auto. now apply here_sample_loop.
Qed.
Lemma here_is P lp n timeout tape pick s : here s -> settled (mh_importance_sample P lp n timeout tape pick s).
Proof.
  intros H. unfold mh_importance_sample. assert (G : settled (mh_is_loop P lp timeout n tape 0 s)).
  { generalize 0 as el. revert s H. induction tape as [|e t IH]; intros s H el; cbn [mh_is_loop]; destruct (_ && _); simpl; auto.
    pose proof (here_sample P lp timeout 1 (ie_steps e) s H) as G. destruct (mh_sample P lp timeout 1 (ie_steps e) s) as [[[s1|s1|x s1] rows] t1]; simpl in *; auto. }
  destruct (mh_is_loop _ _ _ _ _ _ _) as [s1|s1|e s1]; auto. destruct (update_model _ _ _); auto.
Qed.
Lemma here_reachable P x0 ops s : mh_reachable P x0 ops s -> here s.
Proof.
  induction 1 as [|ops s o s' H IH Hr]; [split; simpl; auto|]. assert (G : settled (mh_run P o s)).
  { destruct o; simpl; [split; simpl; auto| |now apply here_sample|now apply here_is]. unfold mh_query, core_query. destruct (model (mh_core s)); [exact IH|]. destruct (update_model _ _ _); exact IH. }
  destruct Hr as [Hr|(e & Hr)]; rewrite Hr in G; exact G.
Qed.
