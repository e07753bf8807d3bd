(** Property C115: pictures of the samplers. *)
From Coq Require Import List Bool Arith Lia QArith Lqa Permutation.
Import ListNotations.
From Verif Require Import Prelude.Py Prelude.QBase Prelude.QFacts Prelude.ListFacts Model.Base Model.DensityPlots Model.MetropolisHastings Model.Uniform Model.Population Model.Tree Model.TreeSampler Model.HiDaisee
  Model.SamplerPicture Spec.Box Spec.UniformSpec Spec.TreeSpec Spec.SplitSpec Spec.PictureRects Proofs.TreeCells Proofs.TreeProofs Proofs.TreeSamplerTree Proofs.TreeDensity Proofs.HiDaiseeBox Proofs.HiDaiseeHistory
  Proofs.MHWitness Proofs.MiscProofs Proofs.DensityPlotProofs Proofs.SamplerPictureProofs Properties.TreeSamplerProps Properties.HiDaiseeProps Properties.DensityPlotProps.
Open Scope Q_scope.

(** * The tree sampler: the rectangles pave the square of the root, whatever happened before. *)
Theorem C115_tree P ops s l0 l1 h0 h1 : p_lo P = [l0; l1] -> p_hi P = [h0; h1] -> l0 <= h0 -> l1 <= h1 -> tp_reachable P ops s ->
  let R := root_radius [l0; l1] [h0; h1] in
  length (tree_rects (s_tree s)) = length (t_leaves (s_tree s)) /\
  paves (map as_rect (tree_rects (s_tree s))) (((l0 + h0) / 2 - R, (l1 + h1) / 2 - R), (2 * R, 2 * R)) /\
  forall x y, l0 <= x <= h0 -> l1 <= y <= h1 -> exists r, In r (tree_rects (s_tree s)) /\ on_rect (as_rect r) x y.
Proof.
  intros El Eh B0 B1 Rc R. destruct (tp_grown P ops s Rc) as (tops & T). rewrite El, Eh in T. assert (B : is_box [l0; l1] [h0; h1]) by (simpl; auto).
  pose proof (tree_reachable_inv _ _ _ _ B T) as I. change (length [l0; l1]) with 2%nat in I. pose proof (tree_rects_cells _ _ _ _ I) as E.
  assert (Pv : paves (map as_rect (tree_rects (s_tree s))) (((l0 + h0) / 2 - R, (l1 + h1) / 2 - R), (2 * R, 2 * R))).
  { rewrite E. apply (tiles_paves _ (root_center [l0; l1] [h0; h1], R)); [intros c; eapply leaf_cells_two; eauto|reflexivity|exact (ti_tiles _ _ _ _ I)]. }
  split; [|split; [exact Pv|]].
  - rewrite <- (map_length as_rect), E, map_length. unfold leaf_cells. apply map_length.
  - intros x y X Y. assert (W : on_rect (((l0 + h0) / 2 - R, (l1 + h1) / 2 - R), (2 * R, 2 * R)) x y).
    { unfold R, root_radius. cbn [map2 max_list]. unfold on_rect.
      pose proof (qmax_ge ((h0 - l0) / 2) ((h1 - l1) / 2)) as (A & C). set (m := qmax ((h0 - l0) / 2) ((h1 - l1) / 2)) in *. clearbody m.
      assert (E0 : (l0 + h0) / 2 == (l0 + h0) * (1 # 2)) by field. assert (E1 : (l1 + h1) / 2 == (l1 + h1) * (1 # 2)) by field.
      assert (E2 : (h0 - l0) / 2 == (h0 - l0) * (1 # 2)) by field. assert (E3 : (h1 - l1) / 2 == (h1 - l1) * (1 # 2)) by field. rewrite E2 in A. rewrite E3 in C. split; [split; rewrite E0; lra|split; rewrite E1; lra]. }
    destruct Pv as (Cv & _). destruct (Cv x y W) as (r & Ir & Hr). apply in_map_iff in Ir. destruct Ir as (q & <- & Iq). eauto.
Qed.
Print Assumptions C115_tree.
Definition square_tp : tp_params := mkTP [0; 0] [1; 1] Haar Simple true (Some 2) 1 1 (fun _ _ _ => 1) 10.
Example C115_tree_example : p_lo square_tp = [0; 0] /\ p_hi square_tp = [1; 1] /\ exists ops s, tp_reachable square_tp ops s /\ length (tree_rects (s_tree s)) = 4%nat.
Proof.
  split; [reflexivity|]. split; [reflexivity|]. exists [(TpCall (fun _ => 1) 2 1 [1 # 2; 1 # 2] [mkR (fun _ => 0) (fun _ => [1 # 2; 1 # 2]) (fun _ => [1 # 2; 1 # 2]) 0 (fun _ _ => 0) (fun _ _ => [1 # 2; 1 # 2]) (fun _ _ => 0) (fun _ _ => [1 # 2; 1 # 2])], true)].
  eexists. split; [eapply tp_done; [apply tp_init|]; vm_compute; reflexivity|]. vm_compute. reflexivity.
Qed.

(** * HiDaisee: every point of the space is in exactly one rectangle. *)
Theorem C115_hidaisee P ops s l0 l1 h0 h1 : hp_lo P = [l0; l1] -> hp_hi P = [h0; h1] -> l0 < h0 -> l1 < h1 -> hd_reachable P ops s -> dims_ok 2 ops ->
  let rs := map as_rect (hd_rects (hs_tree s)) in
  length rs = length (ht_leaves (hs_tree s)) /\ cuts_up (seq 0 (length rs)) (fun k => rect_box (nth k rs ((0, 0), (0, 0)))) ([l0; l1], [h0; h1]).
Proof.
  intros El Eh B0 B1 R D rs. assert (C : corners (hp_lo P) (hp_hi P)) by (rewrite El, Eh; repeat constructor; assumption). assert (D' : dims_ok (length (hp_lo P)) ops) by (rewrite El; exact D).
  destruct (C52_partition P ops s C R D') as (Cut & Leaf). rewrite El, Eh in Cut.
  set (g := fun i => match nth_error (ht_nodes (hs_tree s)) i with Some n => hnode_rect n | None => ((0, 0), (0, 0)) end).
  assert (Er : rs = map g (ht_leaves (hs_tree s))).
  { unfold rs, hd_rects. rewrite (flat_map_single _ (fun i => let '((a, b), (w, h)) := g i in mkRect a b w h)).
    - rewrite map_map. apply map_ext. intros i. destruct (g i) as ((a & b) & (w & h)). reflexivity.
    - intros i Hi. destruct (Leaf i Hi) as (n & En & _). unfold g. rewrite En. reflexivity. }
  split; [rewrite Er; apply map_length|]. apply (cuts_positions _ _ _ _ Cut); [rewrite Er; apply map_length|].
  intros k i r K Kr. rewrite Er, (map_nth_error _ _ _ K) in Kr. injection Kr as <-. destruct (Leaf i (nth_error_In _ _ K)) as (n & En & Lc & Lr & Pos). rewrite El in Lc, Lr. unfold g. rewrite En.
  split; [intros x; now apply hnode_inside|]. split; [now apply hnode_volume|now apply hnode_corners].
Qed.
Print Assumptions C115_hidaisee.
Definition square_hd : hd_params := mkHP [0; 0] [1; 1] (fun t N => if (t =? 1)%nat then 0 else 1 / Qnat N) 2 (9 # 10).
Definition square_rounds (t : nat) : hround := mkHR (fun _ => 0) (fun _ => nth t [3 # 4; 1 # 3] (1 # 3)) 1.
Example C115_hidaisee_example : exists ops s, hd_reachable square_hd ops s /\ dims_ok 2 ops /\ length (hd_rects (hs_tree s)) = 2%nat.
Proof.
  exists [(HdCall (fun x => 1 + 9 * nth 0 x 0) 3 square_rounds, true)], (out_state (hd_call square_hd (fun x => 1 + 9 * nth 0 x 0) 3 square_rounds (hd_new square_hd))). split; [|split].
  - apply (hd_done _ [] (hd_new square_hd)); [constructor|]. vm_compute. reflexivity.
  - intros pi n rds b [E|[]]. injection E as <- <- <- <-. intros t. simpl. lia.
  - vm_compute. reflexivity.
Qed.

(** * Mixture samplers *)
(** One line for every sample, as high as its weight, and the curves of C114_components, as soon as there are samples. *)
Theorem C115_mixture_partial lo hi parts d rows : lo <= hi -> parts <> [] -> rows <> [] ->
  exists cs again c lines, mixture_draw1d lo hi parts d rows = Ok (cs, again, c, lines) /\ draw1d lo hi parts d = Ok (cs, again, c) /\
    forall x w, In (x, w) lines <-> In (x, w) rows.
Proof.
  intros B Np Nr. unfold mixture_draw1d, draw1d. assert (Cs : exists cs, curves lo hi parts = Ok cs /\ length cs = length parts).
  { clear Np. induction parts as [|(w & q) r IH]; [exists []; auto|]. destruct IH as (cs & E & L). cbn [curves]. rewrite (plot_pdf_count lo hi (1 # 100) w q ltac:(lra) B), E. eexists. split; [reflexivity|]. simpl. now rewrite L. }
  destruct Cs as (cs & Ec & L). rewrite Ec. destruct (rev cs) as [|a t] eqn:Er. { assert (length (rev cs) = 0%nat) by (rewrite Er; reflexivity). rewrite rev_length in H. destruct parts; [congruence|simpl in L; lia]. }
  rewrite (plot_pdf_count lo hi (1 # 100) 1 d ltac:(lra) B). destruct (rev rows) as [|row rr] eqn:Rr. { apply (f_equal (@rev _)) in Rr. rewrite rev_involutive in Rr. simpl in Rr. congruence. }
  do 4 eexists. split; [reflexivity|]. split; [reflexivity|]. intros x w. rewrite in_app_iff. split; [|auto]. intros [H|[H|[]]]; [exact H|]. subst row. apply in_rev. rewrite Rr. now left.
Qed.
Print Assumptions C115_mixture_partial.
Example C115_mixture_example : exists pic lines, mixture_draw1d 0 (1 # 50) [(1, fun v => nth 0 v 0)] (fun v => nth 0 v 0) [(1 # 4, 1 # 3); (1 # 2, 2 # 3)] = Ok (pic, lines) /\ length lines = 3%nat.
Proof. do 2 eexists. split; [vm_compute; reflexivity|reflexivity]. Qed.
(** Before the first sample drawing fails. *)
Theorem C115_fresh_refuted : exists parts d e, Qsum (map fst parts) == 1 /\ mixture_draw [0] [1] parts d [] = Raise e.
Proof. exists [(1, fun _ => 1)], (fun _ => 1), UnboundLocalError. split; [reflexivity|]. vm_compute. reflexivity. Qed.
Print Assumptions C115_fresh_refuted.
(** In two dimensions it fails in every state, in more nothing is drawn. *)
Theorem C115_two_axes_refuted : exists lo hi parts d rows e, length lo = 2%nat /\ length hi = 2%nat /\ Qsum (map fst parts) == 1 /\ rows <> [] /\ mixture_draw lo hi parts d rows = Raise e.
Proof. exists [0; 0], [1; 1], [(1, fun _ => 1)], (fun _ => 1), [([0; 0], 1)], AttributeError. repeat (split; [reflexivity || discriminate|]). reflexivity. Qed.
Print Assumptions C115_two_axes_refuted.

(** * Metropolis-Hastings: the dashed curve is the density of the next proposal, where the chain is now. *)
Theorem C115_chain_partial P x0 ops s lo hi q : mh_reachable P x0 ops s -> mh_traj s <> [] -> lo <= hi ->
  exists c, mh_dashed lo hi q s = Ok c /\ Z.of_nat (length c) = Qround.Qfloor ((hi - lo) / (1 # 10)) /\
    forall x y, In (x, y) c -> lo <= x <= hi /\ y == q (vsub [x] (mh_current s)).
Proof.
  intros R N B. destruct (here_reachable _ _ _ _ R) as (_ & [H|H]); [congruence|]. unfold mh_dashed. destruct (rev (mh_traj s)) as [|z t] eqn:E.
  { apply (f_equal (@rev _)) in E. rewrite rev_involutive in E. simpl in E. congruence. }
  assert (z = mh_current s). { rewrite <- H. apply (f_equal (@rev _)) in E. rewrite rev_involutive in E. rewrite E. simpl. clear. induction (rev t) as [|u l IH]; [reflexivity|]. simpl. destruct (l ++ [z]) eqn:Z; [destruct l; discriminate|exact IH]. }
  subst z. destruct (C114_curve lo hi (1 # 10) 1 (fun x => q (vsub x (mh_current s))) ltac:(lra) B) as (c & Ec & A & L & _). exists c. split; [exact Ec|]. split; [exact L|].
  intros x y I. destruct (A x y I) as (X & Y). split; [exact X|]. rewrite Y. ring.
Qed.
Print Assumptions C115_chain_partial.
Example C115_chain_example : mh_reachable wP wx0 [wop] ws1 /\ mh_traj ws1 <> [].
Proof. destruct confined_example as (_ & _ & _ & R & L & _). split; [exact R|]. intros E. rewrite E in L. discriminate. Qed.
(** Before the first step, drawing fails. *)
Theorem C115_chain_refuted : forall P x0 lo hi q, exists e, mh_reachable P x0 [] (mh_new x0) /\ mh_dashed lo hi q (mh_new x0) = Raise e.
Proof. intros. exists IndexError. split; [constructor|reflexivity]. Qed.
Print Assumptions C115_chain_refuted.
