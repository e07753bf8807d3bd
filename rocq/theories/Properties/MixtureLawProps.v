(** Property C108: draws of a mixture follow the mixture. *)
From Coq Require Import List Bool Arith Lia QArith Lqa.
Import ListNotations.
From Verif Require Import Prelude.Py Prelude.QBase Prelude.QFacts Model.Base Model.Mixture Model.Population Model.Tree Model.TreeSampler Model.MixtureLaw
  Spec.UnbiasedSpec Spec.WalkSpec Spec.TreeSpec Spec.MixtureLawSpec Proofs.PopulationUnbiased Proofs.PopulationProofs Proofs.IndepLaw Proofs.MixtureSelect
  Proofs.MixtureDraws Proofs.TreeCells Proofs.TreeProofs Proofs.TreeMask Proofs.TreeSamplerTree Proofs.TreeSamplerInv Proofs.TreeSamplerLeaves Proofs.TreeResample
  Proofs.TreeDensity Proofs.MixtureTree Properties.TreeSamplerProps Properties.TreeSamplerProps2 Properties.PopulationUnbiasedProps.
Open Scope Q_scope.

(** C108: sample(n) of a mixture returns n independent draws of the mixture law (choose a component with its weight, draw from it):
    every function of the outcome has the expected value it has for such draws. Any weights with total one, any finite component
    laws, any law of the selector's numbers that decides the needed ratios as uniform numbers do. *)
Theorem C108_joint :
  forall (X : Type) (x0 : X) ul ws (laws : list (list (Q * X))) n F,
  prob_vec ws -> fair_choice ul ws -> length laws = length ws -> (forall l, In l laws -> is_law l) ->
  sample_mean x0 ul ws laws n F == expect_each (repeat (mixture_law ws laws) n) (fun xs => F (Ok xs)).
Proof.
  intros X x0 ul ws laws n F V Fa L Hl. unfold sample_mean. apply (joint_mean x0 ul ws laws (fun _ x => x) n F V Fa L Hl laws L).
  intros i _. unfold moved. rewrite <- (map_id (nth i laws [])) at 1. apply map_ext. intros []. reflexivity.
Qed.
Print Assumptions C108_joint.

(** Such a law of the selector's numbers exists for every mixture. *)
Theorem C108_fair_laws : forall ws, prob_vec ws -> exists ul, fair_choice ul ws.
Proof. exact fair_exists. Qed.
Print Assumptions C108_fair_laws.

Definition third_ws : list Q := [1 # 3; 2 # 3].
Definition third_laws : list (list (Q * nat)) := [[(1, 7%nat)]; [(1 # 2, 8%nat); (1 # 2, 9%nat)]].
Lemma third_fair : fair_choice (grid 3) third_ws.
Proof.
  destruct (grid_law 3 ltac:(lia)) as (A & B). split; [exact A|]. split; [exact B|].
  intros [|[|j]] H; [vm_compute; reflexivity|vm_compute; reflexivity|simpl in H; lia].
Qed.
Lemma third_probs : prob_vec third_ws.
Proof. split; [repeat constructor; discriminate|reflexivity]. Qed.
Example C108_joint_example :
  prob_vec third_ws /\ fair_choice (grid 3) third_ws /\ (forall l, In l third_laws -> is_law l) /\
  sample_mean 0%nat (grid 3) third_ws third_laws 2 (fun o => match o with Ok [7%nat; 9%nat] => 1 | _ => 0 end) == 1 # 9.
Proof.
  split; [exact third_probs|]. split; [exact third_fair|]. split.
  - intros l [<-|[<-|[]]]; (split; [reflexivity|]); intros wx H; repeat (destruct H as [<-|H]; [discriminate|]); destruct H.
  - vm_compute. reflexivity.
Qed.
Example C108_fair_laws_example : exists ul, fair_choice ul third_ws /\ length ul = 3%nat.
Proof. exists (grid 3). split; [exact third_fair|reflexivity]. Qed.

(** The means of the proposals of DM-AIS after a turn: independent draws of the batch, each sample being chosen with probability
    proportional to its importance weight (target over the average of the proposals in force). *)
Theorem C108_dm :
  forall P pi ul r s F, comp_pos P -> pop_means s <> [] -> (forall x, 0 <= pi x) ->
  let xs := pop_draws P (pop_means s) r in
  let q := mix_density (map (fun _ => 1 / Qnat (length (pop_means s))) (pop_means s)) (map (pp_comp P) (pop_means s)) in
  let batch := map (fun x => (pi x / q x, x)) xs in
  Exists (fun x => 0 < pi x) xs -> fair_choice ul (map fst (chosen batch)) ->
  centres_mean P pi ul r s F == expect_each (repeat (chosen batch) (length (pop_means s))) F.
Proof. intros P pi ul r s F C M Pi xs q batch Ex Fa. apply (dm_centres P pi r s C M Pi Ex ul F Fa). Qed.
Print Assumptions C108_dm.

(** So they represent the batch without bias: the expected total of any f over the N new centres is N times its self-normalised
    estimate. *)
Theorem C108_dm_mean :
  forall P pi ul r s f, comp_pos P -> pop_means s <> [] -> (forall x, 0 <= pi x) ->
  let xs := pop_draws P (pop_means s) r in
  let q := mix_density (map (fun _ => 1 / Qnat (length (pop_means s))) (pop_means s)) (map (pp_comp P) (pop_means s)) in
  let w := fun x => pi x / q x in
  Exists (fun x => 0 < pi x) xs -> fair_choice ul (map fst (chosen (map (fun x => (w x, x)) xs))) ->
  centres_mean P pi ul r s (fun means => Qsum (map f means)) ==
  Qnat (length (pop_means s)) * (Qsum (map (fun x => w x * f x) xs) / Qsum (map w xs)).
Proof.
  intros P pi ul r s f C M Pi xs q w Ex Fa. rewrite (C108_dm P pi ul r s _ C M Pi Ex Fa). fold xs q.
  pose proof (batch_probs P pi r s C M Pi Ex) as (_ & S1). fold xs in S1. change (dm_density P (pop_means s)) with q in S1.
  rewrite expect_total by (intros l Hl; apply repeat_spec in Hl; subst; exact S1).
  rewrite Qsum_repeat. apply Qmult_comp; [reflexivity|]. fold w. unfold chosen. rewrite !map_map. cbn [fst snd].
  transitivity (Qsum (map (fun x => / Qsum (map w xs) * (w x * f x)) xs)); [|rewrite Qsum_scal; unfold Qdiv; ring].
  change (Qsum (map (fun x => w x / Qsum (map w xs) * f x) xs) == Qsum (map (fun x => / Qsum (map w xs) * (w x * f x)) xs)).
  apply Qsum_ext. intros x _. unfold Qdiv. ring.
Qed.
Print Assumptions C108_dm_mean.

Definition three_round : pop_round := uround 0 [[1]; [3]].
Example C108_dm_example :
  comp_pos upop /\ Exists (fun x => 0 < upi x) (pop_draws upop (pop_means u0) three_round) /\
  fair_choice (grid 4) (map fst (chosen (map (fun x => (upi x / mix_density (map (fun _ => 1 / Qnat 2) (pop_means u0)) (map (pp_comp upop) (pop_means u0)) x, x))
    (pop_draws upop (pop_means u0) three_round)))) /\
  centres_mean upop upi (grid 4) three_round u0 (fun ms => if same_point (nth 0 ms []) [1] && same_point (nth 1 ms []) [1] then 1 else 0) == 9 # 16.
Proof.
  split; [apply uparams|]. split; [constructor; reflexivity|]. split.
  - destruct (grid_law 4 ltac:(lia)) as (A & B). split; [exact A|]. split; [exact B|].
    intros [|[|j]] H; [vm_compute; reflexivity|vm_compute; reflexivity|simpl in H; lia].
  - vm_compute. reflexivity.
Qed.
Example C108_dm_mean_example :
  centres_mean upop upi (grid 4) three_round u0 (fun ms => Qsum (map (fun x => nth 0 x 0) ms)) == 3.
Proof. vm_compute. reflexivity. Qed.

Lemma cell_placed c u : length (fst c) = length u -> placed c u (uniform_draw (cell_lo (fst c) (snd c)) (cell_hi (fst c) (snd c)) u).
Proof.
  destruct c as [c r]. unfold placed, uniform_draw, cell_lo, cell_hi, vadd, vsub. cbn [fst snd]. revert u. induction c as [|a c IH]; intros [|b u] L; try discriminate; simpl.
  - split; auto. intros; lia.
  - destruct (IH u ltac:(simpl in L; lia)) as (A & B). split; [now rewrite A|]. intros [|j] Hj; [simpl; ring|]. apply B. lia.
Qed.
(** The tree sampler (simple flow, uniform kernel, positive target), after a call that returned: sample(m) makes m independent draws of
    the mixture of its cells, each the unit cube mapped onto the cell; of m draws of sample(m) the expected
    number inside a leaf is m times the mass that prob() puts there. *)
Theorem C108_tree :
  forall P ops s pi n timeout u tape s', proper (p_lo P) (p_hi P) -> p_kernel P = Haar -> p_flow P = Simple -> tp_reachable P ops s ->
  ops_ok (unit_open P) (unit_half P) positive ((TpCall pi n timeout u tape, true) :: ops) -> tp_call P pi n timeout u tape s = Done s' ->
  exists cells ws, s_model s' = MMix cells (map Fin ws) /\ length cells = length ws /\ prob_vec ws /\
  (forall ul dl m F, fair_choice ul ws -> unit_law (p_dims P) dl ->
     exists laws, Forall2 (fun c l => Forall2 (fun wu wx => fst wx = fst wu /\ placed c (snd wu) (snd wx)) dl l) cells laws /\
       tree_mean P ul dl (length cells) (s_model s') m F == expect_each (repeat (mixture_law ws laws) m) (fun xs => F (Ok xs))) /\
  forall i nd, In i (t_leaves (s_tree s')) -> nth_error (t_nodes (s_tree s')) i = Some nd ->
  exists p, (forall x, in_open (n_center nd, n_radius nd) x -> exists p', tp_prob P (s_tree s') (s_model s') x = Ok (Fin p') /\ p' == p) /\
    forall ul dl m, fair_choice ul ws -> unit_law (p_dims P) dl ->
      tree_mean P ul dl (length cells) (s_model s') m
        (fun o => match o with Ok xs => count_inside (n_center nd, n_radius nd) xs | Raise _ => - (1) end)
      == Qnat m * (p * cell_volume (n_center nd, n_radius nd)).
Proof.
  intros P ops s pi n timeout u tape s' B Ek F R O E. assert (K : positive_kernel P) by (intros X; congruence).
  inversion O as [|? ? O0 O']; subst. simpl in O0. destruct O0 as (Np & Hu & Ft).
  assert (R' : tp_reachable P ((TpCall pi n timeout u tape, true) :: ops) s') by (eapply tp_done; eauto).
  destruct (done3 P pi n timeout u tape s s' B K F Np Hu Ft (reach3 P ops s B K F R O') E) as (s1 & -> & S1).
  pose proof S1 as ((k & I1) & G1).
  assert (FW : Forall posw (masked (t_mask (s_tree s1)) (t_weights (s_tree s1)))).
  { apply (masked_RW P (whole_cell P) (Q3 P) posw (fun n x w H => proj2 H)); auto. exists k. auto. }
  assert (Rp : forall i m, nth_error (t_nodes (s_tree s1)) i = Some m -> 0 < n_radius m).
  { intros i m Em. apply (tinv_node P (whole_cell P) (proper_radius _ _ B) (s_tree s1) i m (ex_intro _ k I1) Em). }
  assert (Nodes : t_nodes (s_tree (update_model s1)) = t_nodes (s_tree s1) /\ t_leaves (s_tree (update_model s1)) = t_leaves (s_tree s1)).
  { unfold update_model. cbn [s_tree]. unfold self_normalize. destruct (fgtQ _ 0); auto. }
  destruct Nodes as (En & El).
  destruct (model_cells _ _ _ _ I1 Rp FW) as (cells & ws & Em & Lc & Vp & Sp & Cd & Hl).
  exists cells, ws. split; [exact Em|]. split; [exact Lc|]. split; [exact Vp|]. split.
  { intros ul dl m F0 Fa Ud. exists (map (fun c => moved (fun u => uniform_draw (cell_lo (fst c) (snd c)) (cell_hi (fst c) (snd c)) u) dl) cells). split.
    - destruct Ud as (_ & Ul). clear -Cd Ul. induction cells as [|c l IH]; simpl; constructor; [|apply IH; intros; apply Cd; right; auto].
      destruct (Cd c (or_introl eq_refl)) as (D & _). clear -D Ul. induction dl as [|wu dl IH]; simpl; constructor; [|apply IH; intros; apply Ul; right; auto].
      destruct (Ul wu (or_introl eq_refl)) as (Lu & _). split; [reflexivity|]. cbn [fst snd]. apply cell_placed. etransitivity; [exact D|symmetry; exact Lu].
    - rewrite Em. apply (cells_joint P ul dl cells ws Ek Vp Fa Lc Ud). }
  rewrite En, El. intros i nd Hi Hn.
  destruct (Hl i nd Hi Hn) as (j & Hj & Ec & Ew). set (c := (n_center nd, n_radius nd)) in *.
  assert (Vc : 0 < cell_volume c) by (apply power_pos; simpl; specialize (Rp _ _ Hn); lra).
  exists (nth j ws 0 / cell_volume c). split.
  - intros x Ox. assert (Lx : length x = p_dims P).
    { destruct (ti_node _ _ _ _ I1 _ _ Hn) as (_ & D & _). rewrite <- D. unfold in_open in Ox. simpl in Ox. symmetry. eapply ListFacts.forall2_length; eauto. }
    destruct (C49_density P _ _ x B Ek R' Lx) as (v & Ev & Hv & _).
    destruct (Hv i nd) as (w & Ew' & Hw); [rewrite El; auto|rewrite En; auto|exact Ox|]. rewrite Ew in Ew'. inversion Ew'; subst w.
    destruct Hw as (p' & -> & V'). exists p'. split; auto. fold c in V'. rewrite <- V'. field. lra.
  - intros ul dl m Fa Ud. rewrite Em. rewrite <- Ec.
    rewrite (cells_count P ul dl cells ws Ek Vp Fa Lc Ud Cd Sp m j Hj). rewrite Ec. field. lra.
Qed.
Print Assumptions C108_tree.
Example C108_tree_example :
  let P := line Haar Simple true (Some 2) 1 1 in
  ops_ok (unit_open P) (unit_half P) positive [(TpCall (fun _ => 1) 3 1 [1 # 2] [unit_round (1 # 2); unit_round (1 # 2)], true)] /\
  line_call = Done (tp_after line_call) /\ fair_choice (grid 2) [1 # 2; 1 # 4; 1 # 4] /\ unit_law 1 [(1 # 2, [1 # 3]); (1 # 2, [2 # 3])] /\
  tree_mean P (grid 2) [(1, [1 # 3])] 3 (s_model (tp_after line_call)) 1
    (fun o => match o with Ok xs => count_inside ([3 # 4], 1 # 4) xs | Raise _ => - (1) end) == 1 # 2.
Proof.
  split; [apply C49_mass_example|]. split; [apply C49_mass_example|]. split.
  - destruct (grid_law 2 ltac:(lia)) as (A & B). split; [exact A|]. split; [exact B|].
    intros [|[|[|j]]] H; [vm_compute; reflexivity..|simpl in H; lia].
  - split; [|vm_compute; reflexivity]. split; [split; [reflexivity|]|]; intros wu [<-|[<-|[]]]; try discriminate; (split; [reflexivity|repeat constructor]).
Qed.
