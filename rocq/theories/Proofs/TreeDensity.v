(** The density of the tree pyramid sampler with the uniform kernel, and its normalisation. *)
From Coq Require Import List Bool Arith Lia QArith Lqa Permutation.
Import ListNotations.
From Verif Require Import Prelude.Py Prelude.QBase Prelude.QFacts Model.Population Model.Tree Model.TreeSampler Spec.TreeSpec
  Proofs.TreeCells Proofs.TreeProofs Proofs.TreeMask Proofs.TreeSamplerTree Proofs.TreeSamplerInv Proofs.TreeSamplerLeaves Proofs.TreeResample
  Proofs.PopulationProofs Proofs.MiscProofs.
Open Scope Q_scope.

Lemma strictly_open c r x : length x = length c -> (strictly_in c r x = true <-> in_open (c, r) x).
Proof.
  unfold in_open. simpl. revert x. induction c as [|a c IH]; intros [|v x] L; simpl in *; try discriminate.
  - split; auto.
  - rewrite !andb_true_iff, !Qltb_true, IH by lia. split.
    + intros [[A B] C]. constructor; auto.
    + intros F. inversion F; subst. tauto.
Qed.
Lemma filter_two {A : Type} (f : A -> bool) l a b r : filter f l = a :: b :: r ->
  exists p q u v, (p < q)%nat /\ nth_error l p = Some u /\ nth_error l q = Some v /\ f u = true /\ f v = true.
Proof.
  induction l as [|x l IH]; simpl; [discriminate|]. destruct (f x) eqn:E.
  - intros H. injection H as H1 H2. assert (I : In b (filter f l)) by (rewrite H2; left; auto). apply filter_In in I. destruct I as (I & Fb).
    apply In_nth_error in I. destruct I as (q & Q). exists 0%nat, (S q), x, b. split; [lia|]. split; [reflexivity|]. split; [exact Q|]. split; [exact E|exact Fb].
  - intros H. destruct (IH H) as (p & q & u & v & L & P & Q & U & V). exists (S p), (S q), u, v. split; [lia|]. auto.
Qed.

Section Density.
Variables (P : tp_params) (t : tree) (whole : cell) (k : nat) (m : tp_model) (x : vec).
Hypothesis I : tree_inv (p_dims P) whole k t.
Hypothesis Ek : p_kernel P = Haar.
Hypothesis Lx : length x = p_dims P.
Let entries := masked (t_mask t) (combine (combine (t_centers t) (t_radii t)) (t_weights t)).
Lemma entries_in p e : nth_error entries p = Some e -> exists i n, rank (t_mask t) i = p /\ nth_error (t_nodes t) i = Some n /\ In i (t_leaves t) /\
  fst (fst e) = n_center n /\ snd (fst e) = n_radius n /\ nth_error (t_weights t) i = Some (snd e).
Proof.
  intros E. pose proof (mask_length _ _ _ _ I) as ML. apply masked_in in E.
  2:{ rewrite !combine_length, (ti_centers _ _ _ _ I), (ti_radii _ _ _ _ I), !map_length, (ti_weights _ _ _ _ I), ML, !Nat.min_id. auto. }
  destruct E as (i & Rk & M & E). rewrite !combine_nth, (ti_centers _ _ _ _ I), (ti_radii _ _ _ _ I), !nth_error_map in E.
  destruct (nth_error (t_nodes t) i) as [n|] eqn:En; [|discriminate]. simpl in E. destruct (nth_error (t_weights t) i) as [w|] eqn:Ew; [|discriminate].
  inversion E; subst e. exists i, n. simpl. repeat split; auto. apply (leaf_in _ _ _ _ _ _ I En). rewrite (mask_leaf _ _ _ _ _ _ I En) in M. congruence.
Qed.
Lemma entries_leaf i n : nth_error (t_nodes t) i = Some n -> In i (t_leaves t) -> exists w, nth_error (t_weights t) i = Some w /\
  In (n_center n, n_radius n, w) entries.
Proof.
  intros En H. apply (leaf_in _ _ _ _ _ _ I En) in H. pose proof (mask_length _ _ _ _ I) as ML.
  destruct (nth_error (t_weights t) i) as [w|] eqn:Ew.
  2:{ apply nth_error_None in Ew. rewrite (ti_weights _ _ _ _ I) in Ew. assert (i < length (t_nodes t))%nat by (apply nth_error_Some; congruence). lia. }
  exists w. split; auto. apply (nth_error_In _ (rank (t_mask t) i)). unfold entries. rewrite masked_rank.
  - rewrite !combine_nth, (ti_centers _ _ _ _ I), (ti_radii _ _ _ _ I), !nth_error_map, En, Ew. reflexivity.
  - rewrite !combine_length, (ti_centers _ _ _ _ I), (ti_radii _ _ _ _ I), !map_length, (ti_weights _ _ _ _ I), ML, !Nat.min_id. auto.
  - rewrite (mask_leaf _ _ _ _ _ _ I En). congruence.
Qed.
Lemma one_leaf i j n n' : In i (t_leaves t) -> In j (t_leaves t) -> nth_error (t_nodes t) i = Some n -> nth_error (t_nodes t) j = Some n' ->
  in_open (n_center n, n_radius n) x -> in_open (n_center n', n_radius n') x -> i = j.
Proof.
  intros Hi Hj En Em On Om. apply In_nth_error in Hi. apply In_nth_error in Hj. destruct Hi as (a & A), Hj as (b & Eb).
  assert (a = b); [|congruence].
  destruct (ti_tiles _ _ _ _ I) as (_ & _ & Sp & _). apply (Sp a b (n_center n, n_radius n) (n_center n', n_radius n') x); auto;
    unfold leaf_cells; rewrite nth_error_map, ?A, ?Eb; simpl; unfold leaf_cell; rewrite ?En, ?Em; reflexivity.
Qed.
Lemma density_cases :
  (tp_prob P t m x = Ok (Fin 0) /\ forall i n, In i (t_leaves t) -> nth_error (t_nodes t) i = Some n -> ~ in_open (n_center n, n_radius n) x) \/
  (exists i n w, In i (t_leaves t) /\ nth_error (t_nodes t) i = Some n /\ in_open (n_center n, n_radius n) x /\ nth_error (t_weights t) i = Some w /\
     tp_prob P t m x = Ok (fdivflQ w (Fin (Qpow (2 * n_radius n) (p_dims P))))).
Proof.
  unfold tp_prob. rewrite Ek. fold entries. set (f := fun '(c, r, _) => strictly_in c r x).
  assert (Fo : forall n w, (exists i, nth_error (t_nodes t) i = Some n) -> (f (n_center n, n_radius n, w) = true <-> in_open (n_center n, n_radius n) x)).
  { intros n w (i & En). destruct (ti_node _ _ _ _ I _ _ En) as (_ & D & _). apply strictly_open. congruence. }
  destruct (filter f entries) as [|((c, r), w) [|b l]] eqn:E.
  - left. split; auto. intros i n Hi En O. destruct (entries_leaf i n En Hi) as (w & Ew & Iw).
    assert (X : In (n_center n, n_radius n, w) (filter f entries)) by (apply filter_In; split; auto; apply Fo; eauto).
    rewrite E in X. destruct X.
  - right. assert (X : In (c, r, w) (filter f entries)) by (rewrite E; left; auto). apply filter_In in X. destruct X as (X & Fx).
    apply In_nth_error in X. destruct X as (p & X). apply entries_in in X. destruct X as (i & n & _ & En & Hi & Ec & Er & Ew). simpl in *. subst c r.
    exists i, n, w. repeat split; auto. apply (Fo n w); eauto.
  - exfalso. destruct (filter_two _ _ _ _ _ E) as (p & q & u & v & Lt & Ep & Eq & Fu & Fv).
    apply entries_in in Ep. apply entries_in in Eq. destruct Ep as (i & n & Ri & En & Hi & Ec & Er & _), Eq as (j & n' & Rj & En' & Hj & Ec' & Er' & _).
    destruct u as ((cu, ru), wu), v as ((cv, rv), wv). simpl in *. subst cu ru cv rv.
    assert (i = j) by (eapply one_leaf; eauto; [apply (Fo n wu)|apply (Fo n' wv)]; eauto). subst j. lia.
Qed.
End Density.

(** After the normalisation the weights of the leaves sum to one, or they are all zero. *)
Lemma masked_weights t d whole k : tree_inv d whole k t -> exists ws, Forall2 (fun i w => nth_error (t_weights t) i = Some w) (masked_refs t) ws /\
  masked (t_mask t) (t_weights t) = ws.
Proof.
  intros I. eexists. split; [|reflexivity]. pose proof (mask_length _ _ _ _ I) as ML. unfold masked_refs.
  assert (G : forall (mask : list bool) (ws : list (fl Q)) pre, length ws = length mask ->
    Forall2 (fun i w => nth_error (pre ++ ws) i = Some w) (masked mask (seq (length pre) (length mask))) (masked mask ws)).
  { clear. induction mask as [|b mask IH]; intros [|w ws] pre L; simpl in *; try discriminate; [constructor|].
    assert (H := IH ws (pre ++ [w]) ltac:(lia)). rewrite app_length in H. simpl in H. rewrite Nat.add_1_r, <- app_assoc in H. simpl in H.
    destruct b; auto. constructor; auto. rewrite nth_error_app2, Nat.sub_diag; auto. }
  specialize (G (t_mask t) (t_weights t) []). simpl in G. rewrite <- ML. apply G. rewrite (ti_weights _ _ _ _ I), ML. auto.
Qed.
Lemma normalised t d whole k : tree_inv d whole k t -> Forall finw (masked (t_mask t) (t_weights t)) ->
  exists ws, masked (t_mask (self_normalize t)) (t_weights (self_normalize t)) = map Fin ws /\ Forall (fun q => 0 <= q) ws /\
    (Qsum ws == 1 \/ Forall (fun q => q == 0) ws) /\ (Exists (fun w => w <> Fin 0 /\ fgtQ w 0 = true) (masked (t_mask t) (t_weights t)) -> Qsum ws == 1).
Proof.
  intros I F. destruct (finw_list _ F) as (l & E & N). unfold self_normalize. rewrite E, fsumQ_fin. simpl fgtQ. destruct (Qltb_spec 0 (Qsum l)) as [L|L].
  - simpl. exists (map (fun q => q / Qsum l) l). rewrite masked_put.
    + assert (S1 : Qsum (map (fun q => q / Qsum l) l) == 1) by (rewrite Qsum_div; field; lra).
      csplit; [| |left; exact S1|intros _; exact S1].
      * rewrite !map_map. apply map_ext. intros q. simpl. unfold fdivQ. destruct (Qeq_bool_spec (Qsum l) 0); [lra|reflexivity].
      * apply Forall_forall. intros q Hq. apply in_map_iff in Hq. destruct Hq as (q' & <- & Hq). rewrite Forall_forall in N. apply fin_divide; auto.
    + rewrite (ti_weights _ _ _ _ I). symmetry. eapply mask_length; eauto.
    + rewrite <- (masked_length (t_mask t) (t_weights t)), E, !map_length; auto. rewrite (ti_weights _ _ _ _ I). symmetry. eapply mask_length; eauto.
  - exists l. csplit; [exact E|exact N| |].
    + right. apply Forall_forall. intros q Hq. apply (Qsum_zero_member l); auto. lra.
    + intros X. exfalso. apply Exists_exists in X. destruct X as (w & X & _ & G). apply in_map_iff in X. destruct X as (q & <- & X).
      simpl in G. apply Qltb_true in G. pose proof (Qsum_zero_member _ N ltac:(lra) q X). lra.
Qed.
Lemma F2_impl {A B : Type} (R S : A -> B -> Prop) l m : (forall a b, R a b -> S a b) -> Forall2 R l m -> Forall2 S l m.
Proof. intros H F. induction F; constructor; auto. Qed.
Lemma masked_F2 {A : Type} mask (l : list A) : length l = length mask ->
  Forall2 (fun i a => nth_error l i = Some a) (masked mask (seq 0 (length mask))) (masked mask l).
Proof.
  assert (G : forall (mask : list bool) (ws : list A) pre, length ws = length mask ->
    Forall2 (fun i w => nth_error (pre ++ ws) i = Some w) (masked mask (seq (length pre) (length mask))) (masked mask ws)).
  { clear. induction mask as [|b mask IH]; intros [|w ws] pre L; simpl in *; try discriminate; [constructor|].
    assert (H := IH ws (pre ++ [w]) ltac:(lia)). rewrite app_length in H. simpl in H. rewrite Nat.add_1_r, <- app_assoc in H. simpl in H.
    destruct b; auto. constructor; auto. rewrite nth_error_app2, Nat.sub_diag; auto. }
  intros L. apply (G mask l [] L).
Qed.
Lemma cached_F2 t d whole k : tree_inv d whole k t ->
  Forall2 (fun i xw => nth_error (t_samples t) i = Some (fst xw) /\ nth_error (t_weights t) i = Some (snd xw)) (masked_refs t)
    (combine (masked (t_mask t) (t_samples t)) (masked (t_mask t) (t_weights t))).
Proof.
  intros I. pose proof (mask_length _ _ _ _ I) as ML. rewrite <- masked_combine by (rewrite (ti_samples _ _ _ _ I), (ti_weights _ _ _ _ I); auto).
  assert (F := masked_F2 (t_mask t) (combine (t_samples t) (t_weights t)) ltac:(rewrite combine_length, (ti_samples _ _ _ _ I), (ti_weights _ _ _ _ I), ML, Nat.min_id; auto)).
  unfold masked_refs. rewrite ML in F. eapply F2_impl; [|exact F]. intros i (x, w) E. rewrite combine_nth in E.
  destruct (nth_error (t_samples t) i), (nth_error (t_weights t) i); try discriminate. inversion E; auto.
Qed.
