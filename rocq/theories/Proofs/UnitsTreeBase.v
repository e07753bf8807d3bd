(** Cells, caches and trees in other coordinates. *)
From Coq Require Import List Bool Arith Lia ZArith QArith Qpower Lqa.
Import ListNotations.
From Verif Require Import Prelude.Py Prelude.QBase Prelude.QFacts Model.Uniform Model.Mixture Model.Population Model.Tree Model.TreeSampler Spec.ScaleSpec Spec.UnitsSpec Spec.UnitsTree
  Proofs.MHLawProofs Proofs.MixtureProofs Proofs.MixtureSelect Proofs.TreeSamplerLeaves Proofs.ScaleBase Proofs.ScalePop Proofs.ScaleTree Proofs.UnitsBase.
Open Scope Q_scope.

Lemma Forall2_impl {X Y} (T U : X -> Y -> Prop) l l' : (forall x y, T x y -> U x y) -> Forall2 T l l' -> Forall2 U l l'.
Proof. intros H. induction 1; constructor; auto. Qed.
Lemma Qpow_mult x y n : Qpow (x * y) n == Qpow x n * Qpow y n.
Proof. induction n as [|n IH]; simpl; [reflexivity|]. rewrite IH. ring. Qed.
Lemma Qpow_power x n : 0 < x -> Qpow x n == x ^ Z.of_nat n.
Proof.
  intros H. induction n as [|n IH]; [reflexivity|]. rewrite Nat2Z.inj_succ, <- Z.add_1_r. rewrite Qpower_plus by (intros E; rewrite E in H; discriminate).
  assert (E : x ^ 1 == x) by (simpl; ring). simpl Qpow. rewrite E, IH. ring.
Qed.

Section Units.
Variables (a : Q) (b : list Q).
Hypothesis A : 0 < a.
Notation R := (recoord a b).
Notation row := (row_units a b).
Definition vol : Q := Qpow a (length b).
Lemma vol_pos : 0 < vol.
Proof. now apply Qpow_positive. Qed.
Lemma vol_inv_pos : 0 < / vol.
Proof. apply Qinv_lt_0_compat, vol_pos. Qed.
Lemma redensity_vol pi pi' x y : redensity a b pi pi' -> R x y -> pi' y == / vol * pi x.
Proof. intros H X. rewrite <- (H x y X). unfold vol. rewrite <- Qpow_power by auto. field. apply Qnz. apply vol_pos. Qed.

(** * Caches *)
Inductive crel : list vec -> list (fl Q) -> list vec -> list (fl Q) -> Prop :=
| crel_nil : crel [] [] [] []
| crel_cons x w y v xs ws ys vs : row (x, w) (y, v) -> crel xs ws ys vs -> crel (x :: xs) (w :: ws) (y :: ys) (v :: vs).
Lemma row_pt x y w v : R x y -> times 1 w v -> row (x, w) (y, v).
Proof. split; simpl; auto. Qed.
Lemma crel_weights xs ws ys vs : crel xs ws ys vs -> same_weights ws vs.
Proof. induction 1 as [|x w y v xs ws ys vs (H & _) C IH]; constructor; auto. Qed.
Lemma crel_length xs ws ys vs : crel xs ws ys vs -> length ws = length xs /\ length ys = length xs /\ length vs = length xs.
Proof. induction 1; simpl; lia. Qed.
Lemma crel_app xs ws ys vs xs' ws' ys' vs' : crel xs ws ys vs -> crel xs' ws' ys' vs' -> crel (xs ++ xs') (ws ++ ws') (ys ++ ys') (vs ++ vs').
Proof. induction 1; simpl; auto. intros. constructor; auto. Qed.
Lemma crel_upd xs ws ys vs x w y v : crel xs ws ys vs -> row (x, w) (y, v) -> forall i, crel (upd xs i x) (upd ws i w) (upd ys i y) (upd vs i v).
Proof. intros C H. induction C; intros [|i]; simpl; constructor; auto. Qed.
Lemma crel_upd_pt xs ws ys vs x y : crel xs ws ys vs -> R x y -> forall i, crel (upd xs i x) ws (upd ys i y) vs.
Proof. intros C H. induction C as [|x0 w y0 v xs ws ys vs Hw C IH]; intros [|i]; simpl; constructor; auto. apply row_pt; [exact H|apply Hw]. Qed.
Lemma crel_nth xs ws ys vs : crel xs ws ys vs -> forall i, (i < length xs)%nat -> row (nth i xs [], nth i ws NaN) (nth i ys [], nth i vs NaN).
Proof. induction 1; intros [|i] L; simpl in *; auto; try lia. apply IHcrel. lia. Qed.
Lemma crel_masked m : forall xs ws ys vs, crel xs ws ys vs -> Forall2 row (combine (masked m xs) (masked m ws)) (combine (masked m ys) (masked m vs)).
Proof. induction m as [|[|] m IH]; intros xs ws ys vs C; [constructor| |]; inversion C; subst; simpl; try constructor; auto. Qed.
Lemma masked_rel {X Y} (T : X -> Y -> Prop) m : forall l l', Forall2 T l l' -> Forall2 T (masked m l) (masked m l').
Proof. induction m as [|[|] m IH]; intros l l' C; [constructor| |]; inversion C; subst; simpl; try constructor; auto. Qed.
Lemma crel_put m : forall xs ws ys vs xs' ws' ys' vs', crel xs ws ys vs -> crel xs' ws' ys' vs' -> crel (put_masked m xs xs') (put_masked m ws ws') (put_masked m ys ys') (put_masked m vs vs').
Proof.
  induction m as [|[|] m IH]; intros xs ws ys vs xs' ws' ys' vs' C D; [exact C| |].
  - destruct C as [|x w y v xs ws ys vs H C]; [constructor|]. destruct D as [|x' w' y' v' xs' ws' ys' vs' H' D]; cbn [put_masked]; constructor; auto. apply IH; auto. constructor.
  - destruct C as [|x w y v xs ws ys vs H C]; [constructor|]. cbn [put_masked]. constructor; auto.
Qed.
Lemma crel_put_weights (f g : fl Q -> fl Q) m : (forall x w y v, row (x, w) (y, v) -> row (x, f w) (y, g v)) -> forall xs ws ys vs, crel xs ws ys vs ->
  crel xs (put_masked m ws (map f (masked m ws))) ys (put_masked m vs (map g (masked m vs))).
Proof. intros H. induction m as [|[|] m IH]; intros xs ws ys vs C; [exact C| |]; inversion C; subst; simpl; auto; constructor; auto. Qed.

(** * Cells *)
Lemma stretch_map c c' r r' : R c c' -> r' == a * r -> R (cell_lo c r) (cell_lo c' r') /\ R (cell_hi c r) (cell_hi c' r').
Proof.
  intros H E. revert c c' H. induction b as [|b0 l IH]; intros [|x c] [|y c']; simpl; try tauto. intros (E0 & H). destruct (IH _ _ H) as (H1 & H2). repeat split; auto; rewrite E0, E; ring.
Qed.
Lemma kernel_draw_units k c c' r r' u u' : R c c' -> r' == a * r -> draw_units a b k u u' -> R (kernel_draw k c r u) (kernel_draw k c' r' u').
Proof. intros H E D. destruct k; simpl in *; auto. destruct D as (-> & L). destruct (stretch_map c c' r r' H E). now apply recoord_uniform. Qed.
Lemma Qltb_affine b0 x x' y y' : y == a * x + b0 -> y' == a * x' + b0 -> Qltb y y' = Qltb x x'.
Proof. intros E E'. unfold Qltb. f_equal. now apply (Qle_bool_affine a A b0). Qed.
Lemma inlier_units : forall b lo hi x lo' hi' x', recoord a b lo lo' -> recoord a b hi hi' -> recoord a b x x' -> inlier lo' hi' x' = inlier lo hi x.
Proof.
  induction b0 as [|b0 l IH]; intros [|l0 lo] [|h0 hi] [|x0 x] [|l0' lo'] [|h0' hi'] [|x0' x']; simpl; try tauto. intros (E1 & H1) (E2 & H2) (E3 & H3).
  rewrite (Qltb_affine b0 l0 x0 l0' x0' E1 E3), (Qle_bool_affine a A b0 x0 h0 x0' h0' E3 E2). f_equal. now apply IH.
Qed.
Lemma in_cell_units r r' : r' == a * r -> forall b c x c' x', recoord a b c c' -> recoord a b x x' -> in_cell c' r' x' = in_cell c r x.
Proof.
  intros E. induction b0 as [|b0 l IH]; intros [|c0 c] [|x0 x] [|c0' c'] [|x0' x']; simpl; try tauto. intros (E1 & H1) (E2 & H2).
  rewrite (Qle_bool_affine a A b0 (c0 - r) x0 (c0' - r') x0'), (Qle_bool_affine a A b0 x0 (c0 + r) x0' (c0' + r')) by (auto; rewrite E1, E; ring). f_equal. now apply IH.
Qed.
Lemma strictly_in_units r r' : r' == a * r -> forall b c x c' x', recoord a b c c' -> recoord a b x x' -> strictly_in c' r' x' = strictly_in c r x.
Proof.
  intros E. induction b0 as [|b0 l IH]; intros [|c0 c] [|x0 x] [|c0' c'] [|x0' x']; simpl; try tauto. intros (E1 & H1) (E2 & H2).
  rewrite (Qltb_affine b0 (c0 - r) x0 (c0' - r') x0'), (Qltb_affine b0 x0 (c0 + r) x0' (c0' + r')) by (auto; rewrite E1, E; ring). f_equal. now apply IH.
Qed.
Lemma volume_units r r' (t : Q) : r' == a * r -> Qpow (r' * t) (length b) == vol * Qpow (r * t) (length b).
Proof. intros E. unfold vol. rewrite <- Qpow_mult. apply Qpow_proper. rewrite E. ring. Qed.
Lemma root_center_units lo lo' hi hi' : R lo lo' -> R hi hi' -> R (root_center lo hi) (root_center lo' hi').
Proof.
  intros L H. unfold root_center. revert lo lo' hi hi' L H. induction b as [|b0 l IH]; intros [|l0 lo] [|l0' lo'] [|h0 hi] [|h0' hi']; simpl; try tauto. intros (E1 & H1) (E2 & H2).
  split; [rewrite E1, E2; field|now apply IH].
Qed.
Lemma max_units l l' : Forall2 (fun u v => v == a * u) l l' -> max_list l' == a * max_list l.
Proof.
  induction 1 as [|u v l l' E F IH]; [simpl; ring|]. destruct F as [|u2 v2 l l' E2 F]; [exact E|].
  change (max_list (v :: v2 :: l')) with (qmax v (max_list (v2 :: l'))). change (max_list (u :: u2 :: l)) with (qmax u (max_list (u2 :: l))). revert IH. generalize (max_list (v2 :: l')), (max_list (u2 :: l)). intros m' m IH.
  unfold qmax. rewrite (Qle_bool_scale a u m v m' A E IH). destruct (Qle_bool u m); auto.
Qed.
Lemma root_radius_units lo lo' hi hi' : R lo lo' -> R hi hi' -> root_radius lo' hi' == a * root_radius lo hi.
Proof.
  intros L H. unfold root_radius. apply max_units. revert lo lo' hi hi' L H. induction b as [|b0 l IH]; intros [|l0 lo] [|l0' lo'] [|h0 hi] [|h0' hi']; simpl; try tauto; try constructor.
  - destruct L as (E1 & _), H as (E2 & _). rewrite E1, E2. field.
  - apply IH; tauto.
Qed.
Lemma child_units c c' r r' : R c c' -> r' == a * r -> recoords a b (child_centers c r) (child_centers c' r').
Proof.
  intros H E. unfold child_centers. destruct (recoord_length a b c c' H) as (L & L'). rewrite L, L'. 
  assert (G : Forall (fun co => length co = length b) (coeffs (length b))).
  { generalize (length b). clear. induction n as [|n IH]; [repeat constructor|]. simpl. apply Forall_app; split; apply Forall_map; eapply Forall_impl; [|exact IH| |exact IH]; simpl; intros; lia. }
  induction G as [|co l Lc G IH]; constructor; auto. clear -H E Lc. revert c c' co H Lc. induction b as [|b0 bs IH]; intros [|x c] [|y c'] [|k co]; simpl; try tauto; try discriminate.
  intros (E0 & H) Lc. split; [rewrite E0, E; field|]. apply IH; auto.
Qed.

(** * Nodes and trees *)
Definition hrel (h h' : history) : Prop :=
  match h, h' with HNone, HNone => True | HGone, HGone => True | HList l, HList l' => Forall2 row l l' | _, _ => False end.
Definition nrel (N : nat) (n n' : node) : Prop :=
  R (n_center n) (n_center n') /\ n_radius n' == a * n_radius n /\ n_children n' = n_children n /\ times 1 (n_weight n) (n_weight n') /\ n_leaf n' = n_leaf n /\ n_idx n' = n_idx n /\ n_level n' = n_level n /\
  times vol (n_value n) (n_value n') /\ hrel (n_hist n) (n_hist n') /\ (n_idx n < N)%nat.
Definition trel (t t' : tree) : Prop :=
  Forall2 (nrel (length (t_samples t))) (t_nodes t) (t_nodes t') /\ t_leaves t' = t_leaves t /\ recoords a b (t_centers t) (t_centers t') /\ Forall2 (fun r r' => r' == a * r) (t_radii t) (t_radii t') /\
  crel (t_samples t) (t_weights t) (t_samples t') (t_weights t') /\ t_mask t' = t_mask t /\ length (t_samples t) = length (t_nodes t).
Lemma trel_node t t' i : trel t t' -> match nth_error (t_nodes t) i, nth_error (t_nodes t') i with Some n, Some n' => nrel (length (t_samples t)) n n' | None, None => True | _, _ => False end.
Proof. intros (H & _). now apply F2_nth. Qed.
Lemma value_new w w' r r' c c' : times 1 w w' -> r' == a * r -> R c c' -> times vol (fmulQ w (Fin (Qpow r (length c)))) (fmulQ w' (Fin (Qpow r' (length c')))).
Proof.
  intros W E H. destruct (recoord_length a b c c' H) as (-> & ->). apply times_k with (1 * vol); [ring|]. apply times_mul; auto; [reflexivity|apply vol_pos|]. simpl. unfold vol. rewrite <- Qpow_mult. now apply Qpow_proper.
Qed.
Lemma node_new_units N c c' r r' i lf lv w w' : R c c' -> r' == a * r -> times 1 w w' -> (i < N)%nat -> nrel N (node_new c r i lf lv w) (node_new c' r' i lf lv w').
Proof. intros H E W L. unfold nrel, node_new; simpl. split; auto. split; auto. split; auto. split; auto. split; auto. split; auto. split; auto. split; [now apply value_new|]. split; auto. Qed.
Lemma tree_new_units lo lo' hi hi' : R lo lo' -> R hi hi' -> trel (tree_new lo hi) (tree_new lo' hi').
Proof.
  intros L H. pose proof (root_center_units lo lo' hi hi' L H) as C. pose proof (root_radius_units lo lo' hi hi' L H) as E. unfold trel, tree_new; cbn [t_nodes t_leaves t_centers t_radii t_samples t_weights t_mask].
  split; [constructor; [apply node_new_units; auto; apply times_refl|constructor]|]. split; auto. split; [constructor; [auto|constructor]|]. split; [constructor; [auto|constructor]|]. split; [|split; reflexivity].
  constructor; [|constructor]. destruct (recoord_length a b _ _ L) as (-> & ->). split; [simpl; ring|right]. repeat split; simpl; ring.
Qed.
Lemma hist_same l l' : Forall2 row l l' -> same_weights (hist_weights l) (hist_weights l').
Proof. intros F. eapply map_rel; [|exact F]. intros x y (H & _). exact H. Qed.
Lemma mul_same x x' y y' : times 1 x x' -> times 1 y y' -> times 1 (fmulQ x y) (fmulQ x' y').
Proof. intros X Y. apply times_k with (1 * 1); [ring|]. apply times_mul; auto; reflexivity. Qed.
Lemma div_same x x' y y' : times 1 x x' -> times 1 y y' -> times 1 (fdivflQ x y) (fdivflQ x' y').
Proof. intros X Y. apply times_k with (1 / 1); [field|]. apply times_div; auto; reflexivity. Qed.
Lemma ess_same l l' : Forall2 row l l' -> times 1 (hist_ess l) (hist_ess l').
Proof.
  intros F. pose proof (hist_same l l' F) as W. unfold hist_ess. pose proof (times_sum 1 _ _ W) as S1. apply div_same; [now apply mul_same|]. apply times_sum. eapply map_rel; [|exact W]. intros x y H. now apply mul_same.
Qed.
Lemma may_expand_units e m h h' : hrel h h' -> may_expand e m h' = may_expand e m h.
Proof.
  intros H. unfold may_expand. destruct e as [e|]; auto. destruct h, h'; simpl in H; try tauto. rewrite <- (rel_length _ _ _ H). destruct (length l <? m)%nat; auto. do 2 f_equal.
  apply (times_gt 1); [reflexivity|now apply ess_same|ring].
Qed.
Lemma nrel_more N M n n' : (N <= M)%nat -> nrel N n n' -> nrel M n n'.
Proof. intros L (H1 & H2 & H3 & H4 & H5 & H6 & H7 & H8 & H9 & H10). unfold nrel. repeat (split; auto). lia. Qed.
Lemma combine_seq_rel {X Y} (T : X -> Y -> Prop) : forall k l l', Forall2 T l l' ->
  Forall2 (fun p p' => fst p' = fst p /\ (k <= fst p < k + length l)%nat /\ T (snd p) (snd p')) (combine (seq k (length l)) l) (combine (seq k (length l)) l').
Proof.
  intros k l l' F. revert k. induction F as [|x y l l' H F IH]; intros k; [constructor|]. cbn [length seq combine]. constructor; [cbn; repeat split; auto; lia|].
  eapply Forall2_impl; [|apply IH]. intros p p' (E & B & G). repeat split; auto; lia.
Qed.
Lemma children_units t t' n n' li N M : trel t t' -> nrel N n n' -> (length (t_nodes t) + length (child_centers (n_center n) (n_radius n)) <= M)%nat -> Forall2 (nrel M) (expand_children t n li) (expand_children t' n' li).
Proof.
  intros (T1 & T2 & _) (N1 & N2 & N3 & N4 & N5 & N6 & N7 & N8 & N9 & N10) LM. unfold expand_children. rewrite N7, T2, <- (rel_length _ _ _ T1).
  pose proof (child_units _ _ _ _ N1 N2) as F.
  assert (LF : @length vec (child_centers (n_center n') (n_radius n')) = @length vec (child_centers (n_center n) (n_radius n))) by exact (recoords_length a b _ _ F). rewrite LF.
  assert (W : times 1 (fdivflQ (n_weight n) (Fin (Qnat (length (child_centers (n_center n) (n_radius n)))))) (fdivflQ (n_weight n') (Fin (Qnat (length (child_centers (n_center n) (n_radius n)))))))
    by (apply div_same; auto; apply times_refl).
  pose proof (combine_seq_rel (recoord a b) 0 _ _ F) as G. eapply map_rel; [|exact G]. intros (i, c) (i', c') (E & B & H). cbn [fst snd] in *. subst i'. apply node_new_units; auto; [rewrite N2; field|].
  apply Nat.lt_le_trans with (length (t_nodes t) + @length vec (child_centers (n_center n) (n_radius n)))%nat; [|exact LM]. apply Nat.add_lt_mono_l. apply B.
Qed.
End Units.
