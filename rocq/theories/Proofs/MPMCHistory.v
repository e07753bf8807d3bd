(** Moments and histories of mixture population Monte Carlo. *)
From Coq Require Import List Bool Arith Lia QArith Lqa.
Import ListNotations.
From Verif Require Import Prelude.Py Prelude.QBase Prelude.QFacts Prelude.ListFacts Model.Base Model.Mixture Model.Population Model.MPMC
  Spec.MPMCSpec Spec.PopulationSpec Proofs.MixtureProofs Proofs.MHLawProofs Proofs.PopulationProofs Proofs.MPMCProofs.
Open Scope Q_scope.

(** ** Moments *)
Lemma weighted_sum_map2 om v : weighted_sum om v = Qsum (map2 Qmult om v).
Proof. unfold weighted_sum. revert v. induction om as [|o om IH]; intros [|a v]; simpl; auto. rewrite <- IH. reflexivity. Qed.

Lemma map2_coord c xs : forall om, Qsum (map2 (fun (x : vec) wr => wr * nth c x 0) xs om) == weighted_sum om (coord c xs).
Proof.
  intros om. rewrite weighted_sum_map2. revert om. induction xs as [|x xs IH]; intros [|o om]; simpl; try reflexivity.
  rewrite IH. reflexivity.
Qed.

Lemma nth_map_seq {A} (f : nat -> A) n c d : (c < n)%nat -> nth c (map f (seq 0 n)) d = f c.
Proof.
  intros H. rewrite (nth_indep _ d (f 0%nat)) by (rewrite map_length, seq_length; auto).
  rewrite map_nth, seq_nth; auto.
Qed.

Lemma mu_weighted n xs ws rd c : (c < n)%nat -> ~ new_alpha ws rd == 0 ->
  is_weighted_mean (map2 Qmult ws rd) xs c (nth c (mp_mu n xs ws rd (new_alpha ws rd)) 0).
Proof.
  intros H Z. unfold is_weighted_mean, mp_mu. rewrite nth_map_seq; auto.
  rewrite (sum_of_Qsum (map2 Qmult ws rd)). fold (new_alpha ws rd). pose proof (map2_coord c xs (map2 Qmult ws rd)) as M.
  rewrite <- M. generalize dependent (new_alpha ws rd). intros a Z.
  set (b := Qsum (map2 (fun (x : vec) wr => wr * nth c x 0) xs (map2 Qmult ws rd))).
  change (b / a * a == b). field. auto.
Qed.

Lemma cov_entry K ws rd a (V : mat) n i j v : length ws = K -> length rd = K -> ~ a == 0 -> a == new_alpha ws rd ->
  (i < n)%nat -> (j < n)%nat -> V = map (fun i => map (fun j => v i j) (seq 0 n)) (seq 0 n) ->
  entry (mp_cov K ws rd a V) i j == v i j.
Proof.
  intros Lw Lr Z A I J ->. unfold entry, mp_cov. rewrite map_map, nth_map_seq by auto. rewrite map_map, nth_map_seq by auto.
  assert (E : Qsum (map (fun k => nth k ws 0 * nth k rd 0 * v i j) (seq 0 K)) == new_alpha ws rd * v i j).
  { unfold new_alpha. rewrite (map2_nth Qmult 0 0) by congruence. rewrite Lw.
    rewrite (Qsum_factor (fun k => nth k ws 0 * nth k rd 0) (v i j)). reflexivity. }
  rewrite E, <- A. field. auto.
Qed.

Lemma scatter_entry n xs mu i j : (i < n)%nat -> (j < n)%nat -> is_scatter xs mu i j (entry (mp_scatter n xs mu) i j).
Proof.
  intros I J. unfold is_scatter, entry, mp_scatter. rewrite nth_map_seq, nth_map_seq by auto.
  unfold deviations. reflexivity.
Qed.

(** The new covariance is the raw scatter around the new mean, or the failsafe. *)
Lemma new_cov_scatter P xs ws rd : length ws = mp_K P -> length rd = mp_K P -> ~ new_alpha ws rd == 0 ->
  new_cov P xs ws rd = diag_const (mp_dims P) 10 \/
  (forall i j, (i < mp_dims P)%nat -> (j < mp_dims P)%nat ->
     is_scatter xs (new_mu P xs ws rd) i j (entry (new_cov P xs ws rd) i j)).
Proof.
  intros Lw Lr Z. unfold new_cov, mp_failsafe. destruct (existsb _ _); [left; auto|right]. intros i j I J.
  unfold is_scatter.
  rewrite (cov_entry (mp_K P) ws rd (new_alpha ws rd) _ (mp_dims P) i j
    (fun i j => Qsum (map (fun x => (nth i x 0 - nth i (new_mu P xs ws rd) 0) * (nth j x 0 - nth j (new_mu P xs ws rd) 0)) xs)));
    auto; try reflexivity.
Qed.

(** The raw scatter is never below the weighted covariance. *)
Lemma scatter_over om xs m i v w : Forall (fun o => 0 <= o) om -> length om = length xs -> 0 < sum_of om ->
  is_scatter xs m i i v -> is_weighted_cov om xs m i i w -> w <= v.
Proof.
  intros F L S Hv Hw. unfold is_scatter, is_weighted_cov in *.
  assert (G : forall om T, Forall (fun o => 0 <= o) om -> length om = length xs -> Forall (fun o => o <= T) om ->
    weighted_sum om (deviations xs m i i) <= T * sum_of (deviations xs m i i)).
  { clear. intros om T F. revert om F. unfold deviations. induction xs as [|x xs IH]; intros [|o om] F L B; try discriminate.
    - unfold weighted_sum, sum_of. simpl. lra.
    - inversion F; inversion B; subst. specialize (IH om H2 ltac:(simpl in L; lia) H6).
      unfold weighted_sum, sum_of in *. cbn [map combine fold_right fst snd] in *.
      set (dv := (nth i x 0 - nth i m 0) * (nth i x 0 - nth i m 0)) in *.
      assert (0 <= dv). { unfold dv. destruct (Qlt_le_dec (nth i x 0 - nth i m 0) 0); nra. }
      assert (o * dv <= T * dv) by (apply Qmult_le_compat_r; auto). lra. }
  assert (B : Forall (fun o => o <= sum_of om) om).
  { clear - F. change sum_of with Qsum. induction F as [|o om O F IH]; constructor.
    - simpl. pose proof (Qsum_nonneg om F). lra.
    - rewrite Forall_forall in *. intros x X. specialize (IH x X). simpl. lra. }
  specialize (G om (sum_of om) F L B). rewrite <- Hw, <- Hv in G.
  apply Qmult_lt_0_le_reg_r with (sum_of om); auto. lra.
Qed.

(** ** Convex combinations *)
Lemma hull_gen (c : nat) om xs m : Forall (fun o => 0 <= o) om -> length om = length xs -> 0 < Qsum om ->
  m * Qsum om == weighted_sum om (coord c xs) ->
  (exists x, In x xs /\ nth c x 0 <= m) /\ (exists y, In y xs /\ m <= nth c y 0).
Proof.
  intros F L S E.
  assert (Lo : (exists x, In x xs /\ nth c x 0 <= m) \/ forall x, In x xs -> m < nth c x 0).
  { clear. induction xs as [|x xs [(y & Y & H)|H]].
    - right. intros x X. contradiction.
    - left. exists y. split; auto. right. auto.
    - destruct (Qlt_le_dec m (nth c x 0)) as [G|G].
      + right. intros y [<- |Y]; auto.
      + left. exists x. split; auto. left. auto. }
  assert (Hi : (exists x, In x xs /\ m <= nth c x 0) \/ forall x, In x xs -> nth c x 0 < m).
  { clear. induction xs as [|x xs [(y & Y & H)|H]].
    - right. intros x X. contradiction.
    - left. exists y. split; auto. right. auto.
    - destruct (Qlt_le_dec (nth c x 0) m) as [G|G].
      + right. intros y [<- |Y]; auto.
      + left. exists x. split; auto. left. auto. }
  assert (A : forall (g : Q -> Q), True) by auto. clear A.
  split.
  - destruct Lo as [H|H]; auto. exfalso.
    assert (G : 0 < weighted_sum om (coord c xs) - m * Qsum om).
    { clear - F L S H. unfold weighted_sum, coord. revert om F L S. induction xs as [|x xs IH]; intros [|o om] F L S; simpl in *; try discriminate; try lra.
      inversion F; subst. pose proof (H x (or_introl eq_refl)) as Hx.
      destruct (Qlt_le_dec 0 (Qsum om)) as [S1|S1].
      - specialize (IH ltac:(intros; apply H; right; auto) om H3 ltac:(lia) S1).
        assert (0 <= o * (nth c x 0 - m)) by (apply Qmult_le_0_compat; lra). lra.
      - pose proof (Qsum_nonneg om H3) as S2. assert (Zs : Qsum om == 0) by lra. assert (O : 0 < o) by lra.
        assert (Z : fold_right Qplus 0 (map (fun p => fst p * snd p) (combine om (map (fun x => nth c x 0) xs))) == 0).
        { pose proof (Qsum_zero_all om H3 Zs) as Fz. clear - Fz. revert xs. induction Fz as [|o om O F IH]; intros [|x xs]; simpl; try reflexivity.
          rewrite IH, O. ring. }
        rewrite Z, Zs. assert (0 < o * (nth c x 0 - m)) by (apply Qmult_lt_0_compat; lra). lra. }
    lra.
  - destruct Hi as [H|H]; auto. exfalso.
    assert (G : 0 < m * Qsum om - weighted_sum om (coord c xs)).
    { clear - F L S H. unfold weighted_sum, coord. revert om F L S. induction xs as [|x xs IH]; intros [|o om] F L S; simpl in *; try discriminate; try lra.
      inversion F; subst. pose proof (H x (or_introl eq_refl)) as Hx.
      destruct (Qlt_le_dec 0 (Qsum om)) as [S1|S1].
      - specialize (IH ltac:(intros; apply H; right; auto) om H3 ltac:(lia) S1).
        assert (0 <= o * (m - nth c x 0)) by (apply Qmult_le_0_compat; lra). lra.
      - pose proof (Qsum_nonneg om H3) as S2. assert (Zs : Qsum om == 0) by lra. assert (O : 0 < o) by lra.
        assert (Z : fold_right Qplus 0 (map (fun p => fst p * snd p) (combine om (map (fun x => nth c x 0) xs))) == 0).
        { pose proof (Qsum_zero_all om H3 Zs) as Fz. clear - Fz. revert xs. induction Fz as [|o om O F IH]; intros [|x xs]; simpl; try reflexivity.
          rewrite IH, O. ring. }
        rewrite Z, Zs. assert (0 < o * (m - nth c x 0)) by (apply Qmult_lt_0_compat; lra). lra. }
    lra.
Qed.

Lemma map2_mult_nonneg ws : forall rd, Forall (fun w => 0 <= w) ws -> Forall (fun r => 0 <= r) rd -> Forall (fun o => 0 <= o) (map2 Qmult ws rd).
Proof.
  induction ws as [|w ws IH]; intros [|r rd] F G; simpl; constructor; inversion F; inversion G; subst; auto.
  apply Qmult_le_0_compat; auto.
Qed.

Lemma mu_hull P xs ws rd : length ws = length xs -> length rd = length xs -> Forall (fun w => 0 <= w) ws -> Forall (fun r => 0 <= r) rd ->
  0 < new_alpha ws rd -> in_hull (mp_dims P) xs (new_mu P xs ws rd).
Proof.
  intros Lw Lr F G H. split; [unfold new_mu, mp_mu; rewrite map_length, seq_length; auto|]. intros c C.
  pose proof (mu_weighted (mp_dims P) xs ws rd c C ltac:(lra)) as E. unfold is_weighted_mean in E.
  rewrite (sum_of_Qsum (map2 Qmult ws rd)) in E.
  apply hull_gen with (map2 Qmult ws rd); auto.
  - apply map2_mult_nonneg; auto.
  - rewrite map2_length; congruence.
Qed.

(** ** Singular batches *)
Lemma drop_col_zero j row : Forall (fun a => a == 0) row -> Forall (fun a => a == 0) (drop_col j row).
Proof. intros F. revert j. induction F as [|a row A F IH]; intros [|j]; simpl; auto. Qed.
Lemma detn_zero_row n : forall m c row, nth_error m c = Some row -> Forall (fun a => a == 0) row -> (c < n)%nat -> detn n m == 0.
Proof.
  induction n as [|n IH]; intros m c row E F C; [lia|]. cbn [detn]. destruct m as [|r0 rest]; [destruct c; discriminate|].
  apply Qsum_all_zero. apply Forall_forall. intros y Y. apply in_map_iff in Y. destruct Y as (j & <- & _).
  destruct c as [|c]; simpl in E.
  - assert (row = r0) by congruence. subst. assert (Z : nth j r0 0 == 0).
    { destruct (nth_in_or_default j r0 0) as [I|D]; [rewrite Forall_forall in F; auto|rewrite D; reflexivity]. }
    rewrite Z. ring.
  - rewrite (IH (map (drop_col j) rest) c (drop_col j row)).
    + ring.
    + rewrite nth_error_map, E. auto.
    + apply drop_col_zero. auto.
    + lia.
Qed.

Lemma weighted_mean_const c om xs m b : (forall x, In x xs -> nth c x 0 == b) -> length om = length xs ->
  m * Qsum om == weighted_sum om (coord c xs) -> ~ Qsum om == 0 -> m == b.
Proof.
  intros H L E Z.
  assert (W : weighted_sum om (coord c xs) == b * Qsum om).
  { clear - H L. unfold weighted_sum, coord. revert om L. induction xs as [|x xs IH]; intros [|o om] L; simpl; try discriminate; [ring|].
    rewrite IH; [|intros; apply H; right; auto|simpl in L; lia]. rewrite (H x (or_introl eq_refl)). ring. }
  rewrite W in E. apply Qmult_inj_r with (Qsum om); auto.
Qed.

Lemma det_degenerate P xs ws rd c b : (c < mp_dims P)%nat -> (forall x, In x xs -> nth c x 0 == b) ->
  length xs = mp_K P -> length ws = mp_K P -> length rd = mp_K P -> 0 < new_alpha ws rd ->
  new_cov P xs ws rd = diag_const (mp_dims P) 10 \/ detn (mp_dims P) (new_cov P xs ws rd) == 0.
Proof.
  intros C H Lx Lw Lr A. destruct (new_cov_scatter P xs ws rd Lw Lr ltac:(lra)) as [E|E]; auto. right.
  assert (Mc : nth c (new_mu P xs ws rd) 0 == b).
  { pose proof (mu_weighted (mp_dims P) xs ws rd c C ltac:(lra)) as M. unfold is_weighted_mean in M.
    rewrite (sum_of_Qsum (map2 Qmult ws rd)) in M. apply (weighted_mean_const c (map2 Qmult ws rd) xs _ b); auto.
    - rewrite map2_length; congruence.
    - fold (new_alpha ws rd). lra. }
  unfold new_cov in *. unfold mp_failsafe in *. destruct (existsb _ _) eqn:X.
  { exfalso. specialize (E c c C C). unfold is_scatter, entry, diag_const in E. rewrite nth_map_seq, nth_map_seq in E by auto.
    rewrite Nat.eqb_refl in E.
    assert (Z : sum_of (deviations xs (new_mu P xs ws rd) c c) == 0).
    { change sum_of with Qsum. apply Qsum_all_zero. apply Forall_forall. intros y Y. unfold deviations in Y. apply in_map_iff in Y.
      destruct Y as (x & <- & I). rewrite (H x I), Mc. ring. }
    lra. }
  apply (detn_zero_row (mp_dims P) _ c (nth c (mp_cov (mp_K P) ws rd (new_alpha ws rd) (mp_scatter (mp_dims P) xs (new_mu P xs ws rd))) [])); auto.
  - apply nth_error_nth'. unfold mp_cov, mp_scatter. rewrite !map_length, seq_length. auto.
  - apply Forall_forall. intros y Y.
    apply (In_nth _ _ 0) in Y. destruct Y as (j & J & <-).
    assert (Lj : (j < mp_dims P)%nat).
    { unfold mp_cov, mp_scatter in J. rewrite map_map, nth_map_seq in J by auto. rewrite !map_length, seq_length in J. auto. }
    specialize (E c j C Lj). unfold is_scatter, entry in E. rewrite E. change sum_of with Qsum. apply Qsum_all_zero.
    apply Forall_forall. intros y Y. unfold deviations in Y. apply in_map_iff in Y. destruct Y as (x & <- & I). rewrite (H x I), Mc. ring.
Qed.

(** ** Histories *)
Definition mp_op_ok (P : mp_params) (o : mp_op) : Prop :=
  match o with
  | MpCall pi n timeout tape => forall x, 0 <= pi x
  | MpSample m => True
  | MpReset us => length us = mp_N P
  end.
Definition mp_asked (e : mp_op * bool) : bool * nat :=
  match fst e with MpReset _ => (true, 0%nat) | MpSample m => (false, m) | MpCall _ _ _ _ => (false, 0%nat) end.
Definition mp_raised (e : mp_op * bool) : bool * nat :=
  match fst e with MpReset _ => (true, 0%nat) | _ => (false, if snd e then 0%nat else 1%nat) end.

(** Books after t batches and f refused adaptations. *)
Definition mp_books (P : mp_params) (extra f t : nat) (s : mp) : Prop :=
  mp_ok P s /\ length (mp_samples s) = (t * mp_K P)%nat /\ length (mp_weights s) = length (mp_samples s) /\
  mp_q_samples s = ((t + f) * mp_K P + extra)%nat /\ mp_pi_evals s = ((t + f) * mp_K P)%nat /\
  mp_q_evals s = ((t + f) * (mp_K P * (1 + mp_N P)))%nat /\
  (mp_dead s = false -> exists ws, mp_weights s = map Fin ws /\ Forall (fun w => 0 <= w) ws /\ Qsum ws == Qnat t) /\
  (f = 0%nat -> mp_clean s).

Lemma repeat_forall {A} (p : A -> Prop) x n : p x -> Forall p (repeat x n).
Proof. intros H. induction n; simpl; constructor; auto. Qed.
Lemma forall2_refl_Q l : Forall2 Qeq l l.
Proof. induction l; constructor; auto. reflexivity. Qed.

Lemma mp_books_new P us : mp_params_ok P -> length us = mp_N P -> mp_books P 0 0 0 (mp_new P us).
Proof.
  intros (N & K & C) U. pose proof (Qnat_pos (mp_N P) N) as NP.
  assert (0 < 1 / Qnat (mp_N P)) by (apply Qlt_shift_div_l; lra).
  unfold mp_books, mp_ok, mp_new. simpl. rewrite map_length, !repeat_length. repeat split; auto; try (apply repeat_forall; auto).
  - rewrite Qsum_repeat. field. lra.
  - intros _. exists []. repeat split; auto.
  - intros _. apply forall2_refl_Q.
Qed.

Lemma mp_books_iter P pi r s extra f t : mp_params_ok P -> (forall x, 0 <= pi x) -> mp_books P extra f t s -> mp_dead s = false ->
  match mp_iter P pi r s with
  | Done s' => mp_books P extra f (S t) s'
  | Failed e s' => mp_books P extra (S f) t s'
  | Running _ => False
  end.
Proof.
  intros PO Pi (O & A & B & C & D & E & F & G) Dd. pose proof (mp_iter_case P pi r s PO O Pi) as Ic.
  destruct (F Dd) as (ws0 & W0 & F0 & S0).
  inversion Ic as [xs Lx Z Eq|xs alpha mixw props Lx Ex Hp Ha Al Sa Ok Eq|props alpha Lp La Fa Eq].
  - unfold mp_books. cbn [mp_samples mp_weights mp_q_samples mp_q_evals mp_pi_evals mp_dead mp_alpha mp_mixw mp_props].
    rewrite !app_length, map_length, A, B, A, C, D, E, Lx. repeat split; auto; try lia; try (apply O); try discriminate.
  - unfold mp_books. cbn [mp_samples mp_weights mp_q_samples mp_q_evals mp_pi_evals mp_dead].
    assert (Lw : length (norm_ws P pi s xs) = mp_K P) by (unfold norm_ws; rewrite !map_length; auto).
    rewrite !app_length, map_length, A, B, A, C, D, E, Lx, Lw. split; [exact Ok|]. repeat split; try lia.
    + intros _. exists (ws0 ++ norm_ws P pi s xs). rewrite W0, map_app.
      assert (Z : ~ Qsum (map (mp_raw P pi s) xs) == 0).
      { apply Exists_exists in Ex. destruct Ex as (x & X & Px). intros Z.
        assert (Fr : Forall (fun w => 0 <= w) (map (mp_raw P pi s) xs)).
        { apply Forall_forall. intros w W. apply in_map_iff in W. destruct W as (y & <- & _). apply raw_nonneg; auto. }
        assert (0 < mp_raw P pi s x).
        { unfold mp_raw. apply Qlt_shift_div_l; [apply mix_pos; auto|]. rewrite Qmult_0_l. auto. }
        pose proof (Qsum_pos_in _ _ Fr (in_map _ _ _ X) H). lra. }
      destruct (norm_ws_spec P pi s xs PO O Pi Z) as (_ & Fw & S1). repeat split; auto.
      * apply Forall_app. auto.
      * rewrite Qsum_app, S0, S1, Qnat_S. reflexivity.
    + intros _. unfold mp_clean. simpl. auto.
  - unfold mp_books, mp_ok. cbn [mp_samples mp_weights mp_q_samples mp_q_evals mp_pi_evals mp_dead mp_alpha mp_mixw mp_props].
    destruct O as (O1 & O2 & O3 & O4 & O5 & O6). rewrite A, B, C, D, E. repeat split; auto; try lia.
Qed.

Lemma mp_books_loop P pi n timeout tape : mp_params_ok P -> (forall x, 0 <= pi x) -> forall elapsed s extra f t, mp_books P extra f t s ->
  match mp_loop P pi n timeout tape elapsed s with
  | Done s' => exists t', mp_books P extra f t' s'
  | Failed e s' => exists t', mp_books P extra (S f) t' s'
  | Running s' => exists t', mp_books P extra f t' s'
  end.
Proof.
  intros PO Pi. induction tape as [|r tp IH]; intros elapsed s extra f t H; simpl.
  - destruct (_ && _); [destruct (mp_dead s)|]; eauto.
  - destruct (_ && _); eauto. destruct (mp_dead s) eqn:Dd; eauto.
    pose proof (mp_books_iter P pi r s extra f t PO Pi H Dd) as B.
    destruct (mp_iter P pi r s) as [s'|s'|e s']; [exact (IH _ _ _ _ _ B)|tauto|eauto].
Qed.

Lemma mp_books_reachable P us ops s : mp_params_ok P -> length us = mp_N P -> Forall (fun e => mp_op_ok P (fst e)) ops ->
  mp_reachable P us ops s ->
  exists t, mp_books P (since_reset (map mp_asked ops)) (since_reset (map mp_raised ops)) t s.
Proof.
  intros PO U O R. induction R as [|o ops s s' R IH E|o ops s e s' R IH E].
  - exists 0%nat. apply mp_books_new; auto.
  - inversion O; subst. destruct (IH H2) as (t & B). destruct o as [pi n timeout tape|m|us']; simpl in *.
    + pose proof (mp_books_loop P pi n timeout tape PO H1 0 s _ _ _ B) as L. unfold mp_call in E. rewrite E in L. auto.
    + inversion E; subst. exists t. destruct B as (b1 & b2 & b3 & b4 & b5 & b6 & b7 & b8).
      repeat split; simpl; auto; try apply b1; try lia.
    + inversion E; subst. exists 0%nat. apply (mp_books_new P us' PO H1).
  - inversion O; subst. destruct (IH H2) as (t & B). destruct o as [pi n timeout tape|m|us']; simpl in *; try discriminate.
    pose proof (mp_books_loop P pi n timeout tape PO H1 0 s _ _ _ B) as L. unfold mp_call in E. rewrite E in L. auto.
Qed.

(** Requests. *)
Lemma mp_loop_request P pi n timeout tape : mp_params_ok P -> (forall x, 0 <= pi x) -> forall elapsed s s', mp_ok P s ->
  mp_loop P pi n timeout tape elapsed s = Done s' ->
  ((n <= length (mp_samples s))%nat -> s' = s) /\
  ((length (mp_samples s) < n)%nat -> (length (mp_samples s') < n + mp_K P)%nat) /\
  (Forall (fun r => mr_clock r < timeout) tape -> elapsed < timeout -> (n <= length (mp_samples s'))%nat).
Proof.
  intros PO Pi. pose proof PO as (N & K & C).
  induction tape as [|r t IH]; intros elapsed s s' O; simpl.
  - destruct (Nat.ltb_spec (length (mp_samples s)) n), (Qltb_spec elapsed timeout); simpl; intros E;
      try (destruct (mp_dead s); discriminate); assert (s' = s) by congruence; subst; repeat split; try lia; intros; try lra; try lia.
  - destruct (Nat.ltb_spec (length (mp_samples s)) n) as [L|L], (Qltb_spec elapsed timeout) as [T|T]; simpl; intros E;
      try (assert (s' = s) by congruence; subst; repeat split; try lia; intros; try lra; lia).
    destruct (mp_dead s); [discriminate|].
    pose proof (mp_iter_case P pi r s PO O Pi) as Ic. destruct (mp_iter P pi r s) as [s1|s1|e s1] eqn:Q; try discriminate.
    assert (G : mp_ok P s1 /\ length (mp_samples s1) = (length (mp_samples s) + mp_K P)%nat).
    { inversion Ic; subst; cbn [mp_samples]; rewrite app_length; auto. }
    destruct G as [O1 L1]. destruct (IH _ _ _ O1 E) as (X & Y & Z). repeat split.
    + intros; lia.
    + intros _. destruct (le_lt_dec n (length (mp_samples s1))) as [G|G].
      * rewrite (X G). lia.
      * specialize (Y G). auto.
    + intros F _. inversion F; subst. apply Z; auto.
Qed.

(** A batch whose samples coincide is refused. *)
Lemma det_coincident P xs ws rd : (0 < mp_dims P)%nat ->
  (forall c, (c < mp_dims P)%nat -> exists b, forall x, In x xs -> nth c x 0 == b) ->
  length xs = mp_K P -> length ws = mp_K P -> length rd = mp_K P -> 0 < new_alpha ws rd ->
  detn (mp_dims P) (new_cov P xs ws rd) == 0.
Proof.
  intros D H Lx Lw Lr A. destruct (H 0%nat D) as (b & B).
  destruct (det_degenerate P xs ws rd 0 b D B Lx Lw Lr A) as [E|E]; auto. exfalso.
  assert (Mc : forall c b, (c < mp_dims P)%nat -> (forall x, In x xs -> nth c x 0 == b) -> nth c (new_mu P xs ws rd) 0 == b).
  { intros c b' C Hb. pose proof (mu_weighted (mp_dims P) xs ws rd c C ltac:(lra)) as M. unfold is_weighted_mean in M.
    rewrite (sum_of_Qsum (map2 Qmult ws rd)) in M. apply (weighted_mean_const c (map2 Qmult ws rd) xs _ b'); auto.
    - rewrite map2_length; congruence.
    - fold (new_alpha ws rd). lra. }
  assert (Z : forall i j, (i < mp_dims P)%nat -> (j < mp_dims P)%nat ->
    entry (mp_cov (mp_K P) ws rd (new_alpha ws rd) (mp_scatter (mp_dims P) xs (new_mu P xs ws rd))) i j == 0).
  { intros i j I J. rewrite (cov_entry (mp_K P) ws rd (new_alpha ws rd) _ (mp_dims P) i j
      (fun i j => Qsum (map (fun x => (nth i x 0 - nth i (new_mu P xs ws rd) 0) * (nth j x 0 - nth j (new_mu P xs ws rd) 0)) xs)));
      auto; try reflexivity; try lra.
    apply Qsum_all_zero. apply Forall_forall. intros y Y. apply in_map_iff in Y. destruct Y as (x & <- & X).
    destruct (H i I) as (bi & Bi). rewrite (Bi x X), (Mc i bi I Bi). ring. }
  unfold new_cov, mp_failsafe in E. destruct (existsb _ _) eqn:Ex.
  - apply existsb_exists in Ex. destruct Ex as (row & R & Ev). apply existsb_exists in Ev. destruct Ev as (v & V & G).
    apply Qltb_true in G. apply (In_nth _ _ []) in R. destruct R as (i & I & <-). apply (In_nth _ _ 0) in V. destruct V as (j & J & <-).
    assert (Li : (i < mp_dims P)%nat) by (unfold mp_cov, mp_scatter in I; rewrite !map_length, seq_length in I; auto).
    assert (Lj : (j < mp_dims P)%nat).
    { unfold mp_cov, mp_scatter in J. rewrite map_map, nth_map_seq in J by auto. rewrite !map_length, seq_length in J. auto. }
    specialize (Z i j Li Lj). unfold entry in Z. lra.
  - specialize (Z 0%nat 0%nat D D). rewrite E in Z. unfold entry, diag_const in Z. rewrite nth_map_seq, nth_map_seq in Z by auto.
    simpl in Z. lra.
Qed.

Lemma coincident_fails P pi r s xs : mp_params_ok P -> mp_ok P s -> (forall x, 0 <= pi x) -> (0 < mp_dims P)%nat ->
  mixture_sample (mp_mixw s) (mp_K P) (mr_us r) (mr_draw r) = Ok xs -> Exists (fun x => 0 < pi x) xs ->
  (forall c, (c < mp_dims P)%nat -> exists b, forall x, In x xs -> nth c x 0 == b) ->
  exists s', mp_iter P pi r s = Failed AssertionError s'.
Proof.
  intros PO O Pi D Sm Ex H. pose proof PO as (N & K & C).
  assert (Lx : length xs = mp_K P) by (destruct (sample_ok P s r PO O) as (xs' & Sm' & L'); congruence).
  assert (Z : ~ Qsum (map (mp_raw P pi s) xs) == 0).
  { apply Exists_exists in Ex. destruct Ex as (x & X & Px). intros Z.
    assert (Fr : Forall (fun w => 0 <= w) (map (mp_raw P pi s) xs)).
    { apply Forall_forall. intros w W. apply in_map_iff in W. destruct W as (y & <- & _). apply raw_nonneg; auto. }
    assert (P0 : 0 < mp_raw P pi s x).
    { unfold mp_raw. apply Qlt_shift_div_l; [apply mix_pos; auto|]. rewrite Qmult_0_l. auto. }
    pose proof (Qsum_pos_in _ _ Fr (in_map _ _ _ X) P0). lra. }
  unfold mp_iter. rewrite Sm. cbv zeta. destruct (Qeq_bool_spec (Qsum (map (mp_raw P pi s) xs)) 0); [contradiction|].
  destruct (norm_ws_spec P pi s xs PO O Pi Z) as (Sp & Fw & S1). fold (norm_ws P pi s xs).
  set (ws := norm_ws P pi s xs) in *.
  assert (Lw : length ws = mp_K P) by (unfold ws, norm_ws; rewrite !map_length; auto).
  assert (Np : 0 < new_alpha ws (map (mp_rho P s 0) xs)).
  { apply new_alpha_pos; auto; [rewrite map_length; congruence| |lra].
    apply Forall_forall. intros p Pp. apply in_map_iff in Pp. destruct Pp as (x & <- & _). apply rho_pos; auto. }
  pose proof (det_coincident P xs ws (map (mp_rho P s 0) xs) D H Lx Lw ltac:(rewrite map_length; auto) Np) as Dt.
  destruct (mp_N P) as [|n']; [lia|]. cbn [seq mp_adapt].
  fold (new_alpha ws (map (mp_rho P s 0) xs)). fold (new_mu P xs ws (map (mp_rho P s 0) xs)).
  fold (new_cov P xs ws (map (mp_rho P s 0) xs)).
  destruct (Qltb_spec 0 (detn (mp_dims P) (new_cov P xs ws (map (mp_rho P s 0) xs)))); [lra|]. eauto.
Qed.
