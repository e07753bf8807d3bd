(** Instances of the frame: what the leaves of the tree pyramid sampler hold (simple flow). *)
From Coq Require Import List Bool Arith Lia QArith Lqa Permutation.
Import ListNotations.
From Verif Require Import Prelude.Py Prelude.QBase Prelude.QFacts Model.Uniform Model.Population Model.Tree Model.TreeSampler Spec.TreeSpec Spec.Box
  Proofs.TreeCells Proofs.TreeProofs Proofs.TreeMask Proofs.TreeSamplerTree Proofs.TreeSamplerInv Proofs.PopulationProofs.
Open Scope Q_scope.

Definition proper (lo hi : vec) : Prop := lo <> [] /\ Forall2 Qlt lo hi.
Lemma proper_box lo hi : proper lo hi -> is_box lo hi.
Proof. intros (_ & F). induction F; simpl; auto. split; auto. lra. Qed.
Lemma proper_radius lo hi : proper lo hi -> 0 < root_radius lo hi.
Proof.
  intros (N & F). inversion F as [|l h lo' hi' H F']; subst; [congruence|]. unfold root_radius.
  pose proof (max_list_ge (map2 (fun l h => (h - l) / 2) (l :: lo') (h :: hi')) ((h - l) / 2) (or_introl eq_refl)) as M.
  rewrite half2 in M at 1. eapply Qlt_le_trans; [|exact M]. lra.
Qed.

(** One sample per leaf: an expansion is never refused. *)
Definition one_mode (P : tp_params) : Prop := exists e, p_ess P = Some e /\ 1 <= e /\ (p_nmin P <= 1)%nat.
Lemma one_never_refused P l : one_mode P -> length l = 1%nat -> may_expand (p_ess P) (p_nmin P) (HList l) = Ok true.
Proof.
  intros (e & E & He & Hn) L. unfold may_expand. rewrite E, L. destruct (Nat.ltb_spec 1 (p_nmin P)); [lia|].
  destruct l as [|[x w] [|]]; simpl in L; try lia. unfold hist_ess. simpl. f_equal.
  assert (X : fgtQ (fdivflQ (fmulQ (faddQ w (Fin 0)) (faddQ w (Fin 0))) (faddQ (fmulQ w w) (Fin 0))) (e * Qnat 1) = false); [|rewrite X; auto].
  assert (O : Qnat 1 == 1) by reflexivity.
  destruct w as [a| | |]; simpl; auto.
  unfold fdivQ. destruct (Qeq_bool_spec (a * a + 0) 0) as [Z|Z].
  - destruct (Qeq_bool_spec ((a + 0) * (a + 0)) 0) as [Z'|Z']; simpl; auto. exfalso. apply Z'. transitivity (a * a + 0); [ring|exact Z].
  - simpl. apply Qltb_false. rewrite O. setoid_replace ((a + 0) * (a + 0) / (a * a + 0)) with 1; [lra|].
    field. intros A. apply Z. rewrite A. ring.
Qed.

Definition Q1 (P : tp_params) (n : node) (x : vec) (w : fl Q) : Prop :=
  exists l, n_hist n = HList l /\ l <> [] /\ fst (last l ([], NaN)) = x /\ (one_mode P -> length l = 1%nat).
Definition anyU (u : vec) : Prop := True.
Definition anyW (w : fl Q) : Prop := True.
Definition anyPI (pi : vec -> Q) : Prop := True.

Lemma last_app {A : Type} (l : list A) a d : last (l ++ [a]) d = a.
Proof. induction l as [|x l IH]; simpl; auto. destruct (l ++ [a]) eqn:E; auto. destruct l; discriminate. Qed.
Lemma replace_last_nil {A : Type} (l : list A) a : l <> [] -> replace_last l a <> [].
Proof. intros N E. apply N. unfold replace_last in E. apply length_zero_iff_nil. rewrite <- (upd_length l (length l - 1) a), E. auto. Qed.
Lemma replace_last_last {A : Type} (l : list A) a d : l <> [] -> last (replace_last l a) d = a.
Proof.
  intros N. unfold replace_last. destruct (exists_last N) as (m & b & ->). rewrite app_length. simpl. rewrite Nat.add_sub.
  assert (upd (m ++ [b]) (length m) a = m ++ [a]) as -> by (clear; induction m; simpl; congruence). apply last_app.
Qed.
Lemma replace_last_in {A : Type} (l : list A) a y : In y (replace_last l a) -> y = a \/ In y l.
Proof.
  unfold replace_last. generalize (length l - 1)%nat. induction l as [|x l IH]; intros [|i] H; simpl in *; try tauto.
  - destruct H; auto.
  - destruct H as [H|H]; auto. destruct (IH _ H); auto.
Qed.

Lemma Q1_hist P n x w : Q1 P n x w -> exists l, n_hist n = HList l.
Proof. intros (l & E & _). eauto. Qed.
Lemma Q1_set P n x w w' : Q1 P n x w -> anyW w' -> Q1 P n x w'.
Proof. auto. Qed.
Lemma Q1_take P n w' v x p q : 
  (n_hist n = HNone \/ (exists x w, Q1 P n x w) /\ may_expand (p_ess P) (p_nmin P) (n_hist n) = Ok false) ->
  Q1 P (set_payload n w' v (HList (hist_list (n_hist n) ++ [(x, p)]))) x q.
Proof.
  intros H. exists (hist_list (n_hist n) ++ [(x, p)]). simpl. split; auto. split; [intros E; destruct (hist_list (n_hist n)); discriminate|].
  split; [rewrite last_app; auto|]. intros O. destruct H as [-> |[(y & w & l & El & _ & _ & L1) M]]; auto.
  rewrite El, (one_never_refused _ _ O (L1 O)) in M. discriminate.
Qed.
Lemma Q1_re P n x w w' w2 v l x' q : Q1 P n x w -> n_hist n = HList l -> Q1 P (set_payload n w' v (HList (replace_last l (x', w2)))) x' q.
Proof.
  intros (l0 & E & N & _ & L) E'. rewrite E in E'. inversion E'; subst l0. eexists. simpl. split; [reflexivity|].
  split; [apply replace_last_nil; auto|]. split; [rewrite replace_last_last; auto|]. intros O. unfold replace_last. rewrite upd_length. auto.
Qed.

Definition whole_cell (P : tp_params) : cell := (root_center (p_lo P) (p_hi P), root_radius (p_lo P) (p_hi P)).
Definition ops_ok (U U' : vec -> Prop) (PI : (vec -> Q) -> Prop) (ops : list (tp_op * bool)) : Prop := Forall (fun ob => op_ok U U' PI (fst ob)) ops.
Lemma any_ops ops : ops_ok anyU anyU anyPI ops.
Proof.
  apply Forall_forall. intros (o, b) _. destruct o; simpl; auto. split; [exact I|]. split; [exact I|]. apply Forall_forall. intros r _.
  split; intros i; exact I.
Qed.
Definition settled1 (P : tp_params) (s : tp) : Prop := settled P (whole_cell P) (Q1 P) s.
Lemma reach1 P ops s : proper (p_lo P) (p_hi P) -> p_flow P = Simple -> tp_reachable P ops s ->
  s_tree s = tree_new (p_lo P) (p_hi P) \/ settled1 P s.
Proof.
  intros B F R. apply (reach_settled P (Q1 P) anyW anyU anyU anyPI) with (ops := ops); auto; try (intros; exact I).
  - apply proper_box; auto.
  - apply proper_radius; auto.
  - apply Q1_hist.
  - intros pi n u _ _ _ H. simpl. apply Q1_take. auto.
  - intros n x w w' u l H _ _ _ E. eapply Q1_re; eauto.
  - apply any_ops.
Qed.
Lemma call1 P s pi n timeout u tape : proper (p_lo P) (p_hi P) -> p_flow P = Simple ->
  s_tree s = tree_new (p_lo P) (p_hi P) \/ settled1 P s ->
  match p_ess P with
  | None => tp_call P pi n timeout u tape s = Failed TypeError (root_turn P pi u s) /\ settled1 P (root_turn P pi u s)
  | Some _ => exists s', (tp_call P pi n timeout u tape s = Done s' \/ tp_call P pi n timeout u tape s = Running s') /\ settled1 P s'
  end.
Proof.
  intros B F S. apply (call_settled P (Q1 P) anyW anyU anyU anyPI); auto; try (intros; exact I).
  - apply proper_box; auto.
  - apply proper_radius; auto.
  - apply Q1_hist.
  - intros pi0 n0 u0 _ _ _ H. simpl. apply Q1_take. auto.
  - intros n0 x w w' u0 l H _ _ _ E. eapply Q1_re; eauto.
  - apply Forall_forall. intros r _. split; intros i; exact I.
Qed.

(** Finite weights: positive densities and open unit draws. *)
Definition finw (w : fl Q) : Prop := exists q, w = Fin q /\ 0 <= q.
Definition unit_open (P : tp_params) (u : vec) : Prop :=
  length u = p_dims P /\ (p_kernel P = Haar -> Forall (fun a => 0 < a /\ a < 1) u).
Definition unit_half (P : tp_params) (u : vec) : Prop :=
  length u = p_dims P /\ (p_kernel P = Haar -> Forall (fun a => 0 <= a /\ a < 1) u).
Definition nonneg (pi : vec -> Q) : Prop := forall x, 0 <= pi x.
Definition positive_kernel (P : tp_params) : Prop := p_kernel P = Normal -> forall v m x, 0 < p_nden P v m x.
Definition xok (P : tp_params) (n : node) (y : vec) : Prop := length y = p_dims P /\ (p_kernel P = Haar -> in_closed (node_cell n) y).

Definition Q2 (P : tp_params) (n : node) (x : vec) (w : fl Q) : Prop :=
  Q1 P n x w /\ finw w /\ finw (n_value n) /\ xok P n x /\ forall l y v, n_hist n = HList l -> In (y, v) l -> xok P n y /\ finw v.

Lemma draw_open c r u : 0 < r -> length u = length c -> Forall (fun a => 0 < a /\ a < 1) u -> in_open (c, r) (uniform_draw (cell_lo c r) (cell_hi c r) u).
Proof.
  intros Pr. unfold in_open, uniform_draw, cell_lo, cell_hi, vadd, vsub. simpl. revert u. induction c as [|a c IH]; intros [|b u] L F; simpl in *; try discriminate; constructor.
  - inversion F as [|? ? (A & B) F']; subst. split; nra.
  - inversion F; subst. apply IH; auto.
Qed.
Lemma draw_half c r u : 0 < r -> length u = length c -> Forall (fun a => 0 <= a /\ a < 1) u -> in_closed (c, r) (uniform_draw (cell_lo c r) (cell_hi c r) u).
Proof.
  intros Pr. unfold in_closed, uniform_draw, cell_lo, cell_hi, vadd, vsub. simpl. revert u. induction c as [|a c IH]; intros [|b u] L F; simpl in *; try discriminate; constructor.
  - inversion F as [|? ? (A & B) F']; subst. split; nra.
  - inversion F; subst. apply IH; auto.
Qed.
Lemma open_closed c x : in_open c x -> in_closed c x.
Proof. unfold in_open, in_closed. intros F. induction F; constructor; auto. lra. Qed.
Lemma open_inlier c r x : in_open (c, r) x -> inlier (cell_lo c r) (cell_hi c r) x = true.
Proof.
  unfold in_open. simpl. intros F. induction F as [|a v c x (H1 & H2) F IH]; simpl; auto. rewrite IH, andb_true_r. apply andb_true_iff. split.
  - apply Qltb_true. auto.
  - apply Qle_bool_iff. lra.
Qed.
Lemma re_closed c r u : 0 < r -> length u = length c -> Forall (fun a => 0 <= a /\ a < 1) u -> in_closed (c, r) (re_sample c r (map (fun a => -(1#2) + a) u)).
Proof.
  intros Pr. unfold in_closed, re_sample. simpl. revert u. induction c as [|a c IH]; intros [|b u] L F; simpl in *; try discriminate; constructor.
  - inversion F as [|? ? (A & B) F']; subst. split; nra.
  - inversion F; subst. apply IH; auto.
Qed.
Lemma Qpow_positive x n : 0 < x -> 0 < Qpow x n.
Proof. intros H. rewrite <- power_Qpow. apply power_pos. auto. Qed.
Lemma fin_divide p q : 0 <= p -> 0 < q -> fdivflQ (Fin p) (Fin q) = Fin (p / q) /\ 0 <= p / q.
Proof.
  intros Hp Hq. simpl. unfold fdivQ. destruct (Qeq_bool_spec q 0); [lra|]. split; auto. unfold Qdiv. apply Qmult_le_0_compat; auto.
  apply Qlt_le_weak, Qinv_lt_0_compat. auto.
Qed.
Lemma finw_divide p q : 0 <= p -> 0 < q -> finw (fdivflQ (Fin p) (Fin q)).
Proof. intros Hp Hq. destruct (fin_divide p q Hp Hq) as (-> & H). eexists. split; eauto. Qed.
Lemma node_density_pos P n u : positive_kernel P -> node_ok P n -> unit_open P u ->
  let x := kernel_draw (p_kernel P) (n_center n) (n_radius n) u in
  xok P n x /\ exists q, node_density P (n_center n) (n_radius n) x = Fin q /\ 0 < q /\
    (p_kernel P = Haar -> q * Qpow (2 * n_radius n) (p_dims P) == 1).
Proof.
  intros K (D & Pr) (L & F). simpl. unfold xok, node_density, kernel_draw. destruct (p_kernel P) eqn:Ek.
  - specialize (F eq_refl). pose proof (draw_open (n_center n) (n_radius n) u Pr ltac:(congruence) F) as O. split.
    + split; [|intros _; apply open_closed; auto]. unfold in_open in O. simpl in O. apply ListFacts.forall2_length in O. rewrite <- O. auto.
    + rewrite (open_inlier _ _ _ O). pose proof (Qpow_positive (n_radius n * 2) (length (n_center n)) ltac:(lra)) as Pp. unfold fdivQ.
      destruct (Qeq_bool_spec (Qpow (n_radius n * 2) (length (n_center n))) 0); [lra|]. eexists. split; [reflexivity|]. split.
      * apply Qlt_shift_div_l; lra.
      * intros _. rewrite D. rewrite <- !power_Qpow, (power_eq (2 * n_radius n) (n_radius n * 2)) by ring. field. rewrite power_Qpow, <- D. lra.
  - split; [split; [auto|discriminate]|]. eexists. split; [reflexivity|]. split; [apply (K Ek)|discriminate].
Qed.
Lemma re_density_pos P r z : positive_kernel P -> 0 < r -> exists q, re_density P r z = Fin q /\ 0 < q.
Proof.
  intros K Pr. unfold re_density. destruct (p_kernel P) eqn:Ek.
  - pose proof (Qpow_positive (2 * r) (p_dims P) ltac:(lra)) as Pp. unfold fdivQ. destruct (Qeq_bool_spec (Qpow (2 * r) (p_dims P)) 0); [lra|].
    eexists. split; [reflexivity|]. apply Qlt_shift_div_l; lra.
  - eexists. split; [reflexivity|]. apply (K Ek).
Qed.

Lemma finw_list ws : Forall finw ws -> exists l, ws = map Fin l /\ Forall (fun q => 0 <= q) l.
Proof.
  induction 1 as [|w ws (q & -> & H) F (l & -> & G)]; [exists []; split; auto|]. exists (q :: l). split; auto.
Qed.
Lemma finw_norm ws w : Forall finw ws -> fgtQ (fsumQ ws) 0 = true -> In w ws -> finw (fdivflQ w (fsumQ ws)).
Proof.
  intros F G Iw. destruct (finw_list ws F) as (l & -> & H). rewrite fsumQ_fin in *. simpl in G. apply Qltb_true in G.
  apply in_map_iff in Iw. destruct Iw as (q & <- & Iq). rewrite Forall_forall in H. apply finw_divide; auto.
Qed.
Lemma finw_mean_value ws c : ws <> [] -> Forall finw ws -> 0 <= c -> finw (fmulQ (fmean ws) (Fin c)).
Proof.
  intros N F C. destruct (finw_list ws F) as (l & -> & H). unfold fmean. rewrite fsumQ_fin, map_length.
  assert (0 < Qnat (length l)) by (apply Qnat_pos; destruct l; [contradiction|simpl; lia]).
  destruct (fin_divide (Qsum l) (Qnat (length l)) (Qsum_nonneg _ H) H0) as (-> & G). simpl. eexists. split; [reflexivity|].
  apply Qmult_le_0_compat; auto.
Qed.

Lemma Q2_take P pi n u : positive_kernel P -> nonneg pi -> node_ok P n -> unit_open P u ->
  (n_hist n = HNone \/ (exists x w, Q2 P n x w) /\ may_expand (p_ess P) (p_nmin P) (n_hist n) = Ok false) ->
  let x := kernel_draw (p_kernel P) (n_center n) (n_radius n) u in
  let nw := taken n x (pi x) (node_density P (n_center n) (n_radius n) x) in
  Q2 P (fst nw) x (snd nw).
Proof.
  intros K Np Nok Hu H. destruct (node_density_pos P n u K Nok Hu) as (X & q & Eq & Pq & _). cbv zeta.
  set (x := kernel_draw (p_kernel P) (n_center n) (n_radius n) u) in *. unfold taken. rewrite Eq.
  assert (W : finw (fdivflQ (Fin (pi x)) (Fin q))) by (apply finw_divide; auto). set (w := fdivflQ (Fin (pi x)) (Fin q)) in *. simpl.
  assert (HL : forall y v, In (y, v) (hist_list (n_hist n) ++ [(x, w)]) -> xok P n y /\ finw v).
  { intros y v I. apply in_app_iff in I. destruct I as [I|[I|[]]]; [|inversion I; subst; auto].
    destruct H as [H|[(x0 & w0 & (l & El & _) & _ & _ & _ & G) _]]; [rewrite H in I; destruct I|]. rewrite El in I. simpl in I. exact (G l y v El I). }
  split; [|split; [|split; [|split]]].
  - apply Q1_take. destruct H as [H|[(x0 & w0 & Q & _) M]]; [auto|]. right. split; auto. eauto.
  - exact W.
  - simpl. apply finw_mean_value.
    + unfold hist_weights. rewrite map_app. destruct (map snd (hist_list (n_hist n))); discriminate.
    + apply Forall_forall. intros v V. unfold hist_weights in V. apply in_map_iff in V. destruct V as ((y, v') & <- & I). eapply HL; eauto.
    + apply Qlt_le_weak, Qpow_positive. apply Nok.
  - exact X.
  - intros l y v E I. inversion E; subst. eapply HL; eauto.
Qed.
Lemma Q2_re P n x w w' u l : Q2 P n x w -> node_ok P n -> finw w' -> unit_half P u -> n_hist n = HList l ->
  forall v, finw v -> let x' := re_sample (n_center n) (n_radius n) (re_unit P u) in
  Q2 P (set_payload n w' v (HList (replace_last l (x', w')))) x' w'.
Proof.
  intros (H1 & H2 & H3 & H4 & H5) (D & Pr) W (Lu & Fu) El v V x'.
  assert (X : xok P n x').
  { assert (L : length (re_unit P u) = length u) by (unfold re_unit; destruct (p_kernel P); auto; apply map_length).
    split; [|intros Ek; unfold x', re_unit; rewrite Ek; apply re_closed; auto; congruence].
    unfold x', re_sample. rewrite map2_length_min; auto. congruence. }
  split; [eapply Q1_re; eauto|]. split; [auto|]. split; [simpl; auto|]. split; [exact X|].
  intros l' y v' E I. simpl in E. inversion E; subst. apply replace_last_in in I. destruct I as [I|I]; [inversion I; subst; split; auto|].
  exact (H5 l y v' El I).
Qed.

Definition settled2 (P : tp_params) (s : tp) : Prop := settled P (whole_cell P) (Q2 P) s.
Lemma Q2_re_value P n w : node_ok P n -> finw w -> finw (fmulQ w (Fin (Qpow (2 * n_radius n) (length (n_center n))))).
Proof.
  intros (_ & Pr) (q & -> & H). simpl. eexists. split; [reflexivity|]. apply Qmult_le_0_compat; auto. apply Qlt_le_weak, Qpow_positive. lra.
Qed.
Lemma Q2_set P n x w w' : Q2 P n x w -> finw w' -> Q2 P n x w'.
Proof. intros ((l & H) & _ & R) W. split; [exists l; auto|]. split; auto. Qed.
Lemma RW2_re P pi c r u : positive_kernel P -> nonneg pi -> 0 < r -> finw (fdivflQ (Fin (pi (re_sample c r (re_unit P u)))) (re_density P r (re_unit P u))).
Proof. intros K N Pr. destruct (re_density_pos P r (re_unit P u) K Pr) as (q & -> & Pq). apply finw_divide; auto. Qed.

Lemma reach2 P ops s : proper (p_lo P) (p_hi P) -> positive_kernel P -> p_flow P = Simple -> tp_reachable P ops s ->
  ops_ok (unit_open P) (unit_half P) nonneg ops -> s_tree s = tree_new (p_lo P) (p_hi P) \/ settled2 P s.
Proof.
  intros B K F R O. apply (reach_settled P (Q2 P) finw (unit_open P) (unit_half P) nonneg) with (ops := ops); auto.
  - apply proper_box; auto.
  - apply proper_radius; auto.
  - intros n x w (H & _). apply (Q1_hist _ _ _ _ H).
  - intros n x w (_ & H & _). auto.
  - intros n x w w'. apply Q2_set.
  - apply finw_norm.
  - intros pi n u Np Nok Hu H. apply Q2_take; auto.
  - intros pi c r u Np _ Pr _. apply RW2_re; auto.
  - intros n x w w' u l H Nok W Hu E. eapply Q2_re; eauto. apply (Q2_re_value P); auto.
Qed.
Lemma call2 P s pi n timeout u tape : proper (p_lo P) (p_hi P) -> positive_kernel P -> p_flow P = Simple ->
  nonneg pi -> unit_open P u -> Forall (round_ok (unit_open P) (unit_half P)) tape ->
  s_tree s = tree_new (p_lo P) (p_hi P) \/ settled2 P s ->
  match p_ess P with
  | None => tp_call P pi n timeout u tape s = Failed TypeError (root_turn P pi u s) /\ settled2 P (root_turn P pi u s)
  | Some _ => exists s', (tp_call P pi n timeout u tape s = Done s' \/ tp_call P pi n timeout u tape s = Running s') /\ settled2 P s'
  end.
Proof.
  intros B K F Np Hu Ft S. apply (call_settled P (Q2 P) finw (unit_open P) (unit_half P) nonneg); auto.
  - apply proper_box; auto.
  - apply proper_radius; auto.
  - intros n0 x w (H & _). apply (Q1_hist _ _ _ _ H).
  - intros n0 x w (_ & H & _). auto.
  - intros n0 x w w'. apply Q2_set.
  - apply finw_norm.
  - intros pi0 n0 u0 Np0 Nok Hu0 H. apply Q2_take; auto.
  - intros pi0 c r u0 Np0 _ Pr _. apply RW2_re; auto.
  - intros n0 x w w' u0 l H Nok W Hu0 E. eapply Q2_re; eauto. apply (Q2_re_value P); auto.
Qed.

(** Positive targets: the weights are positive. *)
Definition posw (w : fl Q) : Prop := exists q, w = Fin q /\ 0 < q.
Definition positive (pi : vec -> Q) : Prop := forall x, 0 < pi x.
Definition Q3 (P : tp_params) (n : node) (x : vec) (w : fl Q) : Prop := Q1 P n x w /\ posw w.
Lemma posw_divide p q : 0 < p -> 0 < q -> posw (fdivflQ (Fin p) (Fin q)).
Proof.
  intros Hp Hq. simpl. unfold fdivQ. destruct (Qeq_bool_spec q 0); [lra|]. eexists. split; [reflexivity|]. apply Qlt_shift_div_l; lra.
Qed.
Lemma posw_norm ws w : Forall posw ws -> fgtQ (fsumQ ws) 0 = true -> In w ws -> posw (fdivflQ w (fsumQ ws)).
Proof.
  intros F G Iw. assert (F' : Forall finw ws) by (eapply Forall_impl; [|exact F]; intros a (q & -> & L); exists q; split; auto; lra).
  destruct (finw_list ws F') as (l & -> & H). rewrite fsumQ_fin in *. simpl in G. apply Qltb_true in G.
  rewrite Forall_forall in F. destruct (F _ Iw) as (q & -> & Pq). apply posw_divide; auto.
Qed.
Lemma Q3_take P pi n u : positive_kernel P -> positive pi -> node_ok P n -> unit_open P u ->
  (n_hist n = HNone \/ (exists x w, Q3 P n x w) /\ may_expand (p_ess P) (p_nmin P) (n_hist n) = Ok false) ->
  let x := kernel_draw (p_kernel P) (n_center n) (n_radius n) u in
  let nw := taken n x (pi x) (node_density P (n_center n) (n_radius n) x) in
  Q3 P (fst nw) x (snd nw).
Proof.
  intros K Np Nok Hu H. destruct (node_density_pos P n u K Nok Hu) as (_ & q & Eq & Pq & _). cbv zeta. unfold taken. rewrite Eq. split.
  - apply Q1_take. destruct H as [H|[(x0 & w0 & Q & _) M]]; [auto|]. right. split; auto. eauto.
  - simpl snd. apply posw_divide; auto.
Qed.
Definition settled3 (P : tp_params) (s : tp) : Prop := settled P (whole_cell P) (Q3 P) s.
Lemma reach3 P ops s : proper (p_lo P) (p_hi P) -> positive_kernel P -> p_flow P = Simple -> tp_reachable P ops s ->
  ops_ok (unit_open P) (unit_half P) positive ops -> s_tree s = tree_new (p_lo P) (p_hi P) \/ settled3 P s.
Proof.
  intros B K F R O. apply (reach_settled P (Q3 P) posw (unit_open P) (unit_half P) positive) with (ops := ops); auto.
  - apply proper_box; auto.
  - apply proper_radius; auto.
  - intros n x w (H & _). apply (Q1_hist _ _ _ _ H).
  - intros n x w (_ & H). auto.
  - intros n x w w' (H & _) W. split; auto.
  - apply posw_norm.
  - intros pi n u Np Nok Hu H. apply Q3_take; auto.
  - intros pi c r u Np _ Pr _. destruct (re_density_pos P r (re_unit P u) K Pr) as (q & -> & Pq). apply posw_divide; auto.
  - intros n x w w' u l (H & _) Nok W Hu E. split; [eapply Q1_re; eauto|auto].
Qed.
Lemma call3 P s pi n timeout u tape : proper (p_lo P) (p_hi P) -> positive_kernel P -> p_flow P = Simple ->
  positive pi -> unit_open P u -> Forall (round_ok (unit_open P) (unit_half P)) tape ->
  s_tree s = tree_new (p_lo P) (p_hi P) \/ settled3 P s ->
  match p_ess P with
  | None => tp_call P pi n timeout u tape s = Failed TypeError (root_turn P pi u s) /\ settled3 P (root_turn P pi u s)
  | Some _ => exists s', (tp_call P pi n timeout u tape s = Done s' \/ tp_call P pi n timeout u tape s = Running s') /\ settled3 P s'
  end.
Proof.
  intros B K F Np Hu Ft S. apply (call_settled P (Q3 P) posw (unit_open P) (unit_half P) positive); auto.
  - apply proper_box; auto.
  - apply proper_radius; auto.
  - intros n0 x w (H & _). apply (Q1_hist _ _ _ _ H).
  - intros n0 x w (_ & H). auto.
  - intros n0 x w w' (H & _) W. split; auto.
  - apply posw_norm.
  - intros pi0 n0 u0 Np0 Nok Hu0 H. apply Q3_take; auto.
  - intros pi0 c r u0 Np0 _ Pr _. destruct (re_density_pos P r (re_unit P u0) K Pr) as (q & -> & Pq). apply posw_divide; auto.
  - intros n0 x w w' u0 l (H & _) Nok W Hu0 E. split; [eapply Q1_re; eauto|auto].
Qed.

(** A call that returned ends with the normalisation of a settled state. *)
Lemma loop_end P pi n timeout tape : forall el s s', tp_loop P pi n timeout tape el s = Done s' -> exists s1 el1, s' = update_model s1 /\
  (exists l, get_samples P (s_tree s1) = Ok l /\ ((n <= length l)%nat \/ timeout <= el1)) /\ (el1 = el \/ exists r, In r tape /\ el1 = rd_clock r) /\
  forall QQ : tp -> Prop, QQ s -> (forall need r s0 s2, QQ s0 -> In r tape -> turn P pi need r s0 = Done s2 -> QQ s2) -> QQ s1.
Proof.
  induction tape as [|r tape IH]; intros el s s' E; simpl in E; destruct (get_samples P (s_tree s)) as [l|e] eqn:G; try discriminate;
    destruct ((length l <? n)%nat && Qltb el timeout) eqn:C; try discriminate.
  1,3: inversion E; exists s, el; split; auto; split; [|split; [auto|intros QQ H _; exact H]]; exists l; split; auto; 
    apply andb_false_iff in C; destruct C as [C|C]; [left; apply Nat.ltb_ge; auto|right; apply Qltb_false in C; auto].
  destruct (turn P pi (n - length l) r s) as [s2|s2|e s2] eqn:T; try discriminate. destruct (IH _ _ _ E) as (s1 & el1 & E1 & L & C1 & H).
  exists s1, el1. split; auto. split; auto. split.
  - destruct C1 as [C1|(r' & I & C1)]; right; [exists r; split; [left|]; auto|exists r'; split; [right|]; auto].
  - intros QQ Q0 St. apply H; [eapply St; eauto; left; auto|]. intros. eapply St; eauto. right; auto.
Qed.
Lemma turn2 P pi need r s : proper (p_lo P) (p_hi P) -> positive_kernel P -> p_flow P = Simple -> nonneg pi ->
  round_ok (unit_open P) (unit_half P) r -> settled2 P s -> exists s', turn P pi need r s = Done s' /\ settled2 P s'.
Proof.
  intros B K F Np Hr S. apply (turn_settled P pi (whole_cell P) (Q2 P) finw (unit_open P) (unit_half P)); auto.
  - apply proper_radius; auto.
  - intros n x w (H & _). apply (Q1_hist _ _ _ _ H).
  - apply finw_norm.
  - intros n u Nok Hu H. apply Q2_take; auto.
  - intros c rr u _ Pr _. apply RW2_re; auto.
  - intros n x w w' u l H Nok W Hu E. eapply Q2_re; eauto. apply (Q2_re_value P); auto.
Qed.
Lemma turn3 P pi need r s : proper (p_lo P) (p_hi P) -> positive_kernel P -> p_flow P = Simple -> positive pi ->
  round_ok (unit_open P) (unit_half P) r -> settled3 P s -> exists s', turn P pi need r s = Done s' /\ settled3 P s'.
Proof.
  intros B K F Np Hr S. apply (turn_settled P pi (whole_cell P) (Q3 P) posw (unit_open P) (unit_half P)); auto.
  - apply proper_radius; auto.
  - intros n x w (H & _). apply (Q1_hist _ _ _ _ H).
  - apply posw_norm.
  - intros n u Nok Hu H. apply Q3_take; auto.
  - intros c rr u _ Pr _. destruct (re_density_pos P rr (re_unit P u) K Pr) as (q & -> & Pq). apply posw_divide; auto.
  - intros n x w w' u l (H & _) Nok W Hu E. split; [eapply Q1_re; eauto|auto].
Qed.
Lemma turn1 P pi need r s : proper (p_lo P) (p_hi P) -> p_flow P = Simple -> settled1 P s -> exists s', turn P pi need r s = Done s' /\ settled1 P s'.
Proof.
  intros B F S. apply (turn_settled P pi (whole_cell P) (Q1 P) anyW anyU anyU); auto; try (intros; exact I).
  - apply proper_radius; auto.
  - apply Q1_hist.
  - intros n0 u0 _ _ H. simpl. apply Q1_take. auto.
  - intros n0 x w w' u0 l H _ _ _ E. eapply Q1_re; eauto.
  - split; intros i; exact I.
Qed.
Lemma root1 P pi u s : proper (p_lo P) (p_hi P) -> s_tree s = tree_new (p_lo P) (p_hi P) \/ settled1 P s -> settled1 P (root_turn P pi u s).
Proof.
  intros B S. apply (call_root P (Q1 P) anyW anyU anyPI); auto; try (intros; exact I).
  - apply proper_box; auto.
  - apply proper_radius; auto.
  - apply Q1_hist.
  - intros pi0 n0 u0 _ _ _ H. simpl. apply Q1_take. auto.
Qed.
Lemma root2 P pi u s : proper (p_lo P) (p_hi P) -> positive_kernel P -> nonneg pi -> unit_open P u ->
  s_tree s = tree_new (p_lo P) (p_hi P) \/ settled2 P s -> settled2 P (root_turn P pi u s).
Proof.
  intros B K Np Hu S. apply (call_root P (Q2 P) finw (unit_open P) nonneg); auto.
  - apply proper_box; auto.
  - apply proper_radius; auto.
  - intros n0 x w (H & _). apply (Q1_hist _ _ _ _ H).
  - intros n0 x w (_ & H & _). auto.
  - intros n0 x w w'. apply Q2_set.
  - apply finw_norm.
  - intros pi0 n0 u0 Np0 Nok Hu0 H. apply Q2_take; auto.
Qed.
Lemma root3 P pi u s : proper (p_lo P) (p_hi P) -> positive_kernel P -> positive pi -> unit_open P u ->
  s_tree s = tree_new (p_lo P) (p_hi P) \/ settled3 P s -> settled3 P (root_turn P pi u s).
Proof.
  intros B K Np Hu S. apply (call_root P (Q3 P) posw (unit_open P) positive); auto.
  - apply proper_box; auto.
  - apply proper_radius; auto.
  - intros n0 x w (H & _). apply (Q1_hist _ _ _ _ H).
  - intros n0 x w (_ & H). auto.
  - intros n0 x w w' (H & _) W. split; auto.
  - apply posw_norm.
  - intros pi0 n0 u0 Np0 Nok Hu0 H. apply Q3_take; auto.
Qed.
Lemma done1 P pi n timeout u tape s s' : proper (p_lo P) (p_hi P) -> p_flow P = Simple ->
  s_tree s = tree_new (p_lo P) (p_hi P) \/ settled1 P s -> tp_call P pi n timeout u tape s = Done s' ->
  exists s1, s' = update_model s1 /\ settled1 P s1.
Proof.
  intros B F S E. destruct (loop_end _ _ _ _ _ _ _ _ E) as (s1 & el & -> & _ & _ & H). exists s1. split; auto. apply H; [apply root1; auto|].
  intros need r s0 s2 S0 _ T. destruct (turn1 P pi need r s0 B F S0) as (s3 & T3 & S3). congruence.
Qed.
Lemma done2 P pi n timeout u tape s s' : proper (p_lo P) (p_hi P) -> positive_kernel P -> p_flow P = Simple ->
  nonneg pi -> unit_open P u -> Forall (round_ok (unit_open P) (unit_half P)) tape ->
  s_tree s = tree_new (p_lo P) (p_hi P) \/ settled2 P s -> tp_call P pi n timeout u tape s = Done s' ->
  exists s1, s' = update_model s1 /\ settled2 P s1.
Proof.
  intros B K F Np Hu Ft S E. destruct (loop_end _ _ _ _ _ _ _ _ E) as (s1 & el & -> & _ & _ & H). exists s1. split; auto. apply H; [apply root2; auto|].
  intros need r s0 s2 S0 Ir T. rewrite Forall_forall in Ft. destruct (turn2 P pi need r s0 B K F Np (Ft _ Ir) S0) as (s3 & T3 & S3). congruence.
Qed.
Lemma done3 P pi n timeout u tape s s' : proper (p_lo P) (p_hi P) -> positive_kernel P -> p_flow P = Simple ->
  positive pi -> unit_open P u -> Forall (round_ok (unit_open P) (unit_half P)) tape ->
  s_tree s = tree_new (p_lo P) (p_hi P) \/ settled3 P s -> tp_call P pi n timeout u tape s = Done s' ->
  exists s1, s' = update_model s1 /\ settled3 P s1.
Proof.
  intros B K F Np Hu Ft S E. destruct (loop_end _ _ _ _ _ _ _ _ E) as (s1 & el & -> & _ & _ & H). exists s1. split; auto. apply H; [apply root3; auto|].
  intros need r s0 s2 S0 Ir T. rewrite Forall_forall in Ft. destruct (turn3 P pi need r s0 B K F Np (Ft _ Ir) S0) as (s3 & T3 & S3). congruence.
Qed.
