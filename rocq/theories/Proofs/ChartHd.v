(** HiDaisee in other coordinates: every new axis is an old one, measured in another unit and from another origin. *)
From Coq Require Import List Bool Arith Lia ZArith QArith Qpower Lqa Permutation.
Import ListNotations.
From Verif Require Import Prelude.Py Prelude.QBase Prelude.QFacts Model.Uniform Model.Mixture Model.Tree Model.HiDaisee Spec.ScaleSpec Proofs.ScaleBase Proofs.ScalePop Proofs.ScaleTree
  Proofs.ScaleHd Proofs.UnitsBase Proofs.AxesBase.
Open Scope Q_scope.

Lemma inlier_iff : forall lo hi x, length lo = length hi -> length lo = length x ->
  (inlier lo hi x = true <-> forall k, (k < length x)%nat -> nth k lo 0 < nth k x 0 /\ nth k x 0 <= nth k hi 0).
Proof.
  induction lo as [|l lo IH]; intros [|h hi] [|x0 x] L1 L2; simpl in *; try discriminate; [split; auto; intros _ k K; lia|].
  rewrite !andb_true_iff, IH by lia. split.
  - intros ((A & B) & C) [|k] K; [split; [now apply Qltb_true|now apply Qle_bool_iff]|]. apply C. lia.
  - intros H. split; [|intros k K; apply (H (S k)); lia]. pose proof (H 0%nat ltac:(lia)) as (A & B). split; [now apply Qltb_true|now apply Qle_bool_iff].
Qed.
Lemma uniform_row_length : forall lo hi u j, length lo = length hi -> length (uniform_row lo hi u j) = length lo.
Proof. induction lo as [|l lo IH]; intros [|h hi] u j L; simpl in *; try discriminate; auto. Qed.
Lemma uniform_row_nth : forall lo hi u j k, length lo = length hi -> (k < length lo)%nat -> nth k (uniform_row lo hi u j) 0 = nth k lo 0 + (nth k hi 0 - nth k lo 0) * u (j + k)%nat.
Proof.
  induction lo as [|l lo IH]; intros [|h hi] u j [|k] L K; simpl in *; try discriminate; try lia; [now rewrite Nat.add_0_r|]. rewrite IH by lia. now rewrite Nat.add_succ_r.
Qed.
Lemma Qprod_perm (f : nat -> Q) l l' : Permutation l l' -> Qprod (map f l) == Qprod (map f l').
Proof. induction 1; simpl; try reflexivity; [now rewrite IHPermutation|ring|now rewrite IHPermutation1]. Qed.
Lemma Qprod_scale a (f : nat -> Q) l : Qprod (map (fun k => a * f k) l) == a ^ Z.of_nat (length l) * Qprod (map f l).
Proof.
  induction l as [|i l IH]; [reflexivity|]. cbn [map Qprod length]. rewrite IH, Nat2Z.inj_succ, <- Z.add_1_r.
  destruct (Qeq_dec a 0) as [E|N]; [|rewrite Qpower_plus by exact N; simpl; ring].
  rewrite Z.add_1_r, <- Nat2Z.inj_succ. setoid_replace (a ^ Z.of_nat (S (length l))) with 0 by (rewrite E; apply Qpower_0; lia). rewrite E. ring.
Qed.
Lemma Qprod_ext (f g : nat -> Q) l : (forall k, In k l -> f k == g k) -> Qprod (map f l) == Qprod (map g l).
Proof. induction l as [|i l IH]; intros H; simpl; [reflexivity|]. rewrite IH by (intros; apply H; now right). rewrite (H i) by now left. reflexivity. Qed.
Lemma list_tab {A} (l : list A) d : map (fun k => nth k l d) (seq 0 (length l)) = l.
Proof. induction l as [|a l IH]; [reflexivity|]. cbn [length seq map nth]. f_equal. rewrite <- seq_shift, map_map. exact IH. Qed.

Section Chart.
Variables (dm : nat) (sg : list nat) (a : Q) (b : list Q).
Hypothesis Pm : Permutation (seq 0 dm) sg.
Hypothesis A : 0 < a.
Definition ax (k : nat) : nat := nth k sg 0%nat.
(** Points and displacements. *)
Definition ch (x y : vec) : Prop := length x = dm /\ length y = dm /\ forall k, (k < dm)%nat -> nth k y 0 == a * nth (ax k) x 0 + nth k b 0.
Definition dh (x y : vec) : Prop := length x = dm /\ length y = dm /\ forall k, (k < dm)%nat -> nth k y 0 == a * nth (ax k) x 0.
Lemma ax_len : length sg = dm.
Proof. rewrite <- (Permutation_length Pm). apply seq_length. Qed.
Lemma ax_lt k : (k < dm)%nat -> (ax k < dm)%nat.
Proof. intros K. assert (I : In (ax k) (seq 0 dm)) by (apply (Permutation_in _ (Permutation_sym Pm)), nth_In; rewrite ax_len; auto). apply in_seq in I. lia. Qed.
Lemma ax_inj j k : (j < dm)%nat -> (k < dm)%nat -> ax j = ax k -> j = k.
Proof. intros J K. apply (proj1 (NoDup_nth sg 0%nat)); rewrite ?ax_len; auto. apply (Permutation_NoDup Pm), seq_NoDup. Qed.
Lemma ax_onto i : (i < dm)%nat -> exists k, (k < dm)%nat /\ ax k = i.
Proof. intros H. assert (I : In i sg) by (apply (Permutation_in _ Pm), in_seq; lia). destruct (In_nth sg i 0%nat I) as (k & K & E). rewrite ax_len in K. exists k. auto. Qed.

Lemma m2n (f : Q -> Q -> Q) x y k : length x = dm -> length y = dm -> (k < dm)%nat -> nth k (map2 f x y) 0 = f (nth k x 0) (nth k y 0).
Proof. clear. revert x y k. induction dm as [|n IH]; intros [|u x] [|v y] [|k] L L' K; simpl in *; try discriminate; try lia; auto. apply IH; lia. Qed.
Lemma m2l (f : Q -> Q -> Q) x y : length x = dm -> length y = dm -> length (map2 f x y) = dm.
Proof. intros L L'. rewrite map2_len; congruence. Qed.
Lemma ch_sub c r c' r' : ch c c' -> dh r r' -> ch (vsub c r) (vsub c' r').
Proof.
  intros (L & L' & H) (M & M' & G). split; [now apply m2l|]. split; [now apply m2l|]. intros k K. unfold vsub. rewrite !m2n by (auto using ax_lt). rewrite (H k K), (G k K). ring.
Qed.
Lemma ch_add c r c' r' : ch c c' -> dh r r' -> ch (vadd c r) (vadd c' r').
Proof.
  intros (L & L' & H) (M & M' & G). split; [now apply m2l|]. split; [now apply m2l|]. intros k K. unfold vadd. rewrite !m2n by (auto using ax_lt). rewrite (H k K), (G k K). ring.
Qed.
Lemma ch_mid lo hi lo' hi' : ch lo lo' -> ch hi hi' -> ch (map2 (fun h l => (h + l) / 2) hi lo) (map2 (fun h l => (h + l) / 2) hi' lo').
Proof.
  intros (L & L' & H) (M & M' & G). split; [now apply m2l|]. split; [now apply m2l|]. intros k K. rewrite !m2n by (auto using ax_lt). rewrite (H k K), (G k K). field.
Qed.
Lemma dh_rad lo hi lo' hi' : ch lo lo' -> ch hi hi' -> dh (map2 (fun h l => (h - l) / 2) hi lo) (map2 (fun h l => (h - l) / 2) hi' lo').
Proof.
  intros (L & L' & H) (M & M' & G). split; [now apply m2l|]. split; [now apply m2l|]. intros k K. rewrite !m2n by (auto using ax_lt). rewrite (H k K), (G k K). field.
Qed.
Lemma lt_affine u v x y z : x == a * u + z -> y == a * v + z -> (x < y <-> u < v).
Proof. intros E E'. rewrite E, E'. split; intros H; nra. Qed.
Lemma le_affine u v x y z : x == a * u + z -> y == a * v + z -> (x <= y <-> u <= v).
Proof. intros E E'. rewrite E, E'. split; intros H; nra. Qed.
Lemma ltb_affine u v x y z : x == a * u + z -> y == a * v + z -> Qltb x y = Qltb u v.
Proof. intros E E'. apply eq_true_iff_eq. rewrite !Qltb_true. now apply (lt_affine u v x y z). Qed.
Lemma inlier_chart lo hi x lo' hi' x' : ch lo lo' -> ch hi hi' -> ch x x' -> inlier lo' hi' x' = inlier lo hi x.
Proof.
  intros (L & L' & H) (M & M' & G) (N & N' & F). apply eq_true_iff_eq. rewrite !inlier_iff by congruence. rewrite N, N'. split; intros I.
  - intros i Hi. destruct (ax_onto i Hi) as (k & K & <-). specialize (I k K). rewrite (lt_affine _ _ _ _ _ (H k K) (F k K)), (le_affine _ _ _ _ _ (F k K) (G k K)) in I. exact I.
  - intros k K. rewrite (lt_affine _ _ _ _ _ (H k K) (F k K)), (le_affine _ _ _ _ _ (F k K) (G k K)). apply I. now apply ax_lt.
Qed.
Lemma vol_chart r r' : dh r r' -> Qprod (map (fun q => q * 2) r') == a ^ Z.of_nat dm * Qprod (map (fun q => q * 2) r).
Proof.
  intros (L & L' & H). rewrite <- (list_tab r' 0) at 1. rewrite <- (list_tab r 0) at 1. rewrite !map_map, L, L'.
  rewrite (Qprod_ext (fun k => nth k r' 0 * 2) (fun k => a * (nth (ax k) r 0 * 2))) by (intros k K; apply in_seq in K; rewrite H by lia; ring).
  rewrite Qprod_scale, seq_length. apply Qmult_comp; [reflexivity|].
  rewrite (Qprod_perm (fun k => nth k r 0 * 2) _ _ Pm). rewrite <- (list_tab sg 0%nat) at 1. rewrite map_map, ax_len. reflexivity.
Qed.
Definition jac : Q := / a ^ Z.of_nat dm.
Lemma jac_pos : 0 < jac.
Proof. apply Qinv_lt_0_compat, power_pos, A. Qed.

Definition row_ch (u v : vec * Q) : Prop := ch (fst u) (fst v) /\ snd v == snd u.
Definition node_ch (n n' : hnode) : Prop :=
  ch (h_center n) (h_center n') /\ dh (h_radius n) (h_radius n') /\ h_kids n' = h_kids n /\ times 1 (h_q n) (h_q n') /\ Forall2 row_ch (h_rows n) (h_rows n').
Definition tree_ch (t t' : htree) : Prop := Forall2 node_ch (ht_nodes t) (ht_nodes t') /\ ht_leaves t' = ht_leaves t.
Definition box_ch (u u' : uniform) : Prop := ch (u_lo u) (u_lo u') /\ ch (u_hi u) (u_hi u') /\ u_volume u' == a ^ Z.of_nat dm * u_volume u /\ u_dims u' = u_dims u.
Definition hd_ch (s s' : hd) : Prop :=
  tree_ch (hs_tree s) (hs_tree s') /\ Forall2 row_ch (hs_samples s) (hs_samples s') /\ hs_pi s' = hs_pi s /\ hs_q s' = hs_q s /\ hs_draws s' = hs_draws s /\
  Forall2 box_ch (fst (hs_model s)) (fst (hs_model s')) /\ same_weights (snd (hs_model s)) (snd (hs_model s')).
Definition round_ch (r r' : hround) : Prop :=
  (forall j, hr_pick r' j = hr_pick r j) /\ (forall k, (k < dm)%nat -> hr_draw r' k == hr_draw r (ax k)) /\ (hr_dim r' < dm)%nat /\ hr_dim r = ax (hr_dim r').

Lemma box_chart n n' : node_ch n n' -> box_ch (node_box n) (node_box n').
Proof.
  intros (C & R & _). split; [now apply ch_sub|]. split; [now apply ch_add|]. split; [now apply vol_chart|]. simpl. destruct C as (L & L' & _). congruence.
Qed.
Lemma dens_chart u u' x x' : box_ch u u' -> ch x x' -> (if inlier (u_lo u') (u_hi u') x' then 1 / u_volume u' else 0) == jac * (if inlier (u_lo u) (u_hi u) x then 1 / u_volume u else 0).
Proof.
  intros (L & H & V & _) X. rewrite (inlier_chart _ _ _ _ _ _ L H X). destruct (inlier _ _ x); [|ring]. unfold Qdiv, jac. rewrite V, Qinv_mult_distr. ring.
Qed.
Lemma prob_chart n n' x x' : node_ch n n' -> ch x x' -> node_prob n' x' == jac * node_prob n x.
Proof. intros N X. unfold node_prob. exact (dens_chart _ _ _ _ (box_chart _ _ N) X). Qed.
Lemma draw_chart n n' u u' : node_ch n n' -> (forall k, (k < dm)%nat -> u' k == u (ax k)) -> ch (node_draw n u) (node_draw n' u').
Proof.
  intros N U. destruct (box_chart _ _ N) as ((L & L' & H) & (M & M' & G) & _). unfold node_draw.
  split; [rewrite uniform_row_length; congruence|]. split; [rewrite uniform_row_length; congruence|]. intros k K. pose proof (ax_lt k K) as K'. rewrite !uniform_row_nth by congruence. simpl plus. rewrite (H k K), (G k K), (U k K). ring.
Qed.
Lemma rows_chart n n' : node_ch n n' -> length (h_rows n') = length (h_rows n).
Proof. intros (_ & _ & _ & _ & R). symmetry. eapply rel_length; eauto. Qed.
Lemma wsum_chart l l' : Forall2 row_ch l l' -> Qsum (map snd l') == 1 * Qsum (map snd l).
Proof. induction 1 as [|u v l l' (_ & H) F IH]; simpl; [ring|]. change (fold_right Qplus 0 ?x) with (Qsum x). rewrite H, IH. ring. Qed.
Lemma sqsum_chart l l' : Forall2 row_ch l l' -> Qsum (map (fun w => w * w) (map snd l')) == 1 * Qsum (map (fun w => w * w) (map snd l)).
Proof. induction 1 as [|u v l l' (_ & H) F IH]; simpl; [ring|]. change (fold_right Qplus 0 ?x) with (Qsum x). rewrite H, IH. ring. Qed.
Lemma mean_chart n n' : node_ch n n' -> times 1 (mean_weight n) (mean_weight n').
Proof.
  intros H. unfold mean_weight. rewrite (rows_chart _ _ H). apply times_k with (1 / 1); [field|]. apply times_fdivQ; try reflexivity; [apply wsum_chart; apply H|ring].
Qed.
Lemma ess_chart n n' : node_ch n n' -> times 1 (node_ess n) (node_ess n').
Proof.
  intros H. unfold node_ess. apply times_k with (1 / 1); [field|]. apply times_fdivQ; try reflexivity.
  - rewrite (wsum_chart _ _ (proj2 (proj2 (proj2 (proj2 H))))). ring.
  - apply sqsum_chart, H.
Qed.
Lemma add_chart n n' x x' w w' : node_ch n n' -> ch x x' -> w' == w -> node_ch (add_row n x w) (add_row n' x' w').
Proof. intros (E1 & E2 & E3 & E4 & E5) X W. unfold node_ch; cbn [add_row h_center h_radius h_kids h_q h_rows]. split; [exact E1|]. split; [exact E2|]. split; [exact E3|]. split; [exact E4|]. apply app_rel; auto. constructor; [split; auto|constructor]. Qed.
Lemma setq_chart n n' q q' : node_ch n n' -> times 1 q q' -> node_ch (set_q n q) (set_q n' q').
Proof. intros (E1 & E2 & E3 & E4 & E5) W. unfold node_ch; cbn [set_q h_center h_radius h_kids h_q h_rows]. split; [exact E1|]. split; [exact E2|]. split; [exact E3|]. split; [exact W|exact E5]. Qed.
Lemma half_chart r r' k : dh r r' -> (k < dm)%nat -> dh (half_radius r (ax k)) (half_radius r' k).
Proof.
  intros (L & L' & H) K. unfold half_radius. split; [now rewrite upd_length|]. split; [now rewrite upd_length|]. intros j J. destruct (Nat.eq_dec k j) as [<-|N].
  - rewrite !upd_nth_eq by (rewrite ?L, ?L'; auto using ax_lt). rewrite (H k K). field.
  - rewrite !upd_nth_neq; [auto|intros E; apply ax_inj in E; auto|auto].
Qed.
Lemma shift_chart c c' r r' k sign : ch c c' -> dh r r' -> (k < dm)%nat -> ch (shift_center c r (ax k) sign) (shift_center c' r' k sign).
Proof.
  intros (L & L' & H) (M & M' & G) K. unfold shift_center. split; [now rewrite upd_length|]. split; [now rewrite upd_length|]. intros j J. destruct (Nat.eq_dec k j) as [<-|N].
  - rewrite !upd_nth_eq by (rewrite ?L, ?L'; auto using ax_lt). rewrite (H k K), (G k K). field.
  - rewrite !upd_nth_neq; [auto|intros E; apply ax_inj in E; auto|auto].
Qed.

Section Hd.
Variables (P P' : hd_params) (pi pi' : vec -> Q).
Hypothesis Bs : forall t n, hp_boost P' t n == hp_boost P t n.
Hypothesis Sn : hp_nmin P' = hp_nmin P.
Hypothesis Se : hp_ess P' == hp_ess P.
Hypothesis sc : forall x y, ch x y -> pi' y == jac * pi x.
Lemma boost_chart t n : times 1 (boost P t n) (boost P' t n).
Proof. unfold boost. destruct (t =? 0)%nat; simpl; auto. rewrite Bs. ring. Qed.
Lemma weight_chart n n' x x' : node_ch n n' -> ch x x' -> pi' x' / node_prob n' x' == pi x / node_prob n x.
Proof.
  intros N X. rewrite (prob_chart _ _ _ _ N X), (sc _ _ X). unfold Qdiv. rewrite Qinv_mult_distr. pose proof jac_pos as J. setoid_replace (jac * pi x * (/ jac * / node_prob n x)) with (jac * / jac * (pi x * / node_prob n x)) by ring.
  rewrite Qmult_inv_r by now apply Qnz. ring.
Qed.
Lemma le0_chart n n' x x' : node_ch n n' -> ch x x' -> Qle_bool (node_prob n' x') 0 = Qle_bool (node_prob n x) 0.
Proof. intros N X. apply (Qle_bool_scale jac); [apply jac_pos|now apply prob_chart|ring]. Qed.
Lemma push_chart k rows rows' : (k < dm)%nat -> Forall2 row_ch rows rows' -> forall l r l' r', node_ch l l' -> node_ch r r' ->
  let u := push pi (ax k) rows l r in let u' := push pi' k rows' l' r' in node_ch (fst (fst u)) (fst (fst u')) /\ node_ch (snd (fst u)) (snd (fst u')) /\ snd u' = snd u.
Proof.
  intros K. induction 1 as [|(x, w) (x', w') rows rows' (E & _) F IH]; intros l r l' r' L R; [simpl; auto|]. cbn [fst] in E. cbn [push].
  rewrite (le0_chart _ _ _ _ L E), (le0_chart _ _ _ _ R E).
  rewrite (ltb_affine (nth (ax k) x 0) (nth (ax k) (h_center l) 0 + nth (ax k) (h_radius l) 0) _ _ (nth k b 0) (proj2 (proj2 E) k K))
    by (rewrite (proj2 (proj2 (proj1 L)) k K), (proj2 (proj2 (proj1 (proj2 L))) k K); ring).
  destruct (Qltb (nth (ax k) x 0) _).
  - destruct (Qle_bool (node_prob l x) 0); [simpl; auto|]. apply IH; auto. apply add_chart; auto. now apply weight_chart.
  - destruct (Qle_bool (node_prob r x) 0); [simpl; auto|]. apply IH; auto. apply add_chart; auto. now apply weight_chart.
Qed.
Lemma split_chart i k t t' : (k < dm)%nat -> tree_ch t t' -> tree_ch (fst (split pi i (ax k) t)) (fst (split pi' i k t')) /\ snd (split pi' i k t') = snd (split pi i (ax k) t).
Proof.
  intros K (T & L). unfold split. pose proof (F2_nth _ _ _ i T) as H. destruct (nth_error (ht_nodes t) i) as [n|], (nth_error (ht_nodes t') i) as [n'|]; try tauto; [|split; [split; auto|auto]].
  pose proof H as (E1 & E2 & E3 & E4 & E5). rewrite <- (rel_length _ _ _ T), L.
  assert (Q2' : times 1 (fdivflQ (h_q n) (Fin 2)) (fdivflQ (h_q n') (Fin 2))) by (apply times_k with (1 / 1); [field|]; apply times_div; auto; try lra; apply times_refl).
  set (l0 := hnode_new _ _ (fdivflQ (h_q n) (Fin 2))). set (r0 := hnode_new (shift_center _ _ (ax k) 1) _ (fdivflQ (h_q n) (Fin 2))).
  set (l0' := hnode_new _ _ (fdivflQ (h_q n') (Fin 2))). set (r0' := hnode_new (shift_center _ _ k 1) _ (fdivflQ (h_q n') (Fin 2))).
  assert (New : forall sign, node_ch (hnode_new (shift_center (h_center n) (h_radius n) (ax k) sign) (half_radius (h_radius n) (ax k)) (fdivflQ (h_q n) (Fin 2)))
                               (hnode_new (shift_center (h_center n') (h_radius n') k sign) (half_radius (h_radius n') k) (fdivflQ (h_q n') (Fin 2)))).
  { intros sign. unfold node_ch; cbn [hnode_new h_center h_radius h_kids h_q h_rows]. split; [now apply shift_chart|]. split; [now apply half_chart|]. split; [reflexivity|]. split; [exact Q2'|constructor]. }
  destruct (push_chart k _ _ K E5 l0 r0 l0' r0' (New (-1)) (New 1)) as (A1 & A2 & A3).
  destruct (push pi (ax k) (h_rows n) l0 r0) as [[l r] ok], (push pi' k (h_rows n') l0' r0') as [[l' r'] ok']. cbn [fst snd] in A1, A2, A3. subst ok'. cbn [fst snd]. split; auto. split; cbn [ht_nodes ht_leaves]; auto.
  apply app_rel; [|constructor; [exact A1|constructor; [exact A2|constructor]]]. apply upd_rel; auto. unfold node_ch; cbn [h_center h_radius h_kids h_q h_rows]. split; [exact E1|]. split; [exact E2|]. split; [reflexivity|]. split; [exact E4|]. destruct ok; [constructor|exact E5].
Qed.
Lemma descend_chart t t' pick pick' : (forall j, pick' j = pick j) -> tree_ch t t' -> forall fuel j i, descend fuel t' pick' j i = descend fuel t pick j i.
Proof.
  intros Pk (T & L). induction fuel as [|f IH]; intros j i; cbn [descend]; rewrite L; [reflexivity|]. destruct (existsb _ _); auto.
  pose proof (F2_nth _ _ _ i T) as H. destruct (nth_error (ht_nodes t) i) as [n|], (nth_error (ht_nodes t') i) as [n'|]; try tauto. destruct H as (_ & _ & -> & _).
  destruct (h_kids n) as [[u v]|]; auto.
  pose proof (F2_nth _ _ _ u T) as Ha. pose proof (F2_nth _ _ _ v T) as Hb.
  destruct (nth_error (ht_nodes t) u) as [na|], (nth_error (ht_nodes t') u) as [na'|]; try tauto. destruct (nth_error (ht_nodes t) v) as [nb|], (nth_error (ht_nodes t') v) as [nb'|]; try tauto.
  destruct Ha as (_ & _ & _ & Ha & _), Hb as (_ & _ & _ & Hb & _).
  assert (R : times 1 (fdivflQ (h_q na) (faddQ (h_q nb) (h_q na))) (fdivflQ (h_q na') (faddQ (h_q nb') (h_q na')))).
  { apply times_k with (1 / 1); [field|]. apply times_div; auto; try lra. apply times_add; auto. }
  rewrite Pk. rewrite (times_lt 1 ltac:(lra) (Fin (pick j)) (Fin (pick j)) _ _ (times_refl _) R). rewrite IH. reflexivity.
Qed.
Lemma leaf_nodes_chart t t' : tree_ch t t' -> Forall2 node_ch (leaf_nodes t) (leaf_nodes t').
Proof.
  intros (T & L). unfold leaf_nodes. rewrite L. clear L. induction (ht_leaves t) as [|i l IH]; simpl; [constructor|]. apply app_rel; auto.
  pose proof (F2_nth _ _ _ i T) as H. destruct (nth_error (ht_nodes t) i) as [n|], (nth_error (ht_nodes t') i) as [n'|]; try tauto; [constructor; [exact H|constructor]|constructor].
Qed.
Lemma total_chart t tr tr' : tree_ch tr tr' -> times 1 (total_ev P t tr) (total_ev P' t tr').
Proof.
  intros T. unfold total_ev. apply times_sum. eapply (map_rel node_ch).
  - intros u v H. apply times_add; [now apply mean_chart|]. rewrite (rows_chart _ _ H). apply boost_chart.
  - apply filter_rel; [|apply (leaf_nodes_chart _ _ T)]. intros u v H. rewrite (rows_chart _ _ H). reflexivity.
Qed.
Lemma refresh_chart path : forall l l', Forall2 node_ch l l' -> Forall2 node_ch (fold_left refresh_q path l) (fold_left refresh_q path l').
Proof.
  induction path as [|i path IH]; intros l l' F; simpl; auto. apply IH. unfold refresh_q. pose proof (F2_nth _ _ _ i F) as H.
  destruct (nth_error l i) as [n|], (nth_error l' i) as [n'|]; try tauto. pose proof H as (_ & _ & -> & _). destruct (h_kids n) as [[u v]|]; auto.
  pose proof (F2_nth _ _ _ u F) as Ha. pose proof (F2_nth _ _ _ v F) as Hb.
  destruct (nth_error l u) as [na|], (nth_error l' u) as [na'|]; try tauto. destruct (nth_error l v) as [nb|], (nth_error l' v) as [nb'|]; try tauto.
  apply upd_rel; auto. apply setq_chart; auto. apply times_add; [apply Ha|apply Hb].
Qed.
Lemma hd_turn_chart t rd rd' s s' : round_ch rd rd' -> hd_ch s s' -> outs hd_ch (hd_turn P pi t rd s) (hd_turn P' pi' t rd' s').
Proof.
  intros (Rp & Rd & Rk & Ek) L. pose proof L as (T & S & E1 & E2 & E3 & E4 & E5). unfold hd_turn. rewrite (descend_chart _ _ _ _ Rp T), <- (rel_length _ _ _ (proj1 T)).
  destruct (descend _ (hs_tree s) (hr_pick rd) 0 0) as [[path i]|]; [|exact L]. pose proof (F2_nth _ _ _ i (proj1 T)) as H.
  destruct (nth_error (ht_nodes (hs_tree s)) i) as [n|], (nth_error (ht_nodes (hs_tree s')) i) as [n'|]; try contradiction; [|exact L].
  pose proof (draw_chart n n' (hr_draw rd) (hr_draw rd') H Rd) as X. cbv zeta. set (x := node_draw n (hr_draw rd)) in *. set (x' := node_draw n' (hr_draw rd')) in *. rewrite (le0_chart _ _ _ _ H X). destruct (Qle_bool (node_prob n x) 0).
  { cbn [outs]. split; auto. unfold hd_ch; cbn [hs_tree hs_samples hs_pi hs_q hs_draws hs_model]. rewrite E1, E2, E3. split; [exact T|]. split; auto. }
  set (n1 := add_row n x _). set (n1' := add_row n' x' _).
  assert (N1 : node_ch n1 n1') by (apply add_chart; auto; now apply weight_chart).
  rewrite (rows_chart _ _ N1). set (tr1 := mkHT (upd _ i n1) _). set (tr1' := mkHT (upd _ i n1') _).
  assert (T1 : tree_ch tr1 tr1') by (split; cbn [ht_nodes ht_leaves tr1 tr1']; [apply upd_rel; [apply T|exact N1]|apply T]).
  set (n2 := set_q n1 _). set (n2' := set_q n1' _).
  assert (N2 : node_ch n2 n2').
  { apply setq_chart; auto. apply times_k with (1 / 1); [field|]. apply times_div; try reflexivity; [|now apply total_chart]. apply times_add; [now apply mean_chart|apply boost_chart]. }
  set (tr2 := mkHT (fold_left refresh_q _ _) _). set (tr2' := mkHT (fold_left refresh_q _ (upd (ht_nodes tr1') i n2')) _).
  assert (T2 : tree_ch tr2 tr2').
  { split; cbn [ht_nodes ht_leaves tr2 tr2']; [|apply T]. apply refresh_chart. apply upd_rel; auto. apply T1. }
  rewrite (rows_chart _ _ N2). rewrite Sn.
  rewrite (times_lt 1 ltac:(lra) _ _ (Fin (hp_ess P * Qnat (length (h_rows n2)))) (Fin (hp_ess P' * Qnat (length (h_rows n2)))) (ess_chart _ _ N2)) by (simpl; rewrite Se; ring).
  destruct (_ && _).
  - destruct (split_chart i (hr_dim rd') tr2 tr2' Rk T2) as (A1 & A2). rewrite <- Ek in A1, A2. destruct (split pi i (hr_dim rd) tr2) as [tr3 ok], (split pi' i (hr_dim rd') tr2') as [tr3' ok']. cbn [fst snd] in A1, A2. subst ok'.
    assert (K : forall q, hd_ch (mkHD tr3 (hs_samples s) (Datatypes.S (hs_pi s) + q) (Datatypes.S (hs_q s) + q) (Datatypes.S (hs_draws s)) (hs_model s))
                      (mkHD tr3' (hs_samples s') (Datatypes.S (hs_pi s') + q) (Datatypes.S (hs_q s') + q) (Datatypes.S (hs_draws s')) (hs_model s'))).
    { intros q. unfold hd_ch; cbn [hs_tree hs_samples hs_pi hs_q hs_draws hs_model]. rewrite E1, E2, E3. split; [exact A1|]. split; auto. }
    destruct ok; cbn [outs]; [apply K|split; [reflexivity|apply K]].
  - cbn [outs]. unfold hd_ch; cbn [hs_tree hs_samples hs_pi hs_q hs_draws hs_model]. rewrite E1, E2, E3. split; [exact T2|]. split; auto.
Qed.
Lemma hd_turns_chart rds rds' : (forall t, round_ch (rds t) (rds' t)) -> forall k t s s', hd_ch s s' -> outs hd_ch (hd_turns P pi rds t k s) (hd_turns P' pi' rds' t k s').
Proof.
  intros Rr. induction k as [|k IH]; intros t s s' L; [exact L|]. cbn [hd_turns]. pose proof (hd_turn_chart t (rds t) (rds' t) s s' (Rr t) L) as H.
  destruct (hd_turn P pi t (rds t) s), (hd_turn P' pi' t (rds' t) s'); simpl in H; try tauto; auto.
Qed.
Lemma hd_call_chart n rds rds' s s' : (forall t, round_ch (rds t) (rds' t)) -> hd_ch s s' -> outs hd_ch (hd_call P pi n rds s) (hd_call P' pi' n rds' s').
Proof.
  intros Rr L. unfold hd_call. rewrite <- (rel_length _ _ _ (proj1 (proj2 L))). pose proof (hd_turns_chart rds rds' Rr (n - length (hs_samples s)) (length (hs_samples s)) s s' L) as H.
  destruct (hd_turns P pi _ _ _ s) as [u|u|e u], (hd_turns P' pi' _ _ _ s') as [u'|u'|e' u']; simpl in H; try contradiction; try exact H. destruct H as (T & S & E1 & E2 & E3 & E4 & E5). cbn [outs].
  pose proof (leaf_nodes_chart _ _ T) as LN. unfold hd_ch; cbn [hs_tree hs_samples hs_pi hs_q hs_draws hs_model]. split; [exact T|]. split; [|split; [exact E1|split; [exact E2|split; [exact E3|]]]].
  - unfold hd_rows. induction LN as [|u0 v0 l l' H F IH]; cbn [flat_map]; [constructor|]. apply app_rel; auto. apply H.
  - unfold hd_model; cbn [fst snd]. split.
    + eapply map_rel; [|exact LN]. exact box_chart.
    + rewrite <- (rel_length _ _ _ LN). pose proof (set_weights_scale 1 (length (leaf_nodes (hs_tree u))) _ _ eq_refl (map_rel _ _ mean_weight mean_weight _ _ mean_chart LN)) as H.
      destruct (set_weights _ _), (set_weights _ _); try tauto. constructor.
Qed.
End Hd.
Lemma root_chart lo lo' hi hi' : ch lo lo' -> ch hi hi' -> node_ch (hnode_new (map2 (fun h l => (h + l) / 2) hi lo) (map2 (fun h l => (h - l) / 2) hi lo) (Fin 0))
  (hnode_new (map2 (fun h l => (h + l) / 2) hi' lo') (map2 (fun h l => (h - l) / 2) hi' lo') (Fin 0)).
Proof.
  intros L H. unfold node_ch; cbn [hnode_new h_center h_radius h_kids h_q h_rows]. split; [now apply ch_mid|]. split; [now apply dh_rad|]. split; [reflexivity|]. split; [apply times_refl|constructor].
Qed.
Lemma hd_new_chart P P' : ch (hp_lo P) (hp_lo P') -> ch (hp_hi P) (hp_hi P') -> hd_ch (hd_new P) (hd_new P').
Proof.
  intros L H. pose proof (root_chart _ _ _ _ L H) as R. unfold hd_ch, hd_new, htree_new, tree_ch; cbn [hs_tree hs_samples hs_pi hs_q hs_draws hs_model ht_nodes ht_leaves fst snd].
  split; [split; [constructor; [exact R|constructor]|reflexivity]|]. split; [constructor|]. do 3 (split; [reflexivity|]). split; [constructor; [now apply box_chart|constructor]|].
  constructor; [apply times_refl|constructor].
Qed.
(** The reported density. *)
Lemma hd_prob_chart s s' x x' : hd_ch s s' -> ch x x' -> times jac (hd_prob s x) (hd_prob s' x').
Proof.
  intros (_ & _ & _ & _ & _ & B & W) X. unfold hd_prob. apply times_sum. apply (map2_rel box_ch (times 1)); auto. intros u u' w w' U Hw.
  apply times_k with (jac * 1); [ring|]. apply times_mul; [apply jac_pos|reflexivity| |exact Hw]. pose proof (dens_chart _ _ _ _ U X) as D. destruct (inlier (u_lo u') _ _), (inlier (u_lo u) _ _); exact D.
Qed.
End Chart.
