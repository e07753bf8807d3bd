(** Splitting a cube cell into 2^d halves. *)
From Coq Require Import List Bool Arith Lia QArith Lqa.
Import ListNotations.
From Verif Require Import Prelude.Py Prelude.QBase Prelude.QFacts Prelude.ListFacts Model.Tree Spec.TreeSpec.
Open Scope Q_scope.

Lemma coeffs_length d : length (coeffs d) = (2 ^ d)%nat.
Proof. induction d; simpl; auto. rewrite app_length, !map_length, IHd. lia. Qed.
Lemma coeffs_in_length d co : In co (coeffs d) -> length co = d.
Proof.
  revert co. induction d as [|d IH]; simpl; intros co H.
  - destruct H as [<- |[]]; auto.
  - apply in_app_or in H. destruct H as [H|H]; apply in_map_iff in H; destruct H as (c & <- & C); simpl; f_equal; auto.
Qed.
Lemma coeffs_nodup d : NoDup (coeffs d).
Proof.
  induction d as [|d IH]; simpl; [repeat constructor; intros []|].
  apply nodup_app; try (apply nodup_map_in; auto; intros; congruence).
  intros x H1 H2. apply in_map_iff in H1. apply in_map_iff in H2. destruct H1 as (a & <- & _), H2 as (b & E & _). discriminate.
Qed.

Definition half (c : list Q) (r : Q) (co : list Q) : list Q := map2 (fun a k => a + r / 2 * k) c co.
Lemma half_length c r co : length co = length c -> length (half c r co) = length c.
Proof. revert co. induction c as [|a c IH]; intros [|k co] H; simpl in *; try discriminate; auto. f_equal. apply IH. lia. Qed.

Lemma halves_cover c r x : in_closed (c, r) x -> exists co, In co (coeffs (length c)) /\ in_closed (half c r co, r / 2) x.
Proof.
  unfold in_closed. simpl. induction 1 as [|a v c x H F IH]; simpl.
  - exists []. split; [left; auto|constructor].
  - destruct IH as (co & C & IH). destruct (Qlt_le_dec v a) as [L|L].
    + exists (-(1) :: co). split; [apply in_or_app; left; apply in_map; auto|]. constructor; auto. 
      assert (E : r / 2 == r * (1 # 2)) by (unfold Qdiv; reflexivity). rewrite E. lra.
    + exists (1 :: co). split; [apply in_or_app; right; apply in_map; auto|]. constructor; auto.
      assert (E : r / 2 == r * (1 # 2)) by (unfold Qdiv; reflexivity). rewrite E. lra.
Qed.

Lemma half2 r : r / 2 == r * (1 # 2).
Proof. reflexivity. Qed.

Lemma half_closed_in c r co x : In co (coeffs (length c)) -> in_closed (half c r co, r / 2) x -> 0 <= r -> in_closed (c, r) x.
Proof.
  unfold in_closed. simpl. revert co x. induction c as [|a c IH]; simpl; intros co x C F R.
  - destruct C as [<- |[]]. inversion F; constructor.
  - apply in_app_or in C. destruct C as [C|C]; apply in_map_iff in C; destruct C as (k & <- & C); simpl in F;
      inversion F as [|? v ? x' H F']; subst; constructor; try (eapply IH; eauto); rewrite half2 in H; lra.
Qed.
Lemma half_open_in c r co x : In co (coeffs (length c)) -> in_open (half c r co, r / 2) x -> in_open (c, r) x.
Proof.
  unfold in_open. simpl. revert co x. induction c as [|a c IH]; simpl; intros co x C F.
  - destruct C as [<- |[]]. inversion F; constructor.
  - apply in_app_or in C. destruct C as [C|C]; apply in_map_iff in C; destruct C as (k & <- & C); simpl in F;
      inversion F as [|? v ? x' H F']; subst; constructor; try (eapply IH; eauto); rewrite half2 in H; lra.
Qed.
Lemma halves_separate c r co co' x : In co (coeffs (length c)) -> In co' (coeffs (length c)) ->
  in_open (half c r co, r / 2) x -> in_open (half c r co', r / 2) x -> co = co'.
Proof.
  unfold in_open. simpl. revert co co' x. induction c as [|a c IH]; simpl; intros co co' x C C' F F'.
  - destruct C as [<- |[]], C' as [<- |[]]. auto.
  - apply in_app_or in C. apply in_app_or in C'.
    destruct C as [C|C], C' as [C'|C']; apply in_map_iff in C; apply in_map_iff in C'; destruct C as (k & <- & C), C' as (k' & <- & C');
      simpl in F, F'; inversion F as [|? v ? x' H G]; subst; inversion F' as [|? v' ? x'' H' G']; subst;
      try (f_equal; eapply IH; [exact C|exact C'|exact G|exact G']); rewrite half2 in H, H'; exfalso; lra.
Qed.

(** The cells of the children. *)
Definition child_cells (c : list Q) (r : Q) : list cell := map (fun x => (x, r / 2)) (child_centers c r).
Lemma child_cells_eq c r : child_cells c r = map (fun co => (half c r co, r / 2)) (coeffs (length c)).
Proof. unfold child_cells, child_centers. rewrite map_map. reflexivity. Qed.
Lemma child_cells_length c r : length (child_cells c r) = (2 ^ length c)%nat.
Proof. rewrite child_cells_eq, map_length. apply coeffs_length. Qed.

Lemma power_eq x y n : x == y -> power x n == power y n.
Proof. intros E. induction n; simpl; [reflexivity|]. rewrite IHn, E. reflexivity. Qed.
Lemma power_mul x y n : power (x * y) n == power x n * power y n.
Proof. induction n; simpl; [lra|]. rewrite IHn. ring. Qed.
Lemma power_two n : power 2 n == Qnat (2 ^ n).
Proof.
  induction n as [|n IH]; simpl; [reflexivity|]. rewrite IH. 
  rewrite !Qnat_add, Qnat_0. lra.
Qed.
Lemma power_Qpow x n : power x n = Qpow x n.
Proof. induction n; simpl; congruence. Qed.
Lemma power_pos x n : 0 < x -> 0 < power x n.
Proof. intros H. induction n; simpl; [lra|]. nra. Qed.

Lemma total_app l m : total_volume (l ++ m) == total_volume l + total_volume m.
Proof. induction l as [|c l IH]; simpl; [lra|]. rewrite IH. lra. Qed.
Lemma total_const l v : (forall c, In c l -> cell_volume c == v) -> total_volume l == Qnat (length l) * v.
Proof.
  induction l as [|c l IH]; intros H; simpl; [rewrite Qnat_0; lra|].
  rewrite (H c) by (left; auto). rewrite IH by (intros; apply H; right; auto). change (S (length l)) with (1 + length l)%nat.
  rewrite Qnat_add. change (Qnat 1) with 1. lra.
Qed.

Lemma children_tile c r : 0 <= r -> tiles (child_cells c r) (c, r).
Proof.
  intros R. rewrite child_cells_eq. split; [|split; [|split]].
  - intros x H. destruct (halves_cover c r x H) as (co & C & Hc). eexists. split; [apply in_map; exact C|exact Hc].
  - intros cc x H Hx. apply in_map_iff in H. destruct H as (co & <- & C). eapply half_closed_in; eauto.
  - intros i j cc cc' x Hi Hj Oi Oj. rewrite nth_error_map in Hi, Hj.
    destruct (nth_error (coeffs (length c)) i) as [co|] eqn:Ei; [|discriminate].
    destruct (nth_error (coeffs (length c)) j) as [co'|] eqn:Ej; [|discriminate].
    simpl in Hi, Hj. inversion Hi; inversion Hj; subst.
    assert (co = co') by (eapply halves_separate; [eapply nth_error_In; exact Ei|eapply nth_error_In; exact Ej|exact Oi|exact Oj]).
    subst. eapply NoDup_nth_error; [apply (coeffs_nodup (length c))| |exact (eq_trans Ei (eq_sym Ej))]. apply nth_error_Some. rewrite Ei. discriminate.
  - rewrite (total_const _ (power r (length c))).
    + rewrite map_length, coeffs_length. unfold cell_volume. simpl. rewrite power_mul, power_two. reflexivity.
    + intros cc H. apply in_map_iff in H. destruct H as (co & <- & C). unfold cell_volume. simpl.
      rewrite half_length by (apply coeffs_in_length; auto). apply power_eq. rewrite half2. lra.
Qed.

(** Replacing one entry by the first of a non-empty list and appending the others. *)
Lemma upd_app_nth {A : Type} (l : list A) i a r j p : (i < length l)%nat ->
  nth_error (upd l i a ++ r) j = Some p <->
  (j <> i /\ nth_error l j = Some p) \/
  (exists m, nth_error (a :: r) m = Some p /\ j = match m with O => i | S k => (length l + k)%nat end).
Proof.
  intros L. destruct (Nat.lt_ge_cases j (length l)) as [J|J].
  - rewrite nth_error_app1 by (rewrite upd_length; auto). destruct (Nat.eq_dec j i) as [->|N].
    + rewrite upd_nth_error_eq by auto. split.
      * intros E. right. exists 0%nat. auto.
      * intros [[X _]|(m & E & X)]; [congruence|]. destruct m as [|k]; [auto|]. exfalso. lia.
    + rewrite upd_nth_error_neq by auto. split; [auto|]. intros [[_ X]|(m & E & X)]; auto.
      destruct m; exfalso; [congruence|lia].
  - rewrite nth_error_app2 by (rewrite upd_length; auto). rewrite upd_length. split.
    + intros E. right. exists (S (j - length l)). split; [exact E|lia].
    + intros [[_ X]|(m & E & X)].
      * exfalso. assert (nth_error l j = None) by (apply nth_error_None; auto). congruence.
      * destruct m as [|k]; [exfalso; subst; lia|]. subst. simpl in E. replace (length l + k - length l)%nat with k by lia. auto.
Qed.
Lemma upd_app_total l i a r : forall c, nth_error l i = Some c ->
  total_volume (upd l i a ++ r) + cell_volume c == total_volume l + total_volume (a :: r).
Proof.
  intros c E. rewrite total_app. simpl. revert i E. induction l as [|x l IH]; intros [|i] E; simpl in *; try discriminate.
  - assert (x = c) by congruence. subst. lra.
  - specialize (IH _ E). lra.
Qed.

(** A partition stays one when a cell is replaced by a partition of it. *)
Lemma tiles_replace l whole i c a r : tiles l whole -> nth_error l i = Some c -> tiles (a :: r) c ->
  (forall d x, In d (a :: r) -> in_open d x -> in_open c x) -> tiles (upd l i a ++ r) whole.
Proof.
  intros (C & W & S & V) E (C' & W' & S' & V') O.
  assert (L : (i < length l)%nat) by (apply nth_error_Some; congruence).
  split; [|split; [|split]].
  - intros x H. destruct (C x H) as (d & D & Hd). apply In_nth_error in D. destruct D as (j & D).
    destruct (Nat.eq_dec j i) as [->|N].
    + assert (d = c) by congruence. subst. destruct (C' x Hd) as (e & He & Hx). apply In_nth_error in He. destruct He as (m & M).
      exists e. split; auto. apply (nth_error_In _ (match m with O => i | S k => (length l + k)%nat end)). apply upd_app_nth; eauto.
    + exists d. split; auto. apply (nth_error_In _ j). apply upd_app_nth; auto.
  - intros d x D Hx. apply In_nth_error in D. destruct D as (j & D). apply upd_app_nth in D; auto.
    destruct D as [[_ D]|(m & M & _)].
    + eapply W; eauto. eapply nth_error_In; eauto.
    + apply (W c); [eapply nth_error_In; eauto|]. eapply W'; eauto. eapply nth_error_In; eauto.
  - intros j k d d' x D D' Hd Hd'. apply upd_app_nth in D; auto. apply upd_app_nth in D'; auto.
    destruct D as [[N D]|(m & M & Hj)], D' as [[N' D']|(m' & M' & Hk)].
    + eapply S; eauto.
    + exfalso. apply N. eapply S; [exact D|exact E|exact Hd|]. eapply O; [eapply nth_error_In; exact M'|auto].
    + exfalso. apply N'. eapply S; [exact D'|exact E|exact Hd'|]. eapply O; [eapply nth_error_In; exact M|auto].
    + assert (m = m') by (eapply S'; eauto). subst. auto.
  - pose proof (upd_app_total l i a r c E) as T. rewrite V, V' in T. lra.
Qed.
