(** Lemmas about the sampler base class: effective sample size from weights, grids, KDE model. *)
From Coq Require Import List Bool Arith Lia ZArith QArith Qround Qabs Lqa Setoid Morphisms Permutation.
Import ListNotations.
From Verif Require Import Prelude.Py Prelude.QBase Prelude.QFacts Prelude.ListFacts Model.Base Spec.Box Spec.GridSpec.
Open Scope Q_scope.

(** ** Effective sample size from weights *)

Definition sumsq (l : list Q) : Q := Qsum (map (fun w => w * w) l).

Lemma fsum_squares ws s : ~ s == 0 ->
  fsumQ (map (fun w => match w with Fin a => Fin (a * a) | NaN => NaN | _ => PInf end)
             (map (fun w => fdivQ w s) ws)) = Fin (Qsum (map (fun w => w / s * (w / s)) ws)).
Proof.
  intros Hs. induction ws as [|w ws IH]; simpl; auto.
  rewrite IH. unfold fdivQ at 1. destruct (Qeq_bool_spec s 0); [contradiction|]. reflexivity.
Qed.

Lemma norm_sumsq ws s : ~ s == 0 -> Qsum (map (fun w => w / s * (w / s)) ws) == sumsq ws / (s * s).
Proof.
  intros Hs. unfold sumsq. induction ws as [|w ws IH]; simpl.
  - field; auto.
  - rewrite IH. field; auto.
Qed.

Lemma sumsq_nonneg ws : 0 <= sumsq ws.
Proof. unfold sumsq. induction ws; simpl; nra. Qed.

Lemma sumsq_zero ws : sumsq ws == 0 -> Forall (fun w => w == 0) ws.
Proof.
  unfold sumsq. induction ws as [|w ws IH]; simpl; constructor.
  - pose proof (sumsq_nonneg ws) as N. unfold sumsq in N.
    assert (w * w == 0) by nra. destruct (Qeq_dec w 0); auto. exfalso.
    assert (0 < w * w); [|lra]. destruct (Q_dec w 0) as [[|]|]; nra.
  - apply IH. pose proof (sumsq_nonneg ws) as N. unfold sumsq in N. nra.
Qed.

Lemma Qsum_zero ws : Forall (fun w => w == 0) ws -> Qsum ws == 0.
Proof. induction 1; simpl; lra. Qed.

Lemma sumsq_le_square ws : Forall (fun w => 0 <= w) ws -> sumsq ws <= Qsum ws * Qsum ws.
Proof.
  unfold sumsq. induction 1 as [|w ws Hw H IH]; simpl; [lra|].
  pose proof (Qsum_nonneg ws H). nra.
Qed.

(** Sum of squared deviations from m. *)
Lemma deviations ws m :
  sumsq (map (fun w => w - m) ws) == sumsq ws - 2 * m * Qsum ws + Qnat (length ws) * (m * m).
Proof.
  unfold sumsq. induction ws as [|w ws IH]; cbn [map Qsum length].
  - rewrite Qnat_0; lra.
  - rewrite IH, Qnat_S. ring.
Qed.

Lemma cauchy ws : (0 < length ws)%nat ->
  Qsum ws * Qsum ws <= Qnat (length ws) * sumsq ws /\
  (Qsum ws * Qsum ws == Qnat (length ws) * sumsq ws <-> (forall a b, In a ws -> In b ws -> a == b)).
Proof.
  intros L. pose proof (Qnat_pos _ L) as N. set (n := Qnat (length ws)) in *.
  pose proof (deviations ws (Qsum ws / n)) as D. fold n in D.
  pose proof (sumsq_nonneg (map (fun w => w - Qsum ws / n) ws)) as P.
  assert (E : n * sumsq (map (fun w => w - Qsum ws / n) ws) == n * sumsq ws - Qsum ws * Qsum ws).
  { rewrite D. field. lra. }
  split; [nra|]. split.
  - intros H a b Ha Hb.
    assert (Z : sumsq (map (fun w => w - Qsum ws / n) ws) == 0).
    { assert (n * sumsq (map (fun w => w - Qsum ws / n) ws) == 0) by lra.
      destruct (Qmult_integral _ _ H0); lra. }
    apply sumsq_zero in Z. rewrite Forall_forall in Z.
    pose proof (Z _ (in_map (fun w => w - Qsum ws / n) _ _ Ha)).
    pose proof (Z _ (in_map (fun w => w - Qsum ws / n) _ _ Hb)). simpl in *. lra.
  - intros H. destruct ws as [|c ws]; [simpl in L; lia|].
    assert (H' : forall a, In a (c :: ws) -> a == c) by (intros; apply H; simpl; auto).
    clear H L N D P E. subst n.
    assert (Qsum (c :: ws) == Qnat (length (c :: ws)) * c /\ sumsq (c :: ws) == Qnat (length (c :: ws)) * (c * c)) as [-> ->].
    { revert H'. generalize (c :: ws) as l. induction l as [|x l IH]; intros H'.
      - cbn. split; rewrite Qnat_0; lra.
      - destruct IH as [I1 I2]; [intros; apply H'; simpl; auto|].
        assert (x == c) as X by (apply H'; simpl; auto).
        unfold sumsq in *. cbn [map Qsum length]. rewrite I1, I2, Qnat_S, X. split; ring. }
    ring.
Qed.

Lemma ness_value ws : Forall (fun w => 0 <= w) ws -> 0 < Qsum ws ->
  exists v, get_approx_NESS ws (length ws) = Fin v /\
            v == (Qsum ws * Qsum ws) / (Qnat (length ws) * sumsq ws) /\ 0 < sumsq ws /\ (0 < length ws)%nat.
Proof.
  intros Hw Hs. unfold get_approx_NESS.
  assert (S0 : ~ Qsum ws == 0) by lra.
  rewrite fsum_squares by auto.
  assert (L : (0 < length ws)%nat) by (destruct ws; simpl in *; [lra|lia]).
  assert (P : 0 < sumsq ws).
  { pose proof (sumsq_nonneg ws). destruct (Qeq_dec (sumsq ws) 0) as [Z|Z]; [|lra].
    exfalso. apply sumsq_zero, Qsum_zero in Z. lra. }
  pose proof (norm_sumsq ws _ S0) as E.
  assert (Q1 : 0 < Qsum (map (fun w => w / Qsum ws * (w / Qsum ws)) ws)).
  { rewrite E. apply Qlt_shift_div_l; nra. }
  set (q := Qsum (map (fun w => w / Qsum ws * (w / Qsum ws)) ws)) in *.
  unfold fdivflQ, fdivQ.
  destruct (Qeq_bool_spec q 0) as [Z|Z]; [lra|].
  pose proof (Qnat_pos _ L) as N.
  destruct (Qeq_bool_spec (Qnat (length ws)) 0) as [Z1|Z1]; [lra|].
  eexists. split; [reflexivity|]. split; [|split; auto].
  rewrite E. field. repeat split; lra.
Qed.

Lemma approx_ness_bounds ws : Forall (fun w => 0 <= w) ws -> 0 < Qsum ws ->
  exists v, get_approx_NESS ws (length ws) = Fin v /\
    1 / Qnat (length ws) <= v <= 1 /\ (v == 1 <-> (forall a b, In a ws -> In b ws -> a == b)).
Proof.
  intros Hw Hs. destruct (ness_value ws Hw Hs) as (v & E & V & P & L).
  exists v. split; auto.
  pose proof (Qnat_pos _ L) as N. destruct (cauchy ws L) as [C1 C2].
  pose proof (sumsq_le_square ws Hw) as C3.
  set (n := Qnat (length ws)) in *.
  assert (0 < n * sumsq ws) by nra.
  split; [split|].
  - rewrite V. apply Qle_shift_div_l; auto.
    setoid_replace (1 / n * (n * sumsq ws)) with (sumsq ws) by (field; lra). auto.
  - rewrite V. apply Qle_shift_div_r; auto. lra.
  - rewrite <- C2. rewrite V. split; intros Z.
    + assert (Qsum ws * Qsum ws == (Qsum ws * Qsum ws / (n * sumsq ws)) * (n * sumsq ws)) as -> by (field; split; lra).
      rewrite Z. ring.
    + rewrite Z. field. split; lra.
Qed.

Lemma approx_ness_scale ws c : Forall (fun w => 0 <= w) ws -> 0 < Qsum ws -> 0 < c ->
  exists v v', get_approx_NESS ws (length ws) = Fin v /\
    get_approx_NESS (map (fun w => c * w) ws) (length ws) = Fin v' /\ v' == v.
Proof.
  intros Hw Hs Hc. destruct (ness_value ws Hw Hs) as (v & E & V & P & L).
  assert (Hw' : Forall (fun w => 0 <= w) (map (fun w => c * w) ws)).
  { rewrite Forall_map. eapply Forall_impl; [|exact Hw]. intros a Ha; simpl in *; nra. }
  assert (SS : Qsum (map (fun w => c * w) ws) == c * Qsum ws) by apply Qsum_scale.
  destruct (ness_value (map (fun w => c * w) ws) Hw') as (v' & E' & V' & P' & L').
  { rewrite SS. nra. }
  rewrite map_length in E', V'. exists v, v'. repeat split; auto.
  assert (sumsq (map (fun w => c * w) ws) == c * c * sumsq ws) as S2.
  { unfold sumsq. clear. induction ws; simpl; [ring|]. rewrite IHws; ring. }
  rewrite V', V, SS, S2. pose proof (Qnat_pos _ L). field. repeat split; lra.
Qed.

(** ** Kernel density model *)

Lemma update_model_ok k pick ss m : update_model k pick ss = Ok m ->
  length m = k /\ Forall (fun x => In x ss) m /\ (0 < k)%nat /\ ss <> [].
Proof.
  unfold update_model. destruct k; [discriminate|]. destruct ss as [|a ss]; [discriminate|].
  intros H. assert (m = map (fun i => nth (pick i mod length (a :: ss)) (a :: ss) []) (seq 0 (S k))) as -> by congruence.
  clear H. rewrite map_length, seq_length. split; auto. split; [|split; [lia|discriminate]].
  rewrite Forall_map, Forall_forall. intros i _. apply nth_In. apply Nat.mod_upper_bound. simpl; lia.
Qed.

Lemma kde_weights_sum k : (0 < k)%nat -> length (kde_weights k) = k /\ Qsum (kde_weights k) == 1.
Proof.
  intros H. unfold kde_weights. rewrite repeat_length. split; auto.
  rewrite Qsum_repeat. pose proof (Qnat_pos k H). field. lra.
Qed.

(** ** Grids *)

Lemma Qtrunc_floor q : 0 <= q -> Qtrunc q = Qfloor q.
Proof.
  intros H. unfold Qtrunc, Qfloor. destruct q as [a b]. simpl.
  unfold Qle in H. simpl in H. apply Z.quot_div_nonneg; lia.
Qed.

Lemma grid_count_ok range r : 0 <= range -> 0 < r ->
  grid_count range r = Ok (Z.to_nat (points_along range r)).
Proof.
  intros H R. unfold grid_count, fdivQ. destruct (Qeq_bool_spec r 0) as [E|E]; [lra|].
  assert (P : 0 <= range / r) by (apply Qle_shift_div_l; auto; lra).
  rewrite Qtrunc_floor by auto. unfold points_along.
  destruct (Z.ltb_spec (Qfloor (range / r)) 1) as [L|L].
  - rewrite Z.max_l by lia. reflexivity.
  - rewrite Z.max_r by lia. reflexivity.
Qed.

Lemma points_pos range r : (0 < Z.to_nat (points_along range r))%nat.
Proof. unfold points_along. lia. Qed.

Lemma linspace_length a b n : length (linspace a b n) = n.
Proof.
  destruct n as [|[|m]]; auto. unfold linspace.
  rewrite app_length, map_length, seq_length. simpl. lia.
Qed.

Lemma frac_range i m : (i < m)%nat -> 0 <= Qnat i / Qnat m < 1.
Proof.
  intros H. pose proof (Qnat_nonneg i). pose proof (Qnat_inj_lt _ _ H). split.
  - apply Qle_shift_div_l; lra.
  - apply Qlt_shift_div_r; lra.
Qed.

Lemma linspace_in a b n x : a <= b -> In x (linspace a b n) -> a <= x <= b.
Proof.
  intros Hab. destruct n as [|[|m]]; [intros []| |].
  - intros [<-|[]]; lra.
  - unfold linspace. intros H. apply in_app_or in H. destruct H as [H|[<-|[]]]; [|lra].
    apply in_map_iff in H. destruct H as (i & <- & Hi). apply in_seq in Hi.
    destruct (frac_range i (S m) ltac:(lia)) as [F1 F2].
    assert (P : ~ Qnat (S m) == 0) by (pose proof (Qnat_pos (S m) ltac:(lia)); lra).
    assert (E : Qnat i * ((b - a) / Qnat (S m)) == (b - a) * (Qnat i / Qnat (S m))) by (field; exact P).
    rewrite E. set (f := Qnat i / Qnat (S m)) in *. nra.
Qed.

Lemma linspace_first a b n : (0 < n)%nat -> Exists (fun x => x == a) (linspace a b n).
Proof.
  destruct n as [|[|m]]; intros H; [lia| |].
  - constructor; reflexivity.
  - unfold linspace. cbn [seq map]. constructor. rewrite Qnat_0. lra.
Qed.

Lemma linspace_last a b n : (2 <= n)%nat -> Exists (fun x => x == b) (linspace a b n).
Proof.
  destruct n as [|[|m]]; intros H; [lia|lia|]. unfold linspace.
  apply Exists_app. right. constructor; reflexivity.
Qed.

Lemma linspace_nodup a b n : a < b -> NoDup (linspace a b n).
Proof.
  intros H. destruct n as [|[|m]]; [constructor|repeat constructor; auto|]. unfold linspace.
  pose proof (Qnat_pos (S m) ltac:(lia)) as P.
  set (st := (b - a) / Qnat (S m)).
  assert (St : 0 < st) by (apply Qlt_shift_div_l; lra).
  assert (Last : a + Qnat (S m) * st == b) by (unfold st; field; lra).
  apply nodup_app.
  - apply nodup_map_in; [|apply seq_NoDup].
    intros i j _ _ E. destruct (Nat.lt_trichotomy i j) as [L|[->|L]]; auto; exfalso;
      apply Qnat_inj_lt in L; assert (a + Qnat i * st == a + Qnat j * st) by (rewrite E; reflexivity); nra.
  - repeat constructor; auto.
  - intros x Hx [<-|[]]. apply in_map_iff in Hx. destruct Hx as (i & E & Hi). apply in_seq in Hi.
    assert (L : (i < S m)%nat) by lia. apply Qnat_inj_lt in L.
    assert (a + Qnat i * st == b) by (rewrite E; reflexivity). nra.
Qed.

Lemma lexprod_in ls : forall v, In v (lexprod ls) <-> Forall2 (fun a l => In a l) v ls.
Proof.
  induction ls as [|l ls IH]; intros v; simpl.
  - split; [intros [<-|[]]; constructor|]. intros H; inversion H; auto.
  - rewrite in_flat_map. split.
    + intros (a & Ha & H). apply in_map_iff in H. destruct H as (w & <- & Hw).
      constructor; auto. now apply IH.
    + intros H; inversion H as [|a ? w ? Ha Hw]; subst. exists a. split; auto.
      apply in_map. now apply IH.
Qed.

Lemma lexprod_length ls : length (lexprod ls) = nprod (map (@length Q) ls).
Proof.
  induction ls as [|l ls IH]; simpl; auto.
  rewrite flat_map_length_const with (k := length (lexprod ls)); [now rewrite IH|].
  intros; now rewrite map_length.
Qed.

Lemma lexprod_nodup ls : Forall (@NoDup Q) ls -> NoDup (lexprod ls).
Proof.
  induction 1 as [|l ls Hl _ IH]; simpl; [repeat constructor; auto|].
  induction Hl as [|a l Ha Hl IHl]; simpl; [constructor|].
  apply nodup_app; auto.
  - apply nodup_map_in; auto. intros x y _ _ E. congruence.
  - intros x Hx H2. apply in_map_iff in Hx. destruct Hx as (w & <- & _).
    apply in_flat_map in H2. destruct H2 as (b & Hb & H2).
    apply in_map_iff in H2. destruct H2 as (w' & E & _). congruence.
Qed.

Lemma nprod_app l m : nprod (l ++ m) = (nprod l * nprod m)%nat.
Proof. induction l; simpl; [lia|]. rewrite IHl. lia. Qed.

Lemma nprod_rev l : nprod (rev l) = nprod l.
Proof. induction l; simpl; auto. rewrite nprod_app, IHl. simpl. lia. Qed.

Lemma forall2_app_inv {A B} (R : A -> B -> Prop) m m' l :
  Forall2 R l (m ++ m') -> exists u w, l = u ++ w /\ Forall2 R u m /\ Forall2 R w m'.
Proof.
  intros H. apply Forall2_app_inv_r in H. destruct H as (u & w & H1 & H2 & ->). eauto.
Qed.

Lemma mesh_form (u : vec) (a b : Q) k : length u = k ->
  skipn k (u ++ [a; b]) ++ rev (firstn k (u ++ [a; b])) = a :: b :: rev u.
Proof.
  intros <-. rewrite skipn_app, firstn_app, Nat.sub_diag, skipn_all, firstn_all.
  simpl. now rewrite app_nil_r.
Qed.

Lemma mesh_in ds v : In v (mesh_rows ds) <-> Forall2 (fun a l => In a l) v ds.
Proof.
  destruct ds as [|l0 [|l1 rest]]; [apply lexprod_in|apply lexprod_in|].
  unfold mesh_rows. rewrite in_map_iff. split.
  - intros (x & <- & Hx). apply lexprod_in in Hx. apply forall2_app_inv in Hx.
    destruct Hx as (u & w & -> & Hu & Hw).
    inversion Hw as [|a ? w1 ? Ha Hw1]; subst. inversion Hw1 as [|b ? w2 ? Hb Hw2]; subst. inversion Hw2; subst.
    rewrite mesh_form by (apply forall2_length in Hu; rewrite rev_length in Hu; auto).
    constructor; auto. constructor; auto. apply forall2_rev in Hu. now rewrite rev_involutive in Hu.
  - intros H. inversion H as [|a ? w1 ? Ha Hw1]; subst. inversion Hw1 as [|b ? w2 ? Hb Hw2]; subst.
    exists (rev w2 ++ [a; b]). split.
    + rewrite mesh_form, rev_involutive; auto. rewrite rev_length. now apply forall2_length in Hw2.
    + apply lexprod_in. apply forall2_app; [now apply forall2_rev|]. repeat constructor; auto.
Qed.

Lemma mesh_length ds : length (mesh_rows ds) = nprod (map (@length Q) ds).
Proof.
  destruct ds as [|l0 [|l1 rest]]; [apply lexprod_length|apply lexprod_length|].
  unfold mesh_rows. rewrite map_length, lexprod_length, map_app, map_rev, nprod_app, nprod_rev. simpl. lia.
Qed.

Lemma mesh_nodup ds : Forall (@NoDup Q) ds -> NoDup (mesh_rows ds).
Proof.
  destruct ds as [|l0 [|l1 rest]]; [apply lexprod_nodup|apply lexprod_nodup|].
  intros H. unfold mesh_rows. apply nodup_map_in.
  - intros x y Hx Hy E.
    apply lexprod_in, forall2_app_inv in Hx. destruct Hx as (u & w & -> & Hu & Hw).
    inversion Hw as [|a ? w1 ? Ha Hw1]; subst. inversion Hw1 as [|b ? w2 ? Hb Hw2]; subst. inversion Hw2; subst.
    apply lexprod_in, forall2_app_inv in Hy. destruct Hy as (u' & w' & -> & Hu' & Hw').
    inversion Hw' as [|a' ? w1' ? Ha' Hw1']; subst. inversion Hw1' as [|b' ? w2' ? Hb' Hw2']; subst. inversion Hw2'; subst.
    apply forall2_length in Hu. apply forall2_length in Hu'. rewrite rev_length in Hu, Hu'.
    rewrite !mesh_form in E by auto. injection E as -> -> E.
    apply (f_equal (@rev Q)) in E. rewrite !rev_involutive in E. now subst.
  - apply lexprod_nodup. apply Forall_app. inversion H as [|? ? H0 H1]; subst. inversion H1; subst.
    split; [now apply Forall_rev|]. repeat constructor; auto.
Qed.

(** What [grid_dims] computes, per dimension. *)
Definition dim_ok (r : Q) (lh : Q * Q) (l : list Q) : Prop :=
  l = linspace (fst lh) (snd lh) (Z.to_nat (points_along (snd lh - fst lh) r)).

Lemma grid_dims_ok r : 0 < r -> forall lo hi, is_box lo hi ->
  exists ds, grid_dims lo hi r = Ok ds /\ Forall2 (dim_ok r) (combine lo hi) ds /\ length ds = length lo.
Proof.
  intros R. induction lo as [|l lo IH]; destruct hi as [|h hi]; simpl; intros B; try contradiction.
  - exists []. repeat split; auto.
  - destruct B as [B1 B2]. destruct (IH hi B2) as (ds & E & F & L).
    rewrite grid_count_ok by lra. rewrite E. eexists. split; [reflexivity|]. split.
    + constructor; auto. reflexivity.
    + simpl; auto.
Qed.

Lemma grid_box r lo hi ds : is_box lo hi -> Forall2 (dim_ok r) (combine lo hi) ds ->
  forall v, Forall2 (fun a l => In a l) v ds -> in_box lo hi v.
Proof.
  revert hi ds. induction lo as [|l lo IH]; destruct hi as [|h hi]; simpl; intros ds B F v Hv; try contradiction.
  - inversion F; subst. inversion Hv; subst. exact I.
  - inversion F as [|? d ? ds' Hd F']; subst. inversion Hv as [|a ? v' ? Ha Hv']; subst.
    destruct B as [B1 B2]. unfold dim_ok in Hd. simpl in Hd. subst d.
    apply linspace_in in Ha; auto. simpl. repeat split; try lra. eapply IH; eauto.
Qed.

Lemma grid_corner_lo r lo hi ds : Forall2 (dim_ok r) (combine lo hi) ds -> length lo = length hi ->
  exists v, Forall2 (fun a l => In a l) v ds /\ same_point v lo.
Proof.
  revert hi ds. induction lo as [|l lo IH]; destruct hi as [|h hi]; simpl; intros ds F L; try discriminate.
  - inversion F; subst. exists []. repeat constructor.
  - inversion F as [|? d ? ds' Hd F']; subst. destruct (IH hi ds' F') as (v & Hv & Sv); [lia|].
    unfold dim_ok in Hd. simpl in Hd. subst d.
    pose proof (linspace_first l h _ (points_pos (h - l) r)) as X. apply Exists_exists in X.
    destruct X as (x & Hx & Ex). exists (x :: v). split; constructor; auto.
Qed.

Lemma grid_corner_hi r lo hi ds : Forall2 (dim_ok r) (combine lo hi) ds -> length lo = length hi ->
  Forall (fun d => (2 <= length d)%nat) ds ->
  exists v, Forall2 (fun a l => In a l) v ds /\ same_point v hi.
Proof.
  revert hi ds. induction lo as [|l lo IH]; destruct hi as [|h hi]; simpl; intros ds F L T; try discriminate.
  - inversion F; subst. exists []. repeat constructor.
  - inversion F as [|? d ? ds' Hd F']; subst. inversion T as [|? ? T1 T2]; subst.
    destruct (IH hi ds' F') as (v & Hv & Sv); auto; try lia.
    unfold dim_ok in Hd. simpl in Hd. subst d. rewrite linspace_length in T1.
    pose proof (linspace_last l h _ T1) as X. apply Exists_exists in X.
    destruct X as (x & Hx & Ex). exists (x :: v). split; constructor; auto.
Qed.

Lemma grid_nodup r lo hi ds : Forall2 (dim_ok r) (combine lo hi) ds -> strictly_below lo hi ->
  Forall (@NoDup Q) ds.
Proof.
  intros F S. revert ds F. induction S as [|l h lo hi Hlh S IH]; simpl; intros ds F; inversion F as [|? d ? ds' Hd F']; subst; constructor.
  - unfold dim_ok in Hd. simpl in Hd. subst d. apply linspace_nodup; auto.
  - apply IH; auto.
Qed.

Lemma is_box_length lo hi : is_box lo hi -> length lo = length hi.
Proof. revert hi; induction lo; destruct hi; simpl; intros H; try contradiction; auto. destruct H; f_equal; auto. Qed.

Lemma dims_lengths r lo hi ds : length lo = length hi -> Forall2 (dim_ok r) (combine lo hi) ds ->
  map (@length Q) ds = map2 (fun l h => Z.to_nat (points_along (h - l) r)) lo hi.
Proof.
  revert hi ds. induction lo as [|l lo IH]; destruct hi as [|h hi]; simpl; intros ds L F; try discriminate;
    inversion F as [|? d ? ds' Hd F']; subst; auto.
  simpl. rewrite (IH hi ds'); auto. f_equal. unfold dim_ok in Hd; simpl in Hd. subst d. apply linspace_length.
Qed.

Lemma linspace_nth a b m i : (i < S (S m))%nat ->
  nth i (linspace a b (S (S m))) 0 == a + Qnat i * ((b - a) / Qnat (S m)).
Proof.
  intros H. unfold linspace. pose proof (Qnat_pos (S m) ltac:(lia)) as P.
  set (f := fun i => a + Qnat i * ((b - a) / Qnat (S m))).
  destruct (Nat.eq_dec i (S m)) as [->|N].
  - rewrite app_nth2; rewrite map_length, seq_length; [|lia]. rewrite Nat.sub_diag. cbn [nth]. field. lra.
  - rewrite app_nth1 by (rewrite map_length, seq_length; lia).
    rewrite nth_indep with (d' := f 0%nat) by (rewrite map_length, seq_length; lia).
    rewrite map_nth, seq_nth by lia. reflexivity.
Qed.

Lemma linspace_even a b n : evenly_spread (a, b) (linspace a b n).
Proof.
  intros i. rewrite linspace_length. intros H. destruct n as [|[|m]]; [lia|lia|].
  rewrite !linspace_nth by lia. cbn [fst snd].
  replace (S (S m) - 1)%nat with (S m) by lia. change (inject_Z (Z.of_nat (S m))) with (Qnat (S m)).
  rewrite (Qnat_S i). pose proof (Qnat_pos (S m) ltac:(lia)) as P. field. lra.
Qed.

Lemma make_grid_spec lo hi r : is_box lo hi -> 0 < r ->
  exists rows ds shape, make_grid lo hi r = Ok (rows, ds, shape) /\
    shape = map2 (fun l h => Z.to_nat (points_along (h - l) r)) lo hi /\
    map (@length Q) ds = shape /\
    Forall2 evenly_spread (combine lo hi) ds /\
    length rows = nprod shape /\
    (forall v, In v rows <-> Forall2 (fun a l => In a l) v ds) /\
    Forall (in_box lo hi) rows /\
    Exists (fun v => same_point v lo) rows /\
    (Forall (fun k => (2 <= k)%nat) shape -> Exists (fun v => same_point v hi) rows) /\
    (strictly_below lo hi -> NoDup rows).
Proof.
  intros B R. destruct (grid_dims_ok r R lo hi B) as (ds & E & F & L).
  exists (mesh_rows ds), ds, (map (@length Q) ds). unfold make_grid. rewrite E.
  pose proof (is_box_length _ _ B) as LB.
  split; [reflexivity|]. split; [eapply dims_lengths; eauto|]. split; [reflexivity|].
  split.
  { clear - F. induction F as [|[l h] d lh ds Hd F IH]; constructor; auto.
    unfold dim_ok in Hd. subst d. apply linspace_even. }
  split; [apply mesh_length|]. split; [apply mesh_in|]. split.
  { rewrite Forall_forall. intros v Hv. apply mesh_in in Hv. eapply grid_box; eauto. }
  split.
  { destruct (grid_corner_lo r lo hi ds F LB) as (v & Hv & S). apply Exists_exists. exists v.
    split; auto. now apply mesh_in. }
  split.
  { intros T. rewrite Forall_map in T. destruct (grid_corner_hi r lo hi ds F LB T) as (v & Hv & S).
    apply Exists_exists. exists v. split; auto. now apply mesh_in. }
  intros S. apply mesh_nodup. eapply grid_nodup; eauto.
Qed.
