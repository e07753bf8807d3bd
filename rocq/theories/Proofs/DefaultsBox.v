(** The box of the shipped rejection proposal. *)
From Coq Require Import List Bool Arith Lia QArith Qminmax Lqa.
Import ListNotations.
From Verif Require Import Prelude.Py Prelude.QBase Prelude.QFacts Model.Base Model.Shape Model.Uniform Model.Rejection Model.Defaults Spec.Box Spec.UniformSpec
  Spec.DefaultsSpec Proofs.UniformProofs Proofs.RejectionProofs.
Open Scope Q_scope.

Definition half (h l : Q) : Q := (h - l) / 2.
Lemma half_twice h l : half h l + half h l == h - l.
Proof. unfold half. field. Qed.
Lemma radii_shipped lo hi : corners lo hi -> radii_ok (map (fun _ => 0) lo) (map2 half hi lo).
Proof.
  unfold corners. induction 1 as [|l h lo hi H F IH]; [exact I|]. cbn [map map2 radii_ok]. split; [|exact IH]. pose proof (half_twice h l). lra.
Qed.
Lemma corner_map2 op lo hi : length lo = length hi ->
  corner op (map (fun _ => 0) lo) (map2 half hi lo) = map2 (fun h l => op 0 (half h l)) hi lo.
Proof.
  intros L. unfold corner. destruct (map2 half hi lo) as [|r [|r2 rs]] eqn:E.
  - destruct lo, hi; try discriminate; reflexivity.
  - destruct lo as [|l [|l2 lo]], hi as [|h [|h2 hi]]; try discriminate. injection E as <-. reflexivity.
  - rewrite <- E. clear E. revert hi L. induction lo as [|l lo IH]; intros [|h hi] L; try discriminate; [reflexivity|].
    cbn [map map2 combine fst snd]. f_equal. apply IH. injection L as L. exact L.
Qed.
Lemma shipped_built lo hi : corners lo hi ->
  exists d, shipped_proposal lo hi = Ok d /\ unif_inv d /\ u_dims d = length lo /\
    u_lo d = map2 (fun h l => 0 - half h l) hi lo /\ u_hi d = map2 (fun h l => 0 + half h l) hi lo.
Proof.
  intros H. destruct (uniform_new_ok (map (fun _ => 0) lo) (map2 half hi lo) (or_introl (radii_shipped lo hi H))) as (d & A & B & C & D & E).
  exists d. split; [exact A|]. split; [exact B|]. rewrite map_length in C. split; [exact C|].
  pose proof (corners_length _ _ H) as L. rewrite D, E, !corner_map2 by exact L. split; reflexivity.
Qed.
Lemma density_inside d x : unif_inv d -> length x = u_dims d ->
  row_density d x == if inlier (u_lo d) (u_hi d) x then 1 / volume (u_lo d) (u_hi d) else 0.
Proof.
  intros I L. unfold row_density, uniform_prob, check_shape. rewrite L, Nat.eqb_refl. cbn [bind map].
  destruct (prob_val_spec d I) as (p & E & _ & V). destruct (inlier _ _ _); [|reflexivity]. rewrite E.
  assert (Vp : 0 < volume (u_lo d) (u_hi d)) by (apply volume_pos; apply I). 
  apply (Qmult_inj_l _ _ (volume (u_lo d) (u_hi d))); [lra|]. transitivity (p * volume (u_lo d) (u_hi d)); [ring|]. rewrite V. field. lra.
Qed.
Lemma density_nonneg d x : unif_inv d -> 0 <= row_density d x.
Proof.
  intros I. destruct (Nat.eq_dec (length x) (u_dims d)) as [L|L].
  - rewrite (density_inside d x I L). destruct (inlier _ _ _); [|lra].
    apply Qlt_le_weak, Qlt_shift_div_l; [apply volume_pos; apply I|lra].
  - unfold row_density, uniform_prob, check_shape. apply Nat.eqb_neq in L. rewrite L. cbn. lra.
Qed.
Lemma density_pos d x : unif_inv d -> length x = u_dims d -> (0 < row_density d x <-> half_open (u_lo d) (u_hi d) x).
Proof.
  intros I L. destruct I as (L1 & Co & V). assert (I : unif_inv d) by (split; auto). rewrite <- inlier_half_open by (rewrite ?L, ?L1, <- ?(corners_length _ _ Co), ?L1; auto).
  rewrite (density_inside d x I L). destruct (inlier _ _ _).
  - split; [reflexivity|]. intros _. apply Qlt_shift_div_l; [apply volume_pos; apply I|lra].
  - split; [lra|discriminate].
Qed.

(** The support is covered exactly when it is centred. *)
Lemma upper_in lo hi : corners lo hi -> half_open lo hi hi.
Proof. unfold corners. induction 1 as [|l h lo hi H F IH]; [exact I|]. cbn [half_open]. repeat split; [exact H|lra|exact IH]. Qed.
(** A point of the support with one coordinate free, the others at the upper end. *)
Lemma cover_centred lo hi : corners lo hi ->
  (forall x, half_open lo hi x -> half_open (map2 (fun h l => 0 - half h l) hi lo) (map2 (fun h l => 0 + half h l) hi lo) x) -> centred lo hi.
Proof.
  unfold corners, centred. induction 1 as [|l h lo hi H F IH]; intros C; [constructor|]. constructor.
  - pose proof (C (h :: hi)) as C1. cbn [half_open map2] in C1.
    destruct (C1 (conj H (conj (Qle_refl h) (upper_in lo hi F)))) as (_ & C2 & _). pose proof (half_twice h l) as Tw.
    destruct (Qlt_le_dec (l + h) 0) as [A|A]; [|lra]. exfalso.
    (* a point just above l *)
    pose (a := l + Qmin (- ((l + h) * (1 # 2))) (h - l)).
    assert (a1 : l < a /\ a <= h /\ a <= l - (l + h) * (1 # 2)).
    { unfold a. destruct (Q.min_spec (- ((l + h) * (1 # 2))) (h - l)) as [(M1 & M2)|(M1 & M2)]; rewrite M2; lra. }
    destruct a1 as (a1 & a2 & a3). pose proof (C (a :: hi)) as C3. cbn [half_open map2] in C3.
    destruct (C3 (conj a1 (conj a2 (upper_in lo hi F)))) as (C4 & _). lra.
  - apply IH. intros x Hx. pose proof (C (h :: x)) as C1. cbn [half_open map2] in C1. apply (C1 (conj H (conj (Qle_refl h) Hx))).
Qed.
Lemma centred_cover lo hi : corners lo hi -> centred lo hi ->
  forall x, half_open lo hi x -> half_open (map2 (fun h l => 0 - half h l) hi lo) (map2 (fun h l => 0 + half h l) hi lo) x.
Proof.
  unfold centred, corners. intros H C. revert H. induction C as [|l h lo hi E C IH]; intros H x Hx; destruct x as [|a x]; cbn [half_open map2] in *; try tauto.
  inversion H as [|? ? ? ? H1 H2]; subst. destruct Hx as (A & B & D). pose proof (half_twice h l) as Tw. repeat split; [lra|lra|]. apply IH; [exact H2|exact D].
Qed.
Lemma covers lo hi d : corners lo hi -> shipped_proposal lo hi = Ok d ->
  ((forall x, half_open lo hi x -> 0 < row_density d x) <-> centred lo hi).
Proof.
  intros H E. destruct (shipped_built lo hi H) as (d' & E' & I & Dd & L1 & L2). rewrite E in E'. injection E' as <-.
  assert (K : forall x, half_open lo hi x -> (0 < row_density d x <-> half_open (map2 (fun h l => 0 - half h l) hi lo) (map2 (fun h l => 0 + half h l) hi lo) x)).
  { intros x Hx. rewrite <- L1, <- L2. apply density_pos; [exact I|]. rewrite Dd. apply (half_open_length _ _ _ Hx). }
  split.
  - intros C. apply cover_centred; [exact H|]. intros x Hx. apply K; [exact Hx|]. apply C. exact Hx.
  - intros C x Hx. apply K; [exact Hx|]. apply centred_cover; assumption.
Qed.

(** ** Every sample held was drawn *)
Lemma rej_iter_drawn P t n c r : incl (samples c) (ghost_drawn c) -> incl (samples (rej_iter P t n c r)) (ghost_drawn (rej_iter P t n c r)).
Proof.
  intros I. cbn [rej_iter samples ghost_drawn]. apply incl_app; [apply incl_appl; exact I|]. apply incl_appr.
  unfold rej_accepted, rej_drawn. intros x Hx. apply in_map_iff in Hx. destruct Hx as (i & <- & Hi). apply in_map. apply filter_In in Hi. apply Hi.
Qed.
Lemma rej_loop_drawn P t n timeout tape : forall e0 c, incl (samples c) (ghost_drawn c) ->
  incl (samples (out_state (rej_loop P t n timeout tape e0 c))) (ghost_drawn (out_state (rej_loop P t n timeout tape e0 c))).
Proof.
  induction tape as [|r tape IH]; intros e0 c I; cbn [rej_loop]; destruct (Qltb e0 timeout && (length (samples c) <? n)%nat); cbn [out_state]; auto.
  apply IH, rej_iter_drawn, I.
Qed.
Lemma rej_call_drawn P t n timeout e0 tape pick c : incl (samples c) (ghost_drawn c) ->
  incl (samples (out_state (rej_importance_sample P t n timeout e0 tape pick c))) (ghost_drawn (out_state (rej_importance_sample P t n timeout e0 tape pick c))).
Proof.
  intros I. unfold rej_importance_sample. pose proof (rej_loop_drawn P t n timeout tape e0 c I) as J.
  destruct (rej_loop _ _ _ _ _ _ _); auto. unfold rej_finish. cbn [samples out_state] in *. destruct (update_model _ _ _); exact J.
Qed.
Lemma rej_reach_drawn P c : rej_reachable P c -> incl (samples c) (ghost_drawn c).
Proof.
  induction 1 as [|c H IH|c pick m H IH|c pick H IH|c k c' H IH E].
  - intros x [].
  - intros x [].
  - unfold core_sample. destruct (model c); [exact IH|]. destruct (update_model _ _ _); exact IH.
  - unfold core_query. destruct (model c); [exact IH|]. destruct (update_model _ _ _); exact IH.
  - pose proof (rej_call_drawn P (rc_target k) (rc_n k) (rc_timeout k) (rc_e0 k) (rc_tape k) (rc_pick k) c IH) as J.
    destruct E as [E|(e & E)]; rewrite E in J; exact J.
Qed.
Lemma row_near lo hi u : corners lo hi -> (forall i, 0 <= u i < 1) -> forall j,
  near_origin lo hi (uniform_row (map2 (fun h l => 0 - half h l) hi lo) (map2 (fun h l => 0 + half h l) hi lo) u j).
Proof.
  unfold corners. induction 1 as [|l h lo hi H F IH]; intros Hu j; [exact I|]. cbn [map2 uniform_row near_origin]. split; [|apply IH; exact Hu].
  specialize (Hu j). fold (half h l). pose proof (half_twice h l) as Tw. assert (0 < half h l) by lra. nra.
Qed.
Lemma unreached lo hi d c : corners lo hi -> shipped_proposal lo hi = Ok d -> rej_reachable (shipped_rejection d) c ->
  (forall x, In x (ghost_drawn c) -> exists u, (forall i, 0 <= u i < 1) /\ x = uniform_row (u_lo d) (u_hi d) u 0) ->
  forall x, In x (samples c) -> near_origin lo hi x.
Proof.
  intros H E R Dr x Hx. destruct (shipped_built lo hi H) as (d' & E' & I & Dd & L1 & L2). rewrite E in E'. injection E' as <-.
  destruct (Dr x (rej_reach_drawn _ _ R x Hx)) as (u & Hu & ->). rewrite L1, L2. apply row_near; assumption.
Qed.
