(** Properties C89 and C90: the density and the weights of HiDaisee against the target. *)
From Coq Require Import List Bool Arith Lia QArith Lqa.
Import ListNotations.
From Verif Require Import Prelude.Py Prelude.QBase Prelude.QFacts Model.Uniform Model.HiDaisee Spec.UniformSpec Spec.SplitSpec
  Proofs.UniformProofs Proofs.HiDaiseeBox Proofs.HiDaiseeProofs Proofs.HiDaiseeHistory Proofs.HiDaiseeDensity Proofs.HiDaiseeRiemann
  Properties.HiDaiseeProps Properties.HiDaiseeProps2.
Open Scope Q_scope.

Section Facts.
Variables (P : hd_params) (ops : list (hd_op * bool)) (s s' : hd) (pi : vec -> Q) (n : nat) (rds : nat -> hround).
Hypotheses (C : corners (hp_lo P) (hp_hi P)) (R : hd_reachable P ops s) (D : dims_ok (length (hp_lo P)) ops) (Hd : dim_ok (length (hp_lo P)) rds)
  (E : hd_call P pi n rds s = Done s') (Same : forall f x, called_with ops f -> f x == pi x).
Let t := hs_tree s'.

Lemma row_facts i x w : In i (ht_leaves t) -> In (x, w) (leaf_rows t i) ->
  inside (leaf_box t i) x /\ w == pi x * box_volume (leaf_box t i) /\ 0 < box_volume (leaf_box t i).
Proof.
  intros Hi Hx. destruct (call_tree P ops s pi n rds s' C R D Hd E) as (I & _). fold t in I.
  unfold leaf_rows in Hx. unfold leaf_box. destruct (nth_error (ht_nodes t) i) as [nd|] eqn:En; [|destruct Hx].
  destruct (hi_rows _ _ _ _ I i nd x w Hi En Hx) as (A & f & Hf & W). split; [exact A|].
  destruct (hi_node _ _ _ _ I i nd En) as (_ & Rm). split; [|apply (vol_positive _ _ Rm)]. rewrite W. destruct Hf as [->|Hf]; [reflexivity|].
  rewrite (Same f x Hf). reflexivity.
Qed.
Lemma samples_flat : hs_samples s' = flat_map (leaf_rows t) (ht_leaves t).
Proof. destruct (call_tree P ops s pi n rds s' C R D Hd E) as (_ & Sm). fold t in Sm. rewrite Sm, hd_rows_at. reflexivity. Qed.
Lemma leaf_unique i j x : In i (ht_leaves t) -> In j (ht_leaves t) -> inside (leaf_box t i) x -> inside (leaf_box t j) x -> i = j.
Proof. destruct (call_tree P ops s pi n rds s' C R D Hd E) as (I & _). exact (proj1 (proj2 (proj2 (hi_cut _ _ _ _ I))) i j x). Qed.
Lemma leaf_positive i : In i (ht_leaves t) -> 0 < box_volume (leaf_box t i).
Proof.
  intros Hi. destruct (call_tree P ops s pi n rds s' C R D Hd E) as (I & _). fold t in I.
  unfold leaf_box. pose proof (hi_leaf _ _ _ _ I i Hi) as L. destruct (nth_error (ht_nodes t) i) as [nd|] eqn:En; [|apply nth_error_None in En; lia].
  destruct (hi_node _ _ _ _ I i nd En) as (_ & Rm). apply (vol_positive _ _ Rm).
Qed.
(** A returned sample in a leaf box is a row of that leaf. *)
Lemma sample_row i x w : In i (ht_leaves t) -> In (x, w) (hs_samples s') -> inside (leaf_box t i) x -> In (x, w) (leaf_rows t i).
Proof.
  intros Hi Hx Hb. rewrite samples_flat in Hx. apply in_flat_map in Hx. destruct Hx as (j & Hj & Hx).
  destruct (row_facts j x w Hj Hx) as (Hbj & _). rewrite (leaf_unique i j x Hi Hj Hb Hbj). exact Hx.
Qed.
Lemma mean_range m M : (forall i, In i (ht_leaves t) -> exists x w, In (x, w) (hs_samples s') /\ inside (leaf_box t i) x) ->
  (forall i x, In i (ht_leaves t) -> inside (leaf_box t i) x -> 0 <= m i <= pi x /\ pi x <= M i) ->
  forall i, In i (ht_leaves t) -> leaf_rows t i <> [] /\ m i * box_volume (leaf_box t i) <= leaf_mean t i <= M i * box_volume (leaf_box t i).
Proof.
  intros Full B i Hi. assert (Ne : leaf_rows t i <> []).
  { destruct (Full i Hi) as (x & w & Hx & Hb). pose proof (sample_row i x w Hi Hx Hb) as H. intros Z. rewrite Z in H. destruct H. }
  split; auto. apply mean_bounds; auto. intros x w Hx. destruct (row_facts i x w Hi Hx) as (Hb & W & V). destruct (B i x Hi Hb) as (B1 & B2). rewrite W. nra.
Qed.
End Facts.

(** C89 (full statement: without the condition that every leaf box holds a returned sample). All calls used the target pi. If pi
    is between m i and M i on leaf box i, the density reported on it is between m i / (upper sum) and M i / (lower sum), the
    sums being the Riemann sums of M and m over the leaves. *)
Theorem C89_density_bounds_partial :
  forall P ops s pi n rds s', corners (hp_lo P) (hp_hi P) -> hd_reachable P ops s -> dims_ok (length (hp_lo P)) ops -> dim_ok (length (hp_lo P)) rds ->
  hd_call P pi n rds s = Done s' -> (forall f x, called_with ops f -> f x == pi x) -> (forall x, 0 <= pi x) ->
  let t := hs_tree s' in
  (forall i, In i (ht_leaves t) -> exists x w, In (x, w) (hs_samples s') /\ inside (leaf_box t i) x) ->
  forall m M, (forall i x, In i (ht_leaves t) -> inside (leaf_box t i) x -> 0 <= m i <= pi x /\ pi x <= M i) ->
  let lower := sum_over (fun i => m i * box_volume (leaf_box t i)) (ht_leaves t) in
  let upper := sum_over (fun i => M i * box_volume (leaf_box t i)) (ht_leaves t) in
  0 < lower ->
  forall i x, In i (ht_leaves t) -> inside (leaf_box t i) x -> exists v, hd_prob s' x = Fin v /\ m i <= v * upper /\ v * lower <= M i.
Proof.
  intros P ops s pi n rds s' C R D Hd E Same Nn t Full m M B lower upper Lp.
  pose proof (samples_flat P ops s s' pi n rds C R D Hd E) as Sm. fold t in Sm.
  pose proof (leaf_positive P ops s s' pi n rds C R D Hd E) as V. fold t in V.
  assert (Held : forall i, In i (ht_leaves t) -> leaf_rows t i <> []) by (intros i Hi; apply (mean_range P ops s s' pi n rds C R D Hd E Same m M Full B i Hi)).
  assert (Mean : forall i, In i (ht_leaves t) -> m i * box_volume (leaf_box t i) <= leaf_mean t i <= M i * box_volume (leaf_box t i))
    by (intros i Hi; apply (mean_range P ops s s' pi n rds C R D Hd E Same m M Full B i Hi)).
  assert (Pos : exists x w, In (x, w) (hs_samples s') /\ 0 < w).
  { destruct (Qlt_le_dec 0 (sum_over (leaf_mean t) (ht_leaves t))) as [H|H].
    2:{ exfalso. pose proof (sum_over_le (fun i => m i * box_volume (leaf_box t i)) (leaf_mean t) (ht_leaves t) (fun i Hi => proj1 (Mean i Hi))). fold lower in H0. lra. }
    assert (Ex : exists i, In i (ht_leaves t) /\ 0 < leaf_mean t i).
    { apply sum_over_pos. exact H. }
    destruct Ex as (i & Hi & Hp). destruct (leaf_rows t i) as [|r0 rs] eqn:Er; [exfalso; apply (Held i Hi Er)|].
    assert (Ew : exists x w, In (x, w) (leaf_rows t i) /\ 0 < w).
    { destruct (Qlt_le_dec 0 (wsum (leaf_rows t i))) as [G|G].
      - apply wsum_pos. exact G.
      - exfalso. assert (N : 0 < Qnat (length (leaf_rows t i))) by (apply Qnat_pos; rewrite Er; simpl; lia).
        assert (leaf_mean t i <= 0) by (unfold leaf_mean; apply Qle_shift_div_r; [exact N|rewrite Qmult_0_l; exact G]). lra. }
    destruct Ew as (x & w & Hx & Hw). exists x, w. split; auto. rewrite Sm. apply in_flat_map. exists i. split; auto. }
  assert (Nn' : forall f, f = pi \/ called_with ops f -> forall x, 0 <= f x).
  { intros f [->|Hf] x; auto. rewrite (Same f x Hf). auto. }
  destruct (C76_density_partial P ops s pi n rds s' C R D Hd E Nn' Pos) as (dens & Dn & Mass & Pr & In_ & _). fold t in Dn, Mass, Pr, In_.
  assert (Dv : forall i, In i (ht_leaves t) -> dens i * box_volume (leaf_box t i) * sum_over (leaf_mean t) (ht_leaves t) == leaf_mean t i).
  { intros i Hi. rewrite <- sum_over_scal.
    rewrite (sum_over_ext _ (fun j => leaf_mean t i * (dens j * box_volume (leaf_box t j)))).
    - rewrite sum_over_scal, Mass. ring.
    - intros j Hj. rewrite (Pr i j Hi Hj). ring. }
  set (Z := sum_over (leaf_mean t) (ht_leaves t)) in *.
  assert (ZL : lower <= Z) by (apply sum_over_le; intros j Hj; apply Mean; auto).
  assert (ZU : Z <= upper) by (apply sum_over_le; intros j Hj; apply Mean; auto).
  intros i x Hi Hx. destruct (In_ i x Hi Hx) as (v & Ev & Hv). exists v. split; auto. rewrite Hv.
  pose proof (Dv i Hi) as Q. pose proof (Mean i Hi) as (Q1 & Q2). pose proof (V i Hi) as Vi. pose proof (Dn i Hi) as Di.
  split.
  - apply Qmult_le_r with (box_volume (leaf_box t i)); auto. 
    assert (dens i * Z <= dens i * upper) by nra. nra.
  - apply Qmult_le_r with (box_volume (leaf_box t i)); auto.
    assert (dens i * lower <= dens i * Z) by nra. nra.
Qed.
Print Assumptions C89_density_bounds_partial.

Lemma bump_range x : length x = 1%nat -> 1 <= bump x <= 4.
Proof. destruct x as [|a [|b x]]; intros L; try discriminate. unfold bump. destruct (_ && _); lra. Qed.
Definition third_state : hd := out_state (hd_call line_hd bump 3 left_rounds (line_after 2)).
Lemma third_ready :
  hd_reachable line_hd [(HdCall bump 2 left_rounds, true)] (line_after 2) /\ dims_ok (length (hp_lo line_hd)) [(HdCall bump 2 left_rounds, true)] /\
  dim_ok (length (hp_lo line_hd)) left_rounds /\ hd_call line_hd bump 3 left_rounds (line_after 2) = Done third_state /\
  (forall f x, called_with [(HdCall bump 2 left_rounds, true)] f -> f x == bump x).
Proof.
  split; [apply line_reachable; lia|].
  split; [intros pi n rds fl [H|[]] t; injection H as <- <- <- _; simpl; lia|].
  split; [intros t; simpl; lia|].
  split; [vm_compute; reflexivity|].
  intros f x (n & rds & b & [H|[]]); injection H as <- _ _ _; reflexivity.
Qed.
Lemma third_leaves : ht_leaves (hs_tree third_state) = [2; 3; 4]%nat.
Proof. vm_compute. reflexivity. Qed.
Lemma third_held i : In i (ht_leaves (hs_tree third_state)) -> exists x w, In (x, w) (hs_samples third_state) /\ inside (leaf_box (hs_tree third_state) i) x.
Proof.
  rewrite third_leaves.
  intros [<-|[<-|[<-|[]]]]; [exists (fst (nth 0 (hs_samples third_state) ([], 0))), (snd (nth 0 (hs_samples third_state) ([], 0)))
    |exists (fst (nth 1 (hs_samples third_state) ([], 0))), (snd (nth 1 (hs_samples third_state) ([], 0)))
    |exists (fst (nth 2 (hs_samples third_state) ([], 0))), (snd (nth 2 (hs_samples third_state) ([], 0)))].
  all: split; [rewrite <- surjective_pairing; apply nth_In; vm_compute; lia|].
  all: apply inside_by; vm_compute; reflexivity.
Qed.
Lemma third_bump i x : In i (ht_leaves (hs_tree third_state)) -> inside (leaf_box (hs_tree third_state) i) x -> 0 <= 1 <= bump x /\ bump x <= 4.
Proof.
  rewrite third_leaves. intros Hi Hx. pose proof (inside_length _ _ Hx) as L. clear Hx.
  assert (L1 : length x = 1%nat) by (destruct Hi as [<-|[<-|[<-|[]]]]; rewrite L; vm_compute; reflexivity).
  pose proof (bump_range x L1). lra.
Qed.
Example C89_density_bounds_example :
  let t := hs_tree third_state in
  hd_reachable line_hd [(HdCall bump 2 left_rounds, true)] (line_after 2) /\ hd_call line_hd bump 3 left_rounds (line_after 2) = Done third_state /\
  (forall i, In i (ht_leaves t) -> exists x w, In (x, w) (hs_samples third_state) /\ inside (leaf_box t i) x) /\
  (forall i x, In i (ht_leaves t) -> inside (leaf_box t i) x -> 0 <= 1 <= bump x /\ bump x <= 4) /\
  0 < sum_over (fun i => 1 * box_volume (leaf_box t i)) (ht_leaves t) /\ length (ht_leaves t) = 3%nat.
Proof.
  cbv zeta. split; [apply third_ready|]. split; [apply third_ready|]. split; [apply third_held|]. split; [apply third_bump|]. split; vm_compute; reflexivity.
Qed.

(** C89 without that condition: the target is at least 1 on the whole range, the density reported on half of it is 0. *)
Definition crowded (t : nat) : hround := mkHR (fun _ => 0) (fun _ => nth t [1 # 8; 1 # 3] (1 # 3)) 0.
Theorem C89_density_bounds_refuted :
  exists P pi n rds s' x, corners (hp_lo P) (hp_hi P) /\ dim_ok (length (hp_lo P)) rds /\ hd_call P pi n rds (hd_new P) = Done s' /\
  (forall y, inside (hp_lo P, hp_hi P) y -> 1 <= pi y <= 4) /\
  (forall y, length y = length (hp_lo P) -> half_open [1 # 2] [1] y -> exists v, hd_prob s' y = Fin v /\ v == 0) /\
  inside (hp_lo P, hp_hi P) x /\ half_open [1 # 2] [1] x.
Proof.
  set (s' := out_state (hd_call line_hd bump 2 crowded (hd_new line_hd))).
  exists line_hd, bump, 2%nat, crowded, s', [3 # 4]. split; [apply line_corners|]. split; [intros t; simpl; lia|]. split; [vm_compute; reflexivity|].
  split; [intros y Hy; pose proof (inside_length _ _ Hy) as L; apply bump_range; exact L|].
  split; [|split; simpl; repeat split; lra].
  intros y L Hy. destruct y as [|a [|b y]]; try discriminate. destruct Hy as (H1 & H2 & _).
  assert (E : hs_model s' = ([mkUnif 1 [0 # 32] [16 # 32] (2 # 4); mkUnif 1 [16 # 32] [32 # 32] (2 # 4)], [Fin (1280 # 1280); Fin (0 # 40)])).
  { vm_compute. reflexivity. }
  unfold hd_prob. rewrite E. cbn [fst snd map2 fsumQ u_lo u_hi u_volume inlier].
  assert (F : Qle_bool a (16 # 32) = false) by (apply not_true_iff_false; rewrite Qle_bool_iff; lra). rewrite F, andb_false_r.
  destruct (Qltb (16 # 32) a && Qle_bool a (32 # 32)); eexists; (split; [reflexivity|vm_compute; reflexivity]).
Qed.
Print Assumptions C89_density_bounds_refuted.

(** C90, what holds (full statement: the mean of the returned weights does): the mean weights of the leaves add up to a value
    between the lower and the upper Riemann sum of the target over the leaf boxes. *)
Theorem C90_evidence_partial :
  forall P ops s pi n rds s', corners (hp_lo P) (hp_hi P) -> hd_reachable P ops s -> dims_ok (length (hp_lo P)) ops -> dim_ok (length (hp_lo P)) rds ->
  hd_call P pi n rds s = Done s' -> (forall f x, called_with ops f -> f x == pi x) ->
  let t := hs_tree s' in
  (forall i, In i (ht_leaves t) -> exists x w, In (x, w) (hs_samples s') /\ inside (leaf_box t i) x) ->
  forall m M, (forall i x, In i (ht_leaves t) -> inside (leaf_box t i) x -> 0 <= m i <= pi x /\ pi x <= M i) ->
  sum_over (fun i => m i * box_volume (leaf_box t i)) (ht_leaves t) <= sum_over (leaf_mean t) (ht_leaves t) <=
  sum_over (fun i => M i * box_volume (leaf_box t i)) (ht_leaves t).
Proof.
  intros P ops s pi n rds s' C R D Hd E Same t Full m M B.
  split; apply sum_over_le; intros i Hi; apply (mean_range P ops s s' pi n rds C R D Hd E Same m M Full B i Hi).
Qed.
Print Assumptions C90_evidence_partial.
Example C90_evidence_example :
  let t := hs_tree third_state in
  hd_reachable line_hd [(HdCall bump 2 left_rounds, true)] (line_after 2) /\ hd_call line_hd bump 3 left_rounds (line_after 2) = Done third_state /\
  (forall i, In i (ht_leaves t) -> exists x w, In (x, w) (hs_samples third_state) /\ inside (leaf_box t i) x) /\
  (forall i x, In i (ht_leaves t) -> inside (leaf_box t i) x -> 0 <= 1 <= bump x /\ bump x <= 4) /\ sum_over (leaf_mean t) (ht_leaves t) == 7 # 4.
Proof.
  cbv zeta. split; [apply third_ready|]. split; [apply third_ready|]. split; [apply third_held|]. split; [apply third_bump|]. vm_compute; reflexivity.
Qed.

(** On every execution that leaves positive weights in two leaves the mean of the returned weights is below that sum. *)
Definition mean_of (l : list (vec * Q)) : Q := fold_right (fun xw v => snd xw + v) 0 l / inject_Z (Z.of_nat (length l)).
Theorem C90_mean_weight_low :
  forall P ops s pi n rds s', corners (hp_lo P) (hp_hi P) -> hd_reachable P ops s -> dims_ok (length (hp_lo P)) ops -> dim_ok (length (hp_lo P)) rds ->
  hd_call P pi n rds s = Done s' -> (forall f x, called_with ops f -> f x == pi x) -> (forall x, 0 <= pi x) ->
  let t := hs_tree s' in
  forall i j x y v w, In i (ht_leaves t) -> In j (ht_leaves t) -> i <> j -> In (x, v) (hs_samples s') -> In (y, w) (hs_samples s') ->
  inside (leaf_box t i) x -> inside (leaf_box t j) y -> 0 < v ->
  mean_of (hs_samples s') < sum_over (leaf_mean t) (ht_leaves t).
Proof.
  intros P ops s pi n rds s' C R D Hd E Same Nn t i j x y v w Hi Hj N Hx Hy Bx By Vp.
  pose proof (sample_row P ops s s' pi n rds C R D Hd E Same i x v Hi Hx Bx) as Rx.
  pose proof (sample_row P ops s s' pi n rds C R D Hd E Same j y w Hj Hy By) as Ry. fold t in Rx, Ry.
  assert (W : forall k z u, In k (ht_leaves t) -> In (z, u) (leaf_rows t k) -> 0 <= u).
  { intros k z u Hk Hz. destruct (row_facts P ops s s' pi n rds C R D Hd E Same k z u Hk Hz) as (_ & Q & V). rewrite Q. pose proof (Nn z). nra. }
  assert (Sm : mean_of (hs_samples s') = wsum (flat_map (leaf_rows t) (ht_leaves t)) / Qnat (length (flat_map (leaf_rows t) (ht_leaves t)))).
  { rewrite (samples_flat P ops s s' pi n rds C R D Hd E). reflexivity. }
  rewrite Sm. apply (mean_below_sum (leaf_rows t) (ht_leaves t) i j); auto.
  - assert (Wi : forall z u, In (z, u) (leaf_rows t i) -> 0 <= u) by (intros z u Hz; exact (W i z u Hi Hz)). clear - Rx Vp Wi.
    induction (leaf_rows t i) as [|(z, u) l IH]; [destruct Rx|]. unfold wsum in *. simpl. pose proof (Wi z u (or_introl eq_refl)).
    destruct Rx as [Eq|Rx]; [injection Eq as -> ->; pose proof (wsum_low 0 l ltac:(intros; eapply Wi; right; eauto)) as G; unfold wsum in G; lra|].
    specialize (IH Rx ltac:(intros; eapply Wi; right; eauto)). lra.
  - intros Z. rewrite Z in Ry. destruct Ry.
Qed.
Print Assumptions C90_mean_weight_low.
Example C90_mean_weight_low_example :
  let t := hs_tree third_state in
  hd_reachable line_hd [(HdCall bump 2 left_rounds, true)] (line_after 2) /\ hd_call line_hd bump 3 left_rounds (line_after 2) = Done third_state /\
  (forall i, In i (ht_leaves t) -> exists x w, In (x, w) (hs_samples third_state) /\ inside (leaf_box t i) x) /\
  Forall (fun xw => 0 < snd xw) (hs_samples third_state) /\ mean_of (hs_samples third_state) == 7 # 12.
Proof.
  cbv zeta. split; [apply third_ready|]. split; [apply third_ready|]. split; [apply third_held|].
  split; [|vm_compute; reflexivity].
  apply Forall_forall. intros xw Hx. assert (G : forallb (fun xw => Qltb 0 (snd xw)) (hs_samples third_state) = true) by (vm_compute; reflexivity).
  rewrite forallb_forall in G. apply Qltb_true. apply G. exact Hx.
Qed.

(** C90 refuted: the target is at least 1 on a range of volume 1, and the mean of the returned weights is 7/12. *)
Theorem C90_evidence_refuted :
  exists P ops s pi n rds s', corners (hp_lo P) (hp_hi P) /\ hd_reachable P ops s /\ dims_ok (length (hp_lo P)) ops /\ dim_ok (length (hp_lo P)) rds /\
  hd_call P pi n rds s = Done s' /\ (forall f x, called_with ops f -> f x == pi x) /\
  (forall y, inside (hp_lo P, hp_hi P) y -> 1 <= pi y <= 4) /\ volume (hp_lo P) (hp_hi P) == 1 /\
  (forall i, In i (ht_leaves (hs_tree s')) -> exists x w, In (x, w) (hs_samples s') /\ inside (leaf_box (hs_tree s') i) x) /\
  mean_of (hs_samples s') == 7 # 12.
Proof.
  exists line_hd, [(HdCall bump 2 left_rounds, true)], (line_after 2), bump, 3%nat, left_rounds, third_state.
  split; [apply line_corners|]. split; [apply third_ready|]. split; [apply third_ready|]. split; [apply third_ready|]. split; [apply third_ready|].
  split; [apply third_ready|].
  split; [intros y Hy; pose proof (inside_length _ _ Hy) as L; apply bump_range; exact L|].
  split; [vm_compute; reflexivity|]. split; [apply third_held|vm_compute; reflexivity].
Qed.
Print Assumptions C90_evidence_refuted.
