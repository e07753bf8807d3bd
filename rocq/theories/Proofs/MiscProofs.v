(** Lemmas about time formatting and the target generators. *)
From Coq Require Import List Bool Arith Lia ZArith QArith Qround Lqa.
Import ListNotations.
From Verif Require Import Prelude.Py Prelude.QBase Prelude.QFacts Prelude.ListFacts Model.Base Model.Misc
  Spec.Box Spec.GridSpec Spec.TargetSpec Proofs.BaseProofs.
Open Scope Q_scope.

(** ** time_to_hms *)
Lemma floordiv_spec a b : 0 < b ->
  floordiv a b == inject_Z (Qfloor (a / b)) /\ 0 <= a - floordiv a b * b < b.
Proof.
  intros H. unfold floordiv. split; [reflexivity|].
  pose proof (Qfloor_le (a / b)) as L. pose proof (Qlt_floor (a / b)) as U.
  set (f := Qfloor (a / b)) in *.
  assert (E : a == (a / b) * b) by (field; lra).
  rewrite inject_Z_plus in U. change (inject_Z 1) with 1 in U.
  split.
  - rewrite E at 1. set (z := a / b) in *. nra.
  - rewrite E at 1. set (z := a / b) in *. nra.
Qed.

Lemma hms_decomposition t :
  let '(h, m, s) := time_to_hms t in
  exists H M : Z, h == inject_Z H /\ m == inject_Z M /\ (0 <= M < 60)%Z /\ 0 <= s < 60 /\
                  h * 3600 + m * 60 + s == t /\ (0 <= t -> (0 <= H)%Z).
Proof.
  unfold time_to_hms.
  destruct (floordiv_spec t 3600 ltac:(lra)) as [_ R1].
  set (h := floordiv t 3600) in *.
  destruct (floordiv_spec (t - h * 3600) 60 ltac:(lra)) as [_ R2].
  set (m := floordiv (t - h * 3600) 60) in *.
  exists (Qfloor (t / 3600)), (Qfloor ((t - h * 3600) / 60)).
  split; [reflexivity|]. split; [reflexivity|].
  assert (Em : m == inject_Z (Qfloor ((t - h * 3600) / 60))) by reflexivity.
  split.
  - split.
    + change 0%Z with (Qfloor 0). apply Qfloor_resp_le. apply Qle_shift_div_l; lra.
    + apply Z.lt_le_trans with (Z.succ 59); [|lia]. apply Z.lt_succ_r.
      apply Z.lt_succ_r. rewrite Zlt_Qlt. rewrite <- Em. change (inject_Z (Z.succ 59)) with 60. lra.
  - split; [lra|]. split; [lra|].
    intros T. change 0%Z with (Qfloor 0). apply Qfloor_resp_le. apply Qle_shift_div_l; lra.
Qed.

Lemma hms_unique t (H M : Z) s :
  (0 <= M < 60)%Z -> 0 <= s < 60 -> inject_Z H * 3600 + inject_Z M * 60 + s == t ->
  let '(h', m', s') := time_to_hms t in h' == inject_Z H /\ m' == inject_Z M /\ s' == s.
Proof.
  intros HM Hs E. pose proof (hms_decomposition t) as D.
  destruct (time_to_hms t) as [[h' m'] s']. destruct D as (H' & M' & Eh & Em & HM' & Hs' & E' & _).
  assert (A : inject_Z (H * 3600 + M * 60) + s == inject_Z (H' * 3600 + M' * 60) + s').
  { rewrite !inject_Z_plus, !inject_Z_mult. change (inject_Z 3600) with 3600. change (inject_Z 60) with 60.
    rewrite <- Eh, <- Em. lra. }
  assert (B : (H * 3600 + M * 60 - (H' * 3600 + M' * 60) < 60)%Z).
  { rewrite Zlt_Qlt. unfold Z.sub. rewrite inject_Z_plus, inject_Z_opp. change (inject_Z 60) with 60. lra. }
  assert (C : (-60 < H * 3600 + M * 60 - (H' * 3600 + M' * 60))%Z).
  { rewrite Zlt_Qlt. unfold Z.sub. rewrite inject_Z_plus, inject_Z_opp. change (inject_Z (-60)) with (-(60)). lra. }
  assert (H = H')%Z by lia. assert (M = M')%Z by lia. subst.
  repeat split; auto. lra.
Qed.

(** ** Random Gaussian mixtures *)
Lemma bcast_same f x y : length x = length y -> bcast f x y = Ok (map2 f x y).
Proof. intros H. unfold bcast. now rewrite H, Nat.eqb_refl. Qed.

Lemma uniform_box low high u : is_box low high -> unit_draws u ->
  exists x, uniform_arr low high u = Ok x /\ in_box low high x /\ length x = length low.
Proof.
  intros B U. pose proof (is_box_length _ _ B) as L. unfold uniform_arr.
  rewrite bcast_same by auto.
  assert (LM : length (map2 Qminus high low) = length low) by (rewrite map2_length; auto).
  rewrite bcast_same.
  2:{ rewrite map2_length; [auto|now rewrite seq_length]. }
  eexists. split; [reflexivity|].
  generalize 0%nat as k. clear LM. revert high B L. induction low as [|l low IH]; destruct high as [|h high]; simpl; intros B L k; try contradiction; auto.
  destruct B as [B1 B2]. destruct (IH high B2 ltac:(lia) (S k)) as [I1 I2].
  pose proof (U k). split; [|f_equal; exact I2]. repeat split; auto; nra.
Qed.

Lemma in_box_length lo hi x : in_box lo hi x -> length x = length lo /\ length hi = length lo.
Proof.
  revert hi x; induction lo as [|l lo IH]; destruct hi as [|h hi], x as [|a x]; simpl; try tauto.
  intros (_ & _ & H). apply IH in H. intuition.
Qed.

Lemma inset_box lo hi smin smax s : room lo hi smax -> in_box smin smax s -> is_box (inset_lo lo s) (inset_hi hi s).
Proof.
  unfold inset_lo, inset_hi.
  revert hi smin smax s. induction lo as [|l lo IH]; destruct hi as [|h hi], smax as [|sx smax]; simpl; try tauto; intros s R B;
    destruct smin as [|sn smin], s as [|a s]; simpl in *; try tauto.
  destruct R as [R1 R2], B as (B1 & B2 & B3). split; [lra|]. eapply IH; eauto.
Qed.

Lemma component_ok lo hi smin smax us um :
  room lo hi smax -> is_box smin smax -> unit_draws us -> unit_draws um ->
  exists m s, gmm_component lo hi smin smax us um = Ok (m, s) /\
    in_box smin smax s /\ in_box (inset_lo lo s) (inset_hi hi s) m.
Proof.
  intros R B Us Um. unfold gmm_component.
  destruct (uniform_box smin smax us B Us) as (s & -> & Bs & Ls). cbn [bind].
  assert (Lr : length lo = length smax /\ length hi = length smax).
  { clear - R. revert hi smax R. induction lo as [|l lo IH]; destruct hi, smax; simpl; try tauto.
    intros [_ R]. apply IH in R. intuition. }
  pose proof (is_box_length _ _ B) as Lb.
  rewrite !bcast_same by (rewrite map_length; lia). cbn [bind].
  fold (inset_lo lo s). fold (inset_hi hi s).
  destruct (uniform_box (inset_lo lo s) (inset_hi hi s) um) as (m & -> & Bm & Lm); auto.
  { eapply inset_box; eauto. }
  cbn [bind]. exists m, s. auto.
Qed.

Lemma components_ok lo hi smin smax draws :
  room lo hi smax -> is_box smin smax ->
  Forall (fun d => unit_draws (fst d) /\ unit_draws (snd d)) draws ->
  exists cs, gmm_components lo hi smin smax draws = Ok cs /\ length cs = length draws /\
    Forall (fun c => in_box smin smax (snd c) /\ in_box (inset_lo lo (snd c)) (inset_hi hi (snd c)) (fst c)) cs.
Proof.
  intros R B. induction 1 as [|[us um] draws [H1 H2] H IH]; simpl.
  - exists []. repeat split; auto.
  - destruct (component_ok lo hi smin smax us um R B H1 H2) as (m & s & -> & Bs & Bm).
    destruct IH as (cs & -> & L & F). cbn [bind]. eexists. split; [reflexivity|]. split; [simpl; auto|].
    constructor; auto.
Qed.

Definition row_lo (c : vec * vec) : vec := map2 (fun m s => m - 5 * s) (fst c) (snd c).
Definition row_hi (c : vec * vec) : vec := map2 (fun m s => m + 5 * s) (fst c) (snd c).

Lemma rows_in lo hi s m :
  Forall (fun a => 0 <= a) s -> in_box (inset_lo lo s) (inset_hi hi s) m -> length lo = length s -> length hi = length s ->
  in_box lo hi (row_lo (m, s)) /\ in_box lo hi (row_hi (m, s)) /\
  Forall2 Qle (row_lo (m, s)) m /\ Forall2 Qle m (row_hi (m, s)).
Proof.
  unfold inset_lo, inset_hi, row_lo, row_hi. cbn [fst snd].
  intros F. revert lo hi m. induction F as [|a s Ha F IH]; intros lo hi m B L1 L2.
  - destruct lo; [|discriminate]. destruct hi; [|discriminate]. destruct m; simpl in *; try tauto. repeat split; constructor.
  - destruct lo as [|l lo]; [discriminate|]. destruct hi as [|h hi]; [discriminate|]. destruct m as [|x m]; simpl in *; try tauto.
    destruct B as (B1 & B2 & B3). destruct (IH lo hi m B3 ltac:(lia) ltac:(lia)) as (I1 & I2 & I3 & I4).
    repeat split; auto; try lra; constructor; auto; lra.
Qed.

Lemma le_refl2 (x : vec) : Forall2 Qle x x.
Proof. induction x; constructor; auto. lra. Qed.
Lemma le_trans2 (x y z : vec) : Forall2 Qle x y -> Forall2 Qle y z -> Forall2 Qle x z.
Proof.
  intros H; revert z; induction H; intros z G; inversion G; subst; constructor; auto. lra.
Qed.

Lemma qmin_le a b : qmin a b <= a /\ qmin a b <= b.
Proof. unfold qmin. qcases; lra. Qed.
Lemma qmax_ge a b : a <= qmax a b /\ b <= qmax a b.
Proof. unfold qmax. qcases; lra. Qed.

Lemma map2_min_in lo hi x y : in_box lo hi x -> in_box lo hi y -> in_box lo hi (map2 qmin x y).
Proof.
  revert hi x y; induction lo as [|l lo IH]; destruct hi as [|h hi], x as [|a x], y as [|b y]; simpl; try tauto.
  intros (H1 & H2 & H3) (G1 & G2 & G3). repeat split; auto; unfold qmin; qcases; lra.
Qed.
Lemma map2_max_in lo hi x y : in_box lo hi x -> in_box lo hi y -> in_box lo hi (map2 qmax x y).
Proof.
  revert hi x y; induction lo as [|l lo IH]; destruct hi as [|h hi], x as [|a x], y as [|b y]; simpl; try tauto.
  intros (H1 & H2 & H3) (G1 & G2 & G3). repeat split; auto; unfold qmax; qcases; lra.
Qed.
Lemma map2_min_le (x y : vec) : length x = length y -> Forall2 Qle (map2 qmin x y) x /\ Forall2 Qle (map2 qmin x y) y.
Proof.
  revert y; induction x as [|a x IH]; destruct y as [|b y]; simpl; intros L; try discriminate; [split; constructor|].
  destruct (IH y ltac:(lia)). destruct (qmin_le a b). split; constructor; auto.
Qed.
Lemma map2_max_ge (x y : vec) : length x = length y -> Forall2 Qle x (map2 qmax x y) /\ Forall2 Qle y (map2 qmax x y).
Proof.
  revert y; induction x as [|a x IH]; destruct y as [|b y]; simpl; intros L; try discriminate; [split; constructor|].
  destruct (IH y ltac:(lia)). destruct (qmax_ge a b). split; constructor; auto.
Qed.

Lemma fold_min lo hi rs : Forall (in_box lo hi) rs -> forall r, in_box lo hi r ->
  in_box lo hi (fold_left (map2 qmin) rs r) /\ Forall (Forall2 Qle (fold_left (map2 qmin) rs r)) (r :: rs).
Proof.
  induction 1 as [|x rs Hx H IH]; intros r Hr; simpl.
  - split; auto. constructor; auto. apply le_refl2.
  - destruct (IH (map2 qmin r x)) as [I1 I2]; [apply map2_min_in; auto|]. split; auto.
    inversion I2 as [|? ? J1 J2]; subst.
    destruct (map2_min_le r x) as [M1 M2].
    { apply in_box_length in Hx. apply in_box_length in Hr. lia. }
    constructor; [eapply le_trans2; eauto|]. constructor; [eapply le_trans2; eauto|]. exact J2.
Qed.

Lemma fold_max lo hi rs : Forall (in_box lo hi) rs -> forall r, in_box lo hi r ->
  in_box lo hi (fold_left (map2 qmax) rs r) /\ Forall (fun y => Forall2 Qle y (fold_left (map2 qmax) rs r)) (r :: rs).
Proof.
  induction 1 as [|x rs Hx H IH]; intros r Hr; simpl.
  - split; auto. constructor; auto. apply le_refl2.
  - destruct (IH (map2 qmax r x)) as [I1 I2]; [apply map2_max_in; auto|]. split; auto.
    inversion I2 as [|? ? J1 J2]; subst.
    destruct (map2_max_ge r x) as [M1 M2].
    { apply in_box_length in Hx. apply in_box_length in Hr. lia. }
    constructor; [eapply le_trans2; eauto|]. constructor; [eapply le_trans2; eauto|]. exact J2.
Qed.

Lemma le_in_box lo x hi : Forall2 Qle lo x -> Forall2 Qle x hi -> in_box lo hi x.
Proof.
  intros H. revert hi. induction H; intros hi G; inversion G; subst; simpl; auto.
Qed.

Lemma Qsum_div c l : Qsum (map (fun w => w / c) l) == Qsum l / c.
Proof. induction l; simpl; [unfold Qdiv; ring|]. rewrite IHl. unfold Qdiv. ring. Qed.

Lemma normalised_weights raw : Forall (fun w => 0 <= w) raw -> 0 < Qsum raw ->
  Forall (fun w => 0 <= w) (map (fun w => w / Qsum raw) raw) /\ Qsum (map (fun w => w / Qsum raw) raw) == 1.
Proof.
  intros F S. split.
  - rewrite Forall_map. eapply Forall_impl; [|exact F]. intros a Ha. simpl in Ha. apply Qle_shift_div_l; lra.
  - rewrite Qsum_div. field. lra.
Qed.

Lemma in_box_nonneg smin smax s : Forall (fun a => 0 <= a) smin -> in_box smin smax s -> Forall (fun a => 0 <= a) s.
Proof.
  intros F. revert smax s. induction F as [|a smin Ha F IH]; destruct smax as [|b smax], s as [|c s]; simpl; try tauto; intros H; constructor.
  - lra.
  - destruct H as (_ & _ & H). eapply IH; eauto.
Qed.

Lemma random_gmm lo hi smin smax draws raw :
  room lo hi smax -> is_box smin smax -> Forall (fun a => 0 <= a) smin ->
  draws <> [] -> Forall (fun d => unit_draws (fst d) /\ unit_draws (snd d)) draws ->
  length raw = length draws -> Forall (fun w => 0 <= w) raw -> 0 < Qsum raw ->
  exists g, generateRandomGMM lo hi smin smax draws raw = Ok g /\
    length (g_means g) = length draws /\ length (g_sigmas g) = length draws /\ length (g_weights g) = length draws /\
    Forall2 (fun m s => in_box smin smax s /\ in_box (inset_lo lo s) (inset_hi hi s) m) (g_means g) (g_sigmas g) /\
    Forall (fun w => 0 <= w) (g_weights g) /\ Qsum (g_weights g) == 1 /\
    in_box lo hi (g_smin g) /\ in_box lo hi (g_smax g) /\
    Forall (in_box (g_smin g) (g_smax g)) (g_means g).
Proof.
  intros R B NN ND U LR FR SR. unfold generateRandomGMM.
  destruct (components_ok lo hi smin smax draws R B U) as (cs & -> & L & F). cbn [bind].
  destruct cs as [|c0 cs]; [destruct draws; [congruence|discriminate]|].
  assert (Lr : length lo = length smax /\ length hi = length smax).
  { clear - R. revert hi smax R. induction lo as [|l lo IH]; destruct hi, smax; simpl; try tauto.
    intros [_ R]. apply IH in R. intuition. }
  pose proof (is_box_length _ _ B) as Lb.
  assert (RI : Forall (fun c => in_box lo hi (row_lo c) /\ in_box lo hi (row_hi c) /\
                                Forall2 Qle (row_lo c) (fst c) /\ Forall2 Qle (fst c) (row_hi c)) (c0 :: cs)).
  { eapply Forall_impl; [|exact F]. intros [m s] [Bs Bm]. cbn [fst snd] in *. apply rows_in; auto.
    - eapply in_box_nonneg; [exact NN|exact Bs].
    - apply in_box_length in Bs. lia.
    - apply in_box_length in Bs. lia. }
  change (map (fun c => map2 (fun m s => m - 5 * s) (fst c) (snd c)) (c0 :: cs)) with (map row_lo (c0 :: cs)).
  change (map (fun c => map2 (fun m s => m + 5 * s) (fst c) (snd c)) (c0 :: cs)) with (map row_hi (c0 :: cs)).
  cbn [map col_fold bind].
  destruct (Qeq_bool_spec (Qsum raw) 0) as [Z|Z]; [lra|].
  destruct (normalised_weights raw FR SR) as [W1 W2].
  inversion RI as [|? ? (P1 & P2 & P3 & P4) RI']; subst.
  assert (ML : Forall (in_box lo hi) (map row_lo cs)).
  { rewrite Forall_map. eapply Forall_impl; [|exact RI']. intros a (Q1 & Q2 & _); assumption. }
  assert (MH : Forall (in_box lo hi) (map row_hi cs)).
  { rewrite Forall_map. eapply Forall_impl; [|exact RI']. intros a (Q1 & Q2 & _); assumption. }
  destruct (fold_min lo hi _ ML _ P1) as [A1 A2]. destruct (fold_max lo hi _ MH _ P2) as [B1 B2].
  eexists. split; [reflexivity|]. cbn [g_means g_sigmas g_weights g_smin g_smax].
  simpl in L. split; [simpl; rewrite map_length; auto|]. split; [simpl; rewrite map_length; auto|].
  split; [rewrite map_length; lia|]. split.
  { clear - F. change (fst c0 :: map fst cs) with (map fst (c0 :: cs)). change (snd c0 :: map snd cs) with (map snd (c0 :: cs)).
    induction F; simpl; constructor; auto. }
  split; auto. split; auto. split; auto. split; auto.
  change (row_lo c0 :: map row_lo cs) with (map row_lo (c0 :: cs)) in A2.
  change (row_hi c0 :: map row_hi cs) with (map row_hi (c0 :: cs)) in B2.
  rewrite Forall_map in A2, B2.
  change (fst c0 :: map fst cs) with (map fst (c0 :: cs)). rewrite Forall_map.
  rewrite Forall_forall in *. intros c Hc. apply le_in_box.
  - destruct (RI c Hc) as (_ & _ & X & _). eapply le_trans2; [exact (A2 c Hc)|exact X].
  - destruct (RI c Hc) as (_ & _ & _ & X). eapply le_trans2; [exact X|exact (B2 c Hc)].
Qed.

Lemma eggbox lo hi delta sigma : is_box lo hi -> 0 < delta -> 0 <= sigma ->
  exists g, generateEggBoxGMM lo hi delta sigma = Ok g /\
    length (g_means g) = nprod (map2 (fun l h => Z.to_nat (points_along (h - l) delta)) lo hi) /\
    length (g_sigmas g) = length (g_means g) /\ length (g_weights g) = length (g_means g) /\
    Forall (in_box lo hi) (g_means g) /\ (strictly_below lo hi -> NoDup (g_means g)) /\
    Qsum (g_weights g) == 1 /\ Forall (fun w => 0 < w) (g_weights g) /\
    Forall (in_box (g_smin g) (g_smax g)) (g_means g).
Proof.
  intros B D S. unfold generateEggBoxGMM.
  destruct (make_grid_spec lo hi delta B D) as (rows & ds & shape & -> & Hs & _ & _ & Hl & _ & Hb & Hlo & _ & Hn).
  eexists. split; [reflexivity|]. cbn [g_means g_sigmas g_weights g_smin g_smax].
  assert (P : (0 < length rows)%nat) by (destruct rows; [inversion Hlo|simpl; lia]).
  split; [now rewrite Hl, Hs|]. split; [apply map_length|]. split; [apply repeat_length|].
  split; auto. split; auto. split.
  { rewrite Qsum_repeat. pose proof (Qnat_pos _ P). field. lra. }
  split.
  { rewrite Forall_forall. intros w Hw. apply repeat_spec in Hw. subst w. pose proof (Qnat_pos _ P).
    apply Qlt_shift_div_l; lra. }
  eapply Forall_impl; [|exact Hb]. intros x. clear - S.
  revert hi x. induction lo as [|l lo IH]; destruct hi as [|h hi], x as [|a x]; simpl; try tauto.
  intros (H1 & H2 & H3). repeat split; try lra. apply IH; auto.
Qed.

(** the default sigmas have three entries *)
Lemma default_sigma_1d :
  exists g, generateRandomGMM [0] [1] default_sigma_min default_sigma_max [((fun _ => 0), (fun _ => 1#2))] [1] = Ok g /\
    Forall (fun m => length m <> length [0]) (g_means g).
Proof. eexists. split; [vm_compute; reflexivity|]. vm_compute. repeat constructor. discriminate. Qed.

Lemma default_sigma_2d draws raw lo hi : length lo = 2%nat -> length hi = 2%nat -> draws <> [] ->
  generateRandomGMM lo hi default_sigma_min default_sigma_max draws raw = Raise ValueError.
Proof.
  intros L H D. destruct draws as [|[us um] draws]; [congruence|].
  destruct lo as [|a [|b [|]]]; try discriminate. reflexivity.
Qed.

(** without room for ten sigmas the means leave the space *)
Lemma no_room_refuted :
  exists lo hi smin smax draws raw g m,
    is_box lo hi /\ is_box smin smax /\ length smin = length lo /\ Forall (fun a => 0 < a) smin /\
    Forall (fun d => unit_draws (fst d) /\ unit_draws (snd d)) draws /\
    Forall (fun w => 0 <= w) raw /\ 0 < Qsum raw /\
    generateRandomGMM lo hi smin smax draws raw = Ok g /\ In m (g_means g) /\ ~ in_box lo hi m.
Proof.
  exists [0], [1#10], [4#100], [5#100], [((fun _ => 0), (fun _ => 0))], [1].
  do 2 eexists. split; [simpl; lra|]. split; [simpl; lra|]. split; [reflexivity|].
  split; [repeat constructor|]. split.
  { repeat constructor; unfold unit_draws; cbn; intros; lra. }
  split; [repeat constructor; lra|]. split; [simpl; lra|].
  split; [vm_compute; reflexivity|]. split; [left; reflexivity|].
  vm_compute. intros (_ & H & _). apply H. reflexivity.
Qed.

Lemma room_example :
  room [0; -(1)] [1; 1] [1#20; 1#10] /\ is_box [1#25; 0] [1#20; 1#10] /\ Forall (fun a => 0 <= a) [1#25; 0] /\
  [((fun _ => 0), (fun _ => 1#2)); ((fun _ => 1#3), (fun _ => 0))] <> (@nil ((nat -> Q) * (nat -> Q))) /\
  0 < Qsum [1#2; 1#7].
Proof.
  repeat split; simpl; try lra; try discriminate. repeat constructor; lra.
Qed.
