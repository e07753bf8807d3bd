(** The law of the Monte-Carlo integral of the base class. *)
From Coq Require Import List Bool Arith Lia QArith Lqa.
Import ListNotations.
From Verif Require Import Prelude.Py Prelude.QBase Prelude.QFacts Model.DistBase Spec.Box Spec.UniformSpec Spec.UnbiasedSpec Spec.DrawSpec
  Proofs.PopulationUnbiased Proofs.IndepLaw Properties.IntegralProps.
Open Scope Q_scope.

(** A downward closed test passes exactly an initial piece. *)
Lemma initial_piece (f : nat -> bool) : (forall k, f (S k) = true -> f k = true) ->
  forall G, let c := length (filter f (seq 0 G)) in (forall k, (k < c)%nat -> f k = true) /\ (c = G \/ ((c < G)%nat /\ f c = false)).
Proof.
  intros D. induction G as [|G IH]; [simpl; split; [lia|auto]|].
  cbv zeta in *. rewrite seq_S, filter_app, app_length. simpl. destruct IH as (A & B). set (c := length (filter f (seq 0 G))) in *.
  destruct (f G) eqn:E; simpl.
  - assert (C : c = G).
    { destruct B as [B|(B1 & B2)]; auto. exfalso.
      assert (Dn : forall j k, f (j + k)%nat = true -> f k = true).
      { intros j. induction j as [|j IH]; intros k H; auto. }
      assert (f c = true); [|congruence]. apply (Dn (G - c)%nat). replace (G - c + c)%nat with G by lia. auto. }
    rewrite C, Nat.add_1_r in *. split; auto. intros k K. destruct (Nat.eq_dec k G) as [->|Ne]; auto. apply A. lia.
  - rewrite Nat.add_0_r. split; auto. destruct B as [B|(B1 & B2)]; right.
    + rewrite B. auto.
    + split; auto.
Qed.

Definition hit (h p u : Q) : Q := if Qle_bool (h * u) p then 1 else 0.
Lemma Qnat_lt a b : Qnat a < Qnat b -> (a < b)%nat.
Proof.
  intros H. destruct (lt_dec a b) as [L|L]; auto. exfalso. assert (Qnat b <= Qnat a); [|lra].
  unfold Qnat. rewrite <- Zle_Qle. lia.
Qed.
(** The chance of a hit is p / h up to one cell of the generator. *)
Lemma hit_chance G h p : (0 < G)%nat -> 0 < h -> 0 <= p <= h ->
  p <= h * average (unit_grid G) (hit h p) /\ h * average (unit_grid G) (hit h p) <= p + h / Qnat G.
Proof.
  intros Gp Hp B. assert (Gq : 0 < Qnat G) by (apply Qnat_pos; auto).
  set (f := fun k => Qle_bool (h * (Qnat k / Qnat G)) p).
  assert (Ft : forall k, f k = true <-> h * Qnat k <= p * Qnat G).
  { intros k. unfold f. rewrite Qle_bool_iff. assert (E : h * (Qnat k / Qnat G) == h * Qnat k / Qnat G) by (field; lra). rewrite E. split; intros H.
    - apply Qmult_le_compat_r with (z := Qnat G) in H; [|lra]. assert (E2 : h * Qnat k / Qnat G * Qnat G == h * Qnat k) by (field; lra). lra.
    - apply Qle_shift_div_r; lra. }
  assert (D : forall k, f (S k) = true -> f k = true).
  { intros k. rewrite !Ft. rewrite Qnat_S. intros. nra. }
  destruct (initial_piece f D G) as (A & C). set (c := length (filter f (seq 0 G))) in *.
  assert (Av : average (unit_grid G) (hit h p) == Qnat c / Qnat G).
  { unfold average, unit_grid. rewrite map_length, seq_length, map_map.
    assert (E : Qsum (map (fun k => hit h p (Qnat k / Qnat G)) (seq 0 G)) == Qnat c); [|rewrite E; reflexivity].
    unfold c. generalize (seq 0 G). intros l. induction l as [|k l IH]; [reflexivity|]. cbn [map Qsum fold_right filter]. fold (f k).
    change (fold_right Qplus 0 (map (fun k => hit h p (Qnat k / Qnat G)) l)) with (Qsum (map (fun k => hit h p (Qnat k / Qnat G)) l)).
    rewrite IH. unfold hit. fold (f k). destruct (f k); cbn [length]; [rewrite Qnat_S|]; ring. }
  rewrite Av. assert (E : h * (Qnat c / Qnat G) == h * Qnat c / Qnat G) by (field; lra). rewrite E. split.
  - apply Qle_shift_div_l; auto. destruct C as [->|(C1 & C2)]; [nra|].
    assert (~ h * Qnat c <= p * Qnat G) by (rewrite <- Ft; congruence). lra.
  - apply Qle_shift_div_r; auto. assert (E2 : (p + h / Qnat G) * Qnat G == p * Qnat G + h) by (field; lra). rewrite E2.
    assert (c = 0 \/ 0 < c)%nat as [->|Cp] by lia.
    + change (Qnat 0) with 0. nra.
    + assert (F : f (c - 1)%nat = true) by (apply A; lia). apply Ft in F.
      assert (Ec : Qnat c == Qnat (c - 1) + 1) by (rewrite <- Qnat_S; replace (S (c - 1)) with c by lia; reflexivity). rewrite Ec. lra.
Qed.
Lemma unit_grid_ne G : (0 < G)%nat -> unit_grid G <> [].
Proof. destruct G; [lia|]. discriminate. Qed.

Section Estimate.
Variables (prob : vec -> Q) (a b : vec) (G : nat).
Hypotheses (Bx : is_box a b) (Gp : (0 < G)%nat).
Let V := volume a b.
Definition estimate_of (xs : list vec) (us : list Q) : Q :=
  match mc_integral prob a b xs (fun i => nth i us 0) with Ok r => r | Raise _ => 0 end.
Definition unit_draws (n : nat) : list (list (Q * Q)) := repeat (equally (unit_grid G)) n.

Lemma hits_total h : forall ps us, length us = length ps ->
  Qnat (length (filter (fun pu => Qle_bool (h * snd pu) (fst pu)) (combine ps us))) == total (map (hit h) ps) us.
Proof.
  induction ps as [|p ps IH]; intros [|u us] L; try discriminate; [reflexivity|]. cbn [combine filter map total fst snd]. unfold hit at 1.
  destruct (Qle_bool (h * u) p); cbn [length]; [rewrite Qnat_S|]; rewrite IH by (simpl in L; lia); ring.
Qed.
Lemma nth_all (us : list Q) n : length us = n -> map (fun i => nth i us 0) (seq 0 n) = us.
Proof.
  intros <-. induction us as [|u us IH]; [reflexivity|]. cbn [length seq map nth]. f_equal. rewrite <- seq_shift, map_map. exact IH.
Qed.
Lemma total_scal {X} s (gs : list (X -> Q)) : forall xs, total (map (fun g x => s * g x) gs) xs == s * total gs xs.
Proof. induction gs as [|g gs IH]; intros [|x xs]; cbn [map total]; try ring. rewrite IH. ring. Qed.

(** One factor per sample: volume * height / count * hit. *)
Definition factor (h : Q) (n : nat) : Q := V * h / Qnat n.
Lemma estimate_total xs : xs <> [] -> exists h, np_max (map prob xs) = Ok h /\ In h (map prob xs) /\ (forall x, In x xs -> prob x <= h) /\
  forall us, length us = length xs -> estimate_of xs us == total (map (fun p u => factor h (length xs) * hit h p u) (map prob xs)) us.
Proof.
  intros N. destruct (np_max_spec (map prob xs)) as (h & E & I & Mx).
  { destruct xs; [congruence|discriminate]. }
  exists h. split; [auto|]. split; [auto|]. split.
  { intros x X. apply Mx, in_map, X. }
  intros us L. unfold estimate_of, mc_integral. rewrite E. cbn [bind]. rewrite nth_all by auto.
  rewrite hits_total by (rewrite map_length; auto). destruct (volume_sides a b Bx) as (Vs & _). rewrite Vs. fold V.
  rewrite <- (map_map (hit h) (fun g u => factor h (length xs) * g u)), total_scal. unfold factor.
  assert (0 < Qnat (length xs)) by (apply Qnat_pos; destruct xs; simpl; [congruence|lia]). field. lra.
Qed.
Lemma V_nonneg : 0 <= V.
Proof. apply (volume_sides a b Bx). Qed.

Lemma units_ok n l : In l (unit_draws n) -> law_ok l.
Proof. intros I. apply repeat_spec in I. subst. apply equally_ok, unit_grid_ne, Gp. Qed.

(** Mean of the factors of one sample, between p and p + h / G, times volume over count. *)
Lemma factor_mean h n p : (0 < n)%nat -> 0 <= p <= h ->
  V * p / Qnat n <= mean1 (equally (unit_grid G)) (fun u => factor h n * hit h p u) /\
  mean1 (equally (unit_grid G)) (fun u => factor h n * hit h p u) <= V * (p + h / Qnat G) / Qnat n.
Proof.
  intros Np B. rewrite mean1_scal, mean1_equally by (apply unit_grid_ne, Gp).
  assert (Nq : 0 < Qnat n) by (apply Qnat_pos; auto). pose proof V_nonneg as Vn. set (av := average (unit_grid G) (hit h p)).
  assert (E : factor h n * av == V * (h * av) / Qnat n) by (unfold factor; field; lra). rewrite E.
  assert (K : forall x y, x <= y -> V * x / Qnat n <= V * y / Qnat n).
  { intros x y L. apply Qle_shift_div_l; auto. assert (E2 : V * x / Qnat n * Qnat n == V * x) by (field; lra). rewrite E2. nra. }
  destruct (Qlt_le_dec 0 h) as [Hp|Hz].
  - destruct (hit_chance G h p Gp Hp B) as (A & C). split; apply K; auto.
  - assert (h == 0) by lra. assert (p == 0) by lra. assert (Gq : 0 < Qnat G) by (apply Qnat_pos; auto).
    assert (E3 : h * av == 0) by (rewrite H; ring). assert (E4 : h / Qnat G == 0) by (rewrite H; field; lra).
    split; apply K; lra.
Qed.
Lemma means_factors h n : (0 < n)%nat -> forall ps, (forall p, In p ps -> 0 <= p <= h) ->
  V * Qsum ps / Qnat n <= means (unit_draws (length ps)) (map (fun p u => factor h n * hit h p u) ps) /\
  means (unit_draws (length ps)) (map (fun p u => factor h n * hit h p u) ps) <= V * (Qsum ps + Qnat (length ps) * (h / Qnat G)) / Qnat n.
Proof.
  intros Np. assert (Nq : 0 < Qnat n) by (apply Qnat_pos; auto).
  induction ps as [|p ps IH]; intros B; cbn [length unit_draws repeat map means].
  - assert (E : V * (Qsum [] + Qnat 0 * (h / Qnat G)) / Qnat n == 0) by (change (Qnat 0) with 0; simpl; pose proof (Qnat_pos G Gp); field; split; lra).
    assert (E2 : V * Qsum [] / Qnat n == 0) by (simpl; field; lra). rewrite E, E2. split; apply Qle_refl.
  - destruct IH as (A & C); [intros; apply B; right; auto|]. destruct (factor_mean h n p Np) as (D & F); [apply B; left; auto|].
    unfold unit_draws in A, C.
    assert (E : V * Qsum (p :: ps) / Qnat n == V * p / Qnat n + V * Qsum ps / Qnat n) by (simpl; field; lra).
    assert (E2 : V * (Qsum (p :: ps) + Qnat (S (length ps)) * (h / Qnat G)) / Qnat n ==
                 V * (p + h / Qnat G) / Qnat n + V * (Qsum ps + Qnat (length ps) * (h / Qnat G)) / Qnat n).
    { rewrite Qnat_S. simpl. pose proof (Qnat_pos G Gp). field. split; lra. }
    rewrite E, E2. split; lra.
Qed.
Lemma vars_factors h n : 0 <= h -> (0 < n)%nat -> forall ps,
  vars (unit_draws (length ps)) (map (fun p u => factor h n * hit h p u) ps) <= Qnat (length ps) * (factor h n * factor h n / 4).
Proof.
  intros Hn Np. assert (Fn : 0 <= factor h n).
  { unfold factor. apply Qle_shift_div_l; [apply Qnat_pos; auto|]. rewrite Qmult_0_l. apply Qmult_le_0_compat; [apply V_nonneg|auto]. }
  induction ps as [|p ps IH]; cbn [length unit_draws repeat map vars].
  - change (Qnat 0) with 0. rewrite Qmult_0_l. apply Qle_refl.
  - unfold unit_draws in IH. rewrite Qnat_S.
    assert (var1 (equally (unit_grid G)) (fun u => factor h n * hit h p u) <= factor h n * factor h n / 4); [|lra].
    apply var1_bound; [apply equally_ok, unit_grid_ne, Gp|]. intros m u _. unfold hit. destruct (Qle_bool (h * u) p); lra.
Qed.

(** The mean over the heights, for given points. *)
Lemma heights_mean xs M : xs <> [] -> (forall x, In x xs -> 0 <= prob x <= M) ->
  V * average xs prob <= expect_each (unit_draws (length xs)) (estimate_of xs) /\
  expect_each (unit_draws (length xs)) (estimate_of xs) <= V * average xs prob + V * M / Qnat G.
Proof.
  intros N B. destruct (estimate_total xs N) as (h & _ & Ih & Hh & E).
  assert (Np : (0 < length xs)%nat) by (destruct xs; simpl; [congruence|lia]). assert (Nq := Qnat_pos _ Np). assert (Gq := Qnat_pos _ Gp).
  apply in_map_iff in Ih. destruct Ih as (x & Ex & Ix). pose proof (B x Ix) as Bh. rewrite Ex in Bh.
  rewrite (expect_ext _ _ (total (map (fun p u => factor h (length xs) * hit h p u) (map prob xs)))).
  2:{ intros us L. apply E. unfold unit_draws in L. rewrite repeat_length in L. auto. }
  rewrite expect_mean; [|unfold unit_draws; rewrite !map_length, repeat_length; auto|intros l I; apply (units_ok _ _ I)].
  destruct (means_factors h (length xs) Np (map prob xs)) as (A & C).
  { intros p P. apply in_map_iff in P. destruct P as (y & <- & Y). split; [apply B|apply Hh]; auto. }
  rewrite map_length in A, C. unfold average.
  assert (E1 : V * (Qsum (map prob xs) / Qnat (length xs)) == V * Qsum (map prob xs) / Qnat (length xs)) by (field; lra).
  assert (E2 : V * (Qsum (map prob xs) + Qnat (length xs) * (h / Qnat G)) / Qnat (length xs) == V * Qsum (map prob xs) / Qnat (length xs) + V * h / Qnat G).
  { field. split; lra. }
  assert (V * h / Qnat G <= V * M / Qnat G).
  { apply Qle_shift_div_l; auto. assert (E3 : V * h / Qnat G * Qnat G == V * h) by (field; lra). rewrite E3. pose proof V_nonneg. nra. }
  rewrite E1. split; lra.
Qed.
(** The mean square about k over the heights, for given points. *)
Lemma heights_square xs M k : xs <> [] -> (forall x, In x xs -> 0 <= prob x <= M) ->
  expect_each (unit_draws (length xs)) (fun us => sq (estimate_of xs us - k)) <=
  V * V * (M * M) / (4 * Qnat (length xs)) + (2 * sq (V * average xs prob - k) + 2 * sq (V * M / Qnat G)).
Proof.
  intros N B. destruct (estimate_total xs N) as (h & _ & Ih & Hh & E).
  assert (Np : (0 < length xs)%nat) by (destruct xs; simpl; [congruence|lia]). assert (Nq := Qnat_pos _ Np). assert (Gq := Qnat_pos _ Gp).
  apply in_map_iff in Ih. destruct Ih as (x & Ex & Ix). pose proof (B x Ix) as Bh. rewrite Ex in Bh. pose proof V_nonneg as Vn.
  pose proof (heights_mean xs M N B) as Hm.
  rewrite (expect_ext _ (estimate_of xs) (total (map (fun p u => factor h (length xs) * hit h p u) (map prob xs)))) in Hm.
  2:{ intros us L. apply E. unfold unit_draws in L. rewrite repeat_length in L. auto. }
  rewrite expect_mean in Hm; [|unfold unit_draws; rewrite !map_length, repeat_length; auto|intros l I; apply (units_ok _ _ I)].
  rewrite (expect_ext _ _ (fun us => sq (total (map (fun p u => factor h (length xs) * hit h p u) (map prob xs)) us - k))).
  2:{ intros us L. rewrite E; [reflexivity|]. unfold unit_draws in L. rewrite repeat_length in L. auto. }
  rewrite expect_square; [|unfold unit_draws; rewrite !map_length, repeat_length; auto|intros l I; apply (units_ok _ _ I)].
  set (mm := means _ _) in *. set (A := V * average xs prob) in *. set (d := V * M / Qnat G) in *.
  apply Qplus_le_compat.
  - pose proof (vars_factors h (length xs) (proj1 Bh) Np (map prob xs)) as Vb. rewrite map_length in Vb. apply Qle_trans with (1 := Vb).
    unfold factor.
    assert (E1 : Qnat (length xs) * (V * h / Qnat (length xs) * (V * h / Qnat (length xs)) / 4) == V * V * (h * h) / (4 * Qnat (length xs))) by (field; lra).
    rewrite E1. apply Qle_shift_div_l; [lra|].
    assert (E2 : V * V * (h * h) / (4 * Qnat (length xs)) * (4 * Qnat (length xs)) == V * V * (h * h)) by (field; lra). rewrite E2.
    assert (h * h <= M * M) by nra. assert (0 <= V * V) by nra. nra.
  - assert (D0 : 0 <= mm - A <= d) by lra. unfold sq.
    assert (E3 : (mm - k) * (mm - k) == 2 * ((A - k) * (A - k)) + 2 * ((mm - A) * (mm - A)) - (mm - A - (A - k)) * (mm - A - (A - k))) by ring.
    rewrite E3. pose proof (sq_nonneg (mm - A - (A - k))) as S1. unfold sq in S1.
    assert ((mm - A) * (mm - A) <= d * d) by nra. lra.
Qed.

Section Points.
Variables (pts : list vec) (n : nat) (M : Q).
Hypotheses (Np : (0 < n)%nat) (Pn : pts <> []) (Pb : forall x, In x pts -> 0 <= prob x <= M).
Definition point_draws : list (list (Q * vec)) := repeat (equally pts) n.
(** Mean over n independent points and n independent heights. *)
Definition mean_over (f : list vec -> list Q -> Q) : Q :=
  expect_each point_draws (fun xs => expect_each (unit_draws n) (f xs)).
Lemma points_ok l : In l point_draws -> law_ok l.
Proof. intros I. apply repeat_spec in I. subst. apply equally_ok, Pn. Qed.
Lemma points_drawn xs : drawn point_draws xs -> length xs = n /\ xs <> [] /\ forall x, In x xs -> In x pts.
Proof.
  unfold point_draws. rewrite drawn_repeat. intros (L & I). split; auto. split.
  - intros ->. simpl in L. lia.
  - intros x X. destruct (I x X) as (m & Im). apply (equally_in _ _ _ Im).
Qed.
Lemma average_total xs : length xs = n -> V * average xs prob == total (repeat (fun x => V / Qnat n * prob x) n) xs.
Proof.
  intros L. rewrite total_repeat by auto. rewrite Qsum_scal. unfold average. rewrite L. field. pose proof (Qnat_pos n Np). lra.
Qed.
Let Nq := Qnat_pos n Np.
Lemma mean_average : expect_each point_draws (fun xs => V * average xs prob) == V * average pts prob.
Proof.
  rewrite (expect_ext _ _ (total (repeat (fun x => V / Qnat n * prob x) n))).
  2:{ intros xs L. apply average_total. unfold point_draws in L. rewrite repeat_length in L. auto. }
  rewrite expect_mean; [|unfold point_draws; rewrite !repeat_length; auto|intros l I; apply (points_ok _ I)].
  unfold point_draws. rewrite means_repeat, mean1_scal, mean1_equally by auto. field. lra.
Qed.
Lemma square_average : expect_each point_draws (fun xs => sq (V * average xs prob - V * average pts prob)) <= V * V * (M * M) / (4 * Qnat n).
Proof.
  pose proof V_nonneg as Vn. pose proof mean_average as Ma.
  rewrite (expect_ext _ _ (total (repeat (fun x => V / Qnat n * prob x) n))) in Ma.
  2:{ intros xs L. apply average_total. unfold point_draws in L. rewrite repeat_length in L. auto. }
  rewrite expect_mean in Ma; [|unfold point_draws; rewrite !repeat_length; auto|intros l I; apply (points_ok _ I)].
  rewrite (expect_ext _ _ (fun xs => sq (total (repeat (fun x => V / Qnat n * prob x) n) xs - V * average pts prob))).
  2:{ intros xs L. rewrite average_total; [reflexivity|]. unfold point_draws in L. rewrite repeat_length in L. auto. }
  rewrite expect_square; [|unfold point_draws; rewrite !repeat_length; auto|intros l I; apply (points_ok _ I)].
  rewrite Ma. unfold point_draws. rewrite vars_repeat.
  assert (Vb : var1 (equally pts) (fun x => V / Qnat n * prob x) <= (V / Qnat n * M) * (V / Qnat n * M) / 4).
  { apply var1_bound; [apply equally_ok, Pn|]. intros m x I. specialize (Pb x (equally_in _ _ _ I)).
    assert (0 <= V / Qnat n) by (apply Qle_shift_div_l; lra). split; nra. }
  assert (E : V * V * (M * M) / (4 * Qnat n) == Qnat n * ((V / Qnat n * M) * (V / Qnat n * M) / 4)) by (field; lra). rewrite E.
  assert (E2 : sq (V * average pts prob - V * average pts prob) == 0) by (unfold sq; ring). rewrite E2. nra.
Qed.

Lemma estimate_mean : V * average pts prob <= mean_over estimate_of /\ mean_over estimate_of <= V * average pts prob + V * M / Qnat G.
Proof.
  unfold mean_over. split.
  - rewrite <- mean_average. apply expect_le; [apply points_ok|]. intros xs D. destruct (points_drawn _ D) as (L & Ne & I).
    rewrite <- L. apply (heights_mean xs M Ne). intros x X. apply Pb, I, X.
  - rewrite <- mean_average. rewrite <- (expect_const_ok point_draws (V * M / Qnat G)) by apply points_ok. rewrite <- expect_plus.
    apply expect_le; [apply points_ok|]. intros xs D. destruct (points_drawn _ D) as (L & Ne & I).
    rewrite <- L. apply (heights_mean xs M Ne). intros x X. apply Pb, I, X.
Qed.
Lemma estimate_square : mean_over (fun xs us => sq (estimate_of xs us - V * average pts prob)) <= V * V * (M * M) * (3 / (4 * Qnat n) + 2 / (Qnat G * Qnat G)).
Proof.
  unfold mean_over. set (I := V * average pts prob). assert (Gq := Qnat_pos _ Gp).
  apply Qle_trans with (expect_each point_draws (fun xs => (V * V * (M * M) / (4 * Qnat n) + 2 * sq (V * M / Qnat G)) + 2 * sq (V * average xs prob - I))).
  - apply expect_le; [apply points_ok|]. intros xs D. destruct (points_drawn _ D) as (L & Ne & Ip).
    pose proof (heights_square xs M I Ne) as H. rewrite L in H. specialize (H (fun x X => Pb x (Ip x X))). lra.
  - rewrite expect_plus, expect_const_ok, expect_scal by apply points_ok. pose proof square_average as S. fold I in S.
    assert (E : V * V * (M * M) * (3 / (4 * Qnat n) + 2 / (Qnat G * Qnat G)) ==
                V * V * (M * M) / (4 * Qnat n) + 2 * sq (V * M / Qnat G) + 2 * (V * V * (M * M) / (4 * Qnat n))) by (unfold sq; field; split; lra).
    rewrite E. lra.
Qed.
End Points.
End Estimate.
