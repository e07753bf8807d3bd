(** The average over the grid of unit draws against the integral, on a segment. *)
From Coquelicot Require Import Coquelicot.
From Coq Require Import List Bool Arith Lia QArith Reals Qreals Lra.
Import ListNotations.
From Verif Require Import Prelude.Py Prelude.QBase Prelude.QFacts Spec.UniformSpec Spec.Box Spec.DrawSpec Spec.IntegralSpec.
Open Scope R_scope.

Lemma lipschitz_cont L F : lipschitz L F -> forall x, continuous F x.
Proof.
  intros H x. assert (Ln : 0 <= L).
  { pose proof (H 1 0) as A. pose proof (Rabs_pos (F 1 - F 0)). rewrite Rminus_0_r, Rabs_R1 in A. lra. }
  apply continuity_pt_filterlim. intros eps E. exists (eps / (L + 1)). split.
  - apply Rdiv_lt_0_compat; lra.
  - intros y (_ & D). unfold dist in *. simpl in *. unfold R_dist in *. apply Rle_lt_trans with (1 := H y x).
    apply Rle_lt_trans with ((L + 1) * Rabs (y - x)); [apply Rmult_le_compat_r; [apply Rabs_pos|lra]|].
    apply Rmult_lt_compat_l with (r := L + 1) in D; [|lra]. replace ((L + 1) * (eps / (L + 1))) with eps in D by (field; lra). exact D.
Qed.
Lemma lipschitz_int L F a b : lipschitz L F -> ex_RInt F a b.
Proof. intros H. apply (@ex_RInt_continuous R_CompleteNormedModule). intros z _. apply (lipschitz_cont L F H). Qed.
Lemma one_cell L F x h : lipschitz L F -> 0 <= h -> Rabs (RInt F x (x + h) - h * F x) <= L * h * h.
Proof.
  intros H Hp. assert (E : h * F x = RInt (fun _ => F x) x (x + h)).
  { rewrite RInt_const. unfold scal. simpl. unfold mult. simpl. ring. }
  rewrite E. assert (D : RInt (fun y => minus (F y) (F x)) x (x + h) = RInt F x (x + h) - RInt (fun _ => F x) x (x + h)).
  { apply (RInt_minus F (fun _ => F x) x (x + h)); [apply (lipschitz_int L F _ _ H)|apply ex_RInt_const]. }
  rewrite <- D.
  replace (L * h * h) with ((x + h - x) * (L * h)) by ring.
  apply (abs_RInt_le_const (fun y => minus (F y) (F x)) x (x + h) (L * h)); [lra| |].
  - apply (@ex_RInt_minus R_NormedModule); [apply (lipschitz_int L F _ _ H)|apply ex_RInt_const].
  - intros t T. unfold minus, plus, opp. simpl. apply Rle_trans with (1 := H t x).
    apply Rmult_le_compat_l; [|rewrite Rabs_right; lra].
    pose proof (H 1 0) as A. pose proof (Rabs_pos (F 1 - F 0)). rewrite Rminus_0_r, Rabs_R1 in A. lra.
Qed.
Fixpoint left_sum (F : R -> R) (a h : R) (k : nat) : R :=
  match k with O => 0 | S j => left_sum F a h j + h * F (a + INR j * h) end.
Lemma left_sum_near L F a h : lipschitz L F -> 0 <= h -> forall k, Rabs (RInt F a (a + INR k * h) - left_sum F a h k) <= INR k * (L * h * h).
Proof.
  intros H Hp. induction k as [|k IH].
  - simpl. rewrite Rmult_0_l, Rplus_0_r, RInt_point. unfold zero. simpl. rewrite Rminus_0_r, Rabs_R0. lra.
  - cbn [left_sum]. replace (a + INR (S k) * h) with (a + INR k * h + h) by (rewrite S_INR; ring). set (m := a + INR k * h) in *.
    assert (C : RInt F a (m + h) = RInt F a m + RInt F m (m + h)).
    { symmetry. apply (RInt_Chasles F a m (m + h)); apply (lipschitz_int L F _ _ H). }
    rewrite C, S_INR. pose proof (one_cell L F m h H Hp) as O.
    replace (RInt F a m + RInt F m (m + h) - (left_sum F a h k + h * F m)) with ((RInt F a m - left_sum F a h k) + (RInt F m (m + h) - h * F m)) by ring.
    apply Rle_trans with (1 := Rabs_triang _ _). lra.
Qed.

Lemma Q2R_Qnat k : Q2R (Qnat k) = INR k.
Proof. unfold Qnat, Q2R. simpl. rewrite INR_IZR_INZ. field. Qed.
Lemma segment_grid (G : nat) a b : box_grid G [a] [b] = map (fun u => [(a + (b - a) * u)%Q]) (unit_grid G).
Proof. cbn [box_grid]. induction (unit_grid G) as [|u l IH]; [reflexivity|]. simpl in *. rewrite IH. reflexivity. Qed.
(** On a segment: volume times average over the grid is within L (b-a)^2 / G of the integral. *)
Lemma segment_near (prob : list Q -> Q) F L (a b : Q) G : (a <= b)%Q -> (0 < G)%nat -> lipschitz L F -> (forall x, Q2R (prob [x]) = F (Q2R x)) ->
  Rabs (RInt F (Q2R a) (Q2R b) - Q2R (volume [a] [b] * average (box_grid G [a] [b]) prob)%Q) <= L * (Q2R b - Q2R a) * (Q2R b - Q2R a) / INR G.
Proof.
  intros B Gp H E. assert (Gr : 0 < INR G) by (apply lt_0_INR; auto). apply Qle_Rle in B.
  set (h := (Q2R b - Q2R a) / INR G). assert (Hp : 0 <= h) by (apply Rmult_le_pos; [lra|left; apply Rinv_0_lt_compat; lra]).
  assert (Gq : ~ (Qnat G == 0)%Q).
  { intros Z. apply Qeq_eqR in Z. rewrite Q2R_Qnat in Z. unfold Q2R in Z at 1. simpl in Z. lra. }
  assert (S : Q2R (volume [a] [b] * average (box_grid G [a] [b]) prob)%Q = left_sum F (Q2R a) h G).
  { rewrite Q2R_mult. unfold average. rewrite Q2R_div by (rewrite segment_grid, map_length; unfold unit_grid; rewrite map_length, seq_length; exact Gq).
    rewrite segment_grid, map_length, map_map. unfold unit_grid. rewrite map_length, seq_length, map_map, Q2R_Qnat.
    assert (V : Q2R (volume [a] [b]) = Q2R b - Q2R a).
    { rewrite <- Q2R_minus. apply Qeq_eqR. simpl. ring. }
    rewrite V.
    assert (T : forall k, Q2R (Qsum (map (fun i => prob [(a + (b - a) * (Qnat i / Qnat G))%Q]) (seq 0 k))) * h = left_sum F (Q2R a) h k).
    { induction k as [|k IH].
      - simpl. unfold Q2R. simpl. ring.
      - rewrite seq_S, map_app. cbn [left_sum map]. rewrite <- IH.
        rewrite (Qeq_eqR _ _ (Qsum_app _ _)), Q2R_plus. cbn [Qsum fold_right]. rewrite Q2R_plus. rewrite E, Q2R_plus, Q2R_mult, Q2R_minus.
        rewrite Q2R_div by exact Gq. rewrite !Q2R_Qnat. simpl (0 + k)%nat.
        replace (Q2R a + (Q2R b - Q2R a) * (INR k / INR G)) with (Q2R a + INR k * h) by (unfold h; field; lra).
        replace (Q2R 0) with 0 by (unfold Q2R; simpl; ring). ring. }
    rewrite <- T. unfold h. field. lra. }
  rewrite S. pose proof (left_sum_near L F (Q2R a) h H Hp G) as N.
  replace (Q2R a + INR G * h) with (Q2R b) in N by (unfold h; field; lra). apply Rle_trans with (1 := N).
  right. unfold h. field. lra.
Qed.
