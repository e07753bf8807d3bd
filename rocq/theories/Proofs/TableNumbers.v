(** The fixed point conversion: shape, length, and what is read back. *)
From Coq Require Import List Bool Arith NArith ZArith Lia QArith Qround Qabs Qfield Lqa Ascii String.
Import ListNotations.
From Verif Require Import Prelude.Py Prelude.QBase Prelude.QFacts Model.TableFormat Spec.TableSpec Proofs.TableText.
Open Scope string_scope.

Definition QN (n : N) : Q := inject_Z (Z.of_N n).

Lemma QN_add : forall a b, QN (a + b) == QN a + QN b.
Proof. intros. unfold QN. rewrite N2Z.inj_add, inject_Z_plus. reflexivity. Qed.
Lemma QN_mul : forall a b, QN (a * b) == QN a * QN b.
Proof. intros. unfold QN. rewrite N2Z.inj_mul, inject_Z_mult. reflexivity. Qed.
Lemma QN_pow_pos : forall p, 0 < QN (10 ^ p).
Proof.
  intros. unfold QN. replace 0 with (inject_Z 0) by reflexivity. rewrite <- Zlt_Qlt.
  assert (10 ^ p <> 0)%N by (apply N.pow_nonzero; discriminate). lia.
Qed.

Lemma round_even_near : forall x, 0 <= x -> - (1 # 2) <= QN (round_even x) - x <= 1 # 2.
Proof.
  intros x H. unfold round_even.
  pose proof (Qfloor_le x) as L. pose proof (Qlt_floor x) as U.
  rewrite inject_Z_plus in U. change (inject_Z 1) with 1 in U.
  assert (F : (0 <= Qfloor x)%Z).
  { change 0%Z with (Qfloor 0). now apply Qfloor_resp_le. }
  assert (G : forall b : bool, QN (Z.to_N (if b then Qfloor x + 1 else Qfloor x)%Z) == inject_Z (Qfloor x) + (if b then 1 else 0)).
  { intros [|]; unfold QN; rewrite Z2N.id by lia; [rewrite inject_Z_plus; reflexivity | rewrite Qplus_0_r; reflexivity]. }
  rewrite G. set (f := inject_Z (Qfloor x)) in *.
  destruct (Qcompare (x - f) (1 # 2)) eqn:E.
  - apply Qeq_alt in E. destruct (Z.odd (Qfloor x)); split; lra.
  - apply Qlt_alt in E. split; lra.
  - apply Qgt_alt in E. split; lra.
Qed.

Lemma fixed_nonempty : forall p v, fixed p v <> "".
Proof.
  intros p [q| | |]; try discriminate. unfold fixed. destruct (Qltb q 0); simpl; [discriminate|].
  intros E. match type of E with ?a ++ _ = "" => destruct a eqn:D end; [exact (dec_nonempty _ D)|discriminate].
Qed.

Lemma free_padl0 : forall p w n, nodigit p -> p "0"%char = false -> free p (padl "0" w (dec n)) = true.
Proof. intros. unfold padl. rewrite free_app, free_rep by assumption. now apply free_dec. Qed.

Lemma fixed_free : forall sep p v, nodigit sep -> sep "0"%char = false -> sep "-"%char = false -> sep "."%char = false ->
  free sep "nan" = true -> free sep "inf" = true -> free sep (fixed p v) = true.
Proof.
  intros sep p [q| | |] N Z M P A I; try assumption.
  - unfold fixed. rewrite !free_app. rewrite free_dec by assumption. rewrite free_padl0 by assumption.
    cbn [free]. rewrite P. destruct (Qltb q 0); cbn [free]; rewrite ?M; reflexivity.
  - change (fixed p NInf) with (String "-" "inf"). cbn [free] in *. rewrite M. exact I.
Qed.

Lemma fixed_free_space : forall p v, free is_space (fixed p v) = true.
Proof. intros. apply fixed_free; try reflexivity. exact nd_space. Qed.
Lemma fixed_free_newline : forall p v, free is_newline (fixed p v) = true.
Proof. intros. apply fixed_free; try reflexivity. exact nd_newline. Qed.

Lemma first_char_dec : forall n t, dec n <> String "-" t.
Proof.
  intros n t E. pose proof (free_dec _ n nd_minus) as F. rewrite E in F. discriminate F.
Qed.

Lemma frac_length : forall p n, (1 <= p)%nat -> String.length (padl "0" p (dec (n mod 10 ^ N.of_nat p))) = p.
Proof.
  intros p n P. rewrite padl_length. apply Nat.max_l. apply dec_length; [|exact P].
  apply N.mod_lt. apply N.pow_nonzero. discriminate.
Qed.

Lemma read_abs_body : forall p n, (1 <= p)%nat ->
  exists r, read_abs (dec (n / 10 ^ N.of_nat p) ++ "." ++ padl "0" p (dec (n mod 10 ^ N.of_nat p))) = Some r /\
            r * QN (10 ^ N.of_nat p) == QN n.
Proof.
  intros p n P. set (s := (10 ^ N.of_nat p)%N).
  assert (S0 : s <> 0%N) by (apply N.pow_nonzero; discriminate).
  unfold read_abs. change ("." ++ padl "0" p (dec (n mod s))) with (String "." (padl "0" p (dec (n mod s)))).
  rewrite split_sep by reflexivity.
  rewrite split_free by (apply free_dec; exact nd_point).
  rewrite split_free by (apply free_padl0; [exact nd_point | reflexivity]).
  cbn [app]. rewrite read_dec, read_padded. eexists. split; [reflexivity|].
  unfold s at 3. rewrite frac_length by assumption. fold s. fold (QN s) (QN (n / s)) (QN (n mod s)).
  assert (0 < QN s) by apply QN_pow_pos.
  assert (D : QN n == QN s * QN (n / s) + QN (n mod s)).
  { rewrite <- QN_mul, <- QN_add. rewrite <- N.div_mod by assumption. reflexivity. }
  rewrite D. field. intros Z. rewrite Z in H. discriminate H.
Qed.

Theorem fixed_shows : forall p q, (1 <= p)%nat -> shows p (fixed p (Fin q)) q.
Proof.
  intros p q P. unfold shows, fixed. set (s := (10 ^ N.of_nat p)%N).
  set (n := round_even (Qabs q * inject_Z (Z.of_N s))).
  destruct (read_abs_body p n P) as (r & R & E). fold s in R, E |- *.
  assert (Sp : 0 < QN s) by apply QN_pow_pos.
  assert (B : - (1 # 2) <= r * QN s - Qabs q * QN s <= 1 # 2).
  { rewrite E. apply round_even_near. apply Qmult_le_0_compat; [apply Qabs_nonneg | now apply Qlt_le_weak]. }
  assert (B' : - (1 # 2) / QN s <= r - Qabs q <= (1 # 2) / QN s).
  { split; [apply Qle_shift_div_r | apply Qle_shift_div_l]; try assumption; lra. }
  fold (QN s).
  assert (HR : read_fixed (dec (n / s) ++ "." ++ padl "0" p (dec (n mod s))) = Some r).
  { rewrite <- R. unfold read_fixed.
    destruct (dec (n / s)) as [|c t] eqn:D; [exfalso; exact (dec_nonempty _ D)|]. cbn [append].
    destruct c as [[|] [|] [|] [|] [|] [|] [|] [|]]; try reflexivity.
    exfalso. exact (first_char_dec _ _ D). }
  destruct (Qltb q 0) eqn:G.
  - apply Qltb_true in G. rewrite Qabs_neg in B' by lra. exists (- r). split.
    + change (read_fixed (String "-" (dec (n / s) ++ "." ++ padl "0" p (dec (n mod s)))) = Some (- r)).
      cbv beta iota delta [read_fixed]. rewrite R. reflexivity.
    + assert (I : - (1 # 2) / QN s == - ((1 # 2) / QN s)) by (field; lra).
      rewrite I in *. lra.
  - apply Qltb_false in G. rewrite Qabs_pos in B' by assumption. exists r. split; [exact HR|]. exact B'.
Qed.

Lemma fixed_length : forall p q d, (1 <= p)%nat -> (1 <= d)%nat ->
  (round_even (Qabs q * QN (10 ^ N.of_nat p)) / 10 ^ N.of_nat p < 10 ^ N.of_nat d)%N ->
  (String.length (fixed p (Fin q)) <= (if Qltb q 0 then 1 else 0) + d + 1 + p)%nat.
Proof.
  intros p q d P D H. unfold fixed. rewrite !len_app.
  rewrite frac_length by assumption. unfold QN in H.
  pose proof (dec_length _ d H D). destruct (Qltb q 0); simpl String.length in *; lia.
Qed.

Lemma QN_lt : forall a b, QN a < QN b -> (a < b)%N.
Proof. intros a b H. unfold QN in H. rewrite <- Zlt_Qlt in H. lia. Qed.

(** Values from -999 to 9999 take at most eight characters with three decimals. *)
Lemma short3 : forall q, -999 <= q -> q <= 9999 -> (String.length (fixed 3 (Fin q)) < 9)%nat.
Proof.
  intros q L U.
  assert (K : forall m d, Qabs q <= m -> m * 1000 + 1 < QN (10 ^ N.of_nat d * 1000) ->
     (round_even (Qabs q * QN (10 ^ N.of_nat 3)) / 10 ^ N.of_nat 3 < 10 ^ N.of_nat d)%N).
  { intros m d A B. apply N.div_lt_upper_bound; [discriminate|]. apply QN_lt.
    change (10 ^ N.of_nat 3)%N with 1000%N. rewrite (N.mul_comm 1000).
    assert (N1 : 0 <= Qabs q * QN 1000).
    { apply Qmult_le_0_compat; [apply Qabs_nonneg | discriminate]. }
    pose proof (round_even_near _ N1) as [_ R]. change (QN 1000) with 1000 in *.
    assert (Qabs q * 1000 <= m * 1000) by lra. lra. }
  destruct (Qltb q 0) eqn:G.
  - pose proof G as G'. apply Qltb_true in G'.
    pose proof (fixed_length 3 q 3 ltac:(lia) ltac:(lia)) as F. rewrite G in F.
    assert (H : (String.length (fixed 3 (Fin q)) <= 1 + 3 + 1 + 3)%nat); [|lia].
    apply F. apply (K 999); [rewrite Qabs_neg; lra | reflexivity].
  - pose proof G as G'. apply Qltb_false in G'.
    pose proof (fixed_length 3 q 4 ltac:(lia) ltac:(lia)) as F. rewrite G in F.
    assert (H : (String.length (fixed 3 (Fin q)) <= 0 + 4 + 1 + 3)%nat); [|lia].
    apply F. apply (K 9999); [rewrite Qabs_pos; lra | reflexivity].
Qed.
