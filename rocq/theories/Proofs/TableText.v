(** Lemmas on splitting and on the decimal conversions. *)
From Coq Require Import List Bool Arith NArith ZArith Lia QArith Qround Qabs Lqa Ascii String.
Import ListNotations.
From Verif Require Import Prelude.Py Prelude.QBase Prelude.QFacts Model.TableFormat Spec.TableSpec.
Open Scope string_scope.

Lemma app_assoc_s : forall a b c : string, (a ++ b) ++ c = a ++ (b ++ c).
Proof. induction a as [|x a IH]; intros; [reflexivity | simpl; now rewrite IH]. Qed.
Lemma app_nil_s : forall a : string, a ++ "" = a.
Proof. induction a as [|x a IH]; [reflexivity | simpl; now rewrite IH]. Qed.
Lemma len_app : forall a b, String.length (a ++ b) = (String.length a + String.length b)%nat.
Proof. induction a as [|x a IH]; intros; [reflexivity | simpl; now rewrite IH]. Qed.

Lemma split_nonnil : forall p s, split p s <> [].
Proof. intros p [|c s]; simpl; [discriminate|]. destruct (p c); [discriminate|]. destruct (split p s); discriminate. Qed.

Lemma split_sep : forall p a c b, p c = true -> split p (a ++ String c b) = (split p a ++ split p b)%list.
Proof.
  intros p a c b H. induction a as [|x a IH].
  - simpl. now rewrite H.
  - cbn [append split]. rewrite IH. destruct (p x); [reflexivity|].
    destruct (split p a) as [|h r] eqn:E; [exfalso; exact (split_nonnil p a E)|]. reflexivity.
Qed.

Lemma split_free : forall p a, free p a = true -> split p a = [a].
Proof.
  intros p a. induction a as [|x a IH]; intros H; [reflexivity|].
  cbn [free] in H. apply andb_prop in H. destruct H as [H1 H2]. cbn [split].
  destruct (p x); [discriminate|]. now rewrite (IH H2).
Qed.

Lemma tokens_sep : forall p a c b, p c = true -> tokens p (a ++ String c b) = (tokens p a ++ tokens p b)%list.
Proof. intros. unfold tokens. rewrite split_sep by assumption. apply filter_app. Qed.

Lemma tokens_free : forall p a, a <> "" -> free p a = true -> tokens p a = [a].
Proof.
  intros p a N F. unfold tokens. rewrite split_free by assumption. cbn [filter].
  destruct (String.eqb a "") eqn:E; [|reflexivity]. apply String.eqb_eq in E. contradiction.
Qed.

Lemma tokens_nil : forall p, tokens p "" = [].
Proof. reflexivity. Qed.

Lemma free_app : forall p a b, free p (a ++ b) = free p a && free p b.
Proof. induction a as [|x a IH]; intros; [reflexivity|]. cbn [append free]. rewrite IH. apply andb_assoc. Qed.

Lemma free_rep : forall p c k, p c = false -> free p (rep_char c k) = true.
Proof. induction k; intros H; [reflexivity|]. cbn [rep_char free]. rewrite H. simpl. now apply IHk. Qed.

Lemma len_rep : forall c k, String.length (rep_char c k) = k.
Proof. induction k; simpl; congruence. Qed.

Lemma tokens_rep : forall p c k s, p c = true -> tokens p (rep_char c k ++ s) = tokens p s.
Proof.
  induction k; intros s H; [reflexivity|]. cbn [rep_char append].
  change (String c (rep_char c k ++ s)) with ("" ++ String c (rep_char c k ++ s)).
  rewrite tokens_sep by assumption. simpl. now apply IHk.
Qed.

(** ** Digits *)
Lemma digit_val : forall n, (n < 10)%N -> N_of_ascii (digit n) = (48 + n)%N.
Proof. intros n H. unfold digit. apply N_ascii_embedding. lia. Qed.

Lemma digit_read : forall n, (n < 10)%N -> read_digit (digit n) = Some n.
Proof.
  intros n H. unfold read_digit. rewrite digit_val by assumption.
  assert (E : ((48 <=? 48 + n) && (48 + n <=? 57))%N = true).
  { apply andb_true_intro. split; apply N.leb_le; lia. }
  rewrite E. f_equal. lia.
Qed.

Lemma eqb_ascii_N : forall a b, N_of_ascii a <> N_of_ascii b -> Ascii.eqb a b = false.
Proof. intros a b H. apply Ascii.eqb_neq. intros E. apply H. now rewrite E. Qed.

(** A separator that is not a digit. *)
Definition nodigit (p : ascii -> bool) : Prop := forall n, (n < 10)%N -> p (digit n) = false.

Lemma nodigit_eqb : forall c, (N_of_ascii c < 48 \/ 57 < N_of_ascii c)%N -> nodigit (fun a => Ascii.eqb a c).
Proof. intros c H n Hn. apply eqb_ascii_N. rewrite digit_val by assumption. lia. Qed.

Lemma nd_space : nodigit is_space.
Proof. apply (nodigit_eqb " "). left. reflexivity. Qed.
Lemma nd_newline : nodigit is_newline.
Proof. apply (nodigit_eqb "010"). left. reflexivity. Qed.
Lemma nd_point : nodigit is_point.
Proof. apply (nodigit_eqb "."). left. reflexivity. Qed.
Lemma nd_minus : nodigit (fun a => Ascii.eqb a "-").
Proof. apply (nodigit_eqb "-"). left. reflexivity. Qed.

Lemma mod10 : forall n, (n mod 10 < 10)%N.
Proof. intros. apply N.mod_lt. discriminate. Qed.

Lemma free_dec_aux : forall p f n acc, nodigit p -> free p acc = true -> free p (dec_aux f n acc) = true.
Proof.
  intros p f. induction f as [|f IH]; intros n acc H A.
  - cbn [dec_aux free]. rewrite H by apply mod10. exact A.
  - assert (A' : free p (String (digit (n mod 10)) acc) = true).
    { cbn [free]. rewrite H by apply mod10. exact A. }
    cbn [dec_aux]. destruct (n <? 10)%N; [exact A' | now apply IH].
Qed.

Lemma free_dec : forall p n, nodigit p -> free p (dec n) = true.
Proof. intros. now apply free_dec_aux. Qed.

Lemma dec_aux_nonempty : forall f n acc, dec_aux f n acc <> "".
Proof.
  induction f as [|f IH]; intros n acc; cbn [dec_aux]; [discriminate|].
  destruct (n <? 10)%N; [discriminate | apply IH].
Qed.
Lemma dec_nonempty : forall n, dec n <> "".
Proof. intros. apply dec_aux_nonempty. Qed.

(** Reading a numeral back. *)
Lemma read_dec_aux : forall f n acc a,
  (N.size_nat n <= f)%nat ->
  exists k, read_from (dec_aux f n acc) a = read_from acc (a * 10 ^ N.of_nat k + n)%N /\
            String.length (dec_aux f n acc) = (k + String.length acc)%nat /\
            (1 <= k)%nat /\ (forall d, n < 10 ^ N.of_nat d -> (1 <= d)%nat -> (k <= d)%nat)%N.
Proof.
  induction f as [|f IH]; intros n acc a H.
  - assert (n = 0%N) by (destruct n as [|[]]; simpl in H; [reflexivity|lia|lia|lia]). subst n.
    exists 1%nat. cbn [dec_aux]. split; [|split; [|split]].
    + change (0 mod 10)%N with 0%N. cbn [read_from]. rewrite digit_read by reflexivity.
      f_equal. change (10 ^ N.of_nat 1)%N with 10%N. lia.
    + reflexivity.
    + lia.
    + intros; lia.
  - cbn [dec_aux]. destruct (n <? 10)%N eqn:E.
    + apply N.ltb_lt in E. exists 1%nat. split; [|split; [|split]].
      * rewrite N.mod_small by assumption. cbn [read_from]. rewrite digit_read by assumption.
        f_equal. change (10 ^ N.of_nat 1)%N with 10%N. lia.
      * reflexivity.
      * lia.
      * intros; lia.
    + apply N.ltb_ge in E.
      assert (Hs : (N.size_nat (n / 10) <= f)%nat).
      { assert (L : (n / 10 <= N.div2 n)%N).
        { rewrite N.div2_div. apply N.div_le_compat_l. split; [reflexivity|discriminate]. }
        assert (S1 : (N.size_nat (N.div2 n) <= f)%nat).
        { destruct n as [|[p|p|]]; simpl in H |- *; lia. }
        assert (S2 : forall x y, (x <= y)%N -> (N.size_nat x <= N.size_nat y)%nat).
        { clear. intros x y L.
          assert (G : forall z, N.size_nat z = N.to_nat (N.size z)).
          { intros [|p]; [reflexivity|]. simpl. induction p; simpl; rewrite ?IHp; rewrite ?Pos2Nat.inj_succ; reflexivity. }
          rewrite !G. assert (N.size x <= N.size y)%N; [|lia].
          destruct (N.eq_dec x 0) as [->|Nx]; [apply N.le_0_l|].
          rewrite !N.size_log2 by lia. apply -> N.succ_le_mono. now apply N.log2_le_mono. }
        specialize (S2 _ _ L). lia. }
      destruct (IH (n / 10)%N (String (digit (n mod 10)) acc) a Hs) as (k & R & Ln & K1 & K2).
      exists (S k). split; [|split; [|split]].
      * rewrite R. cbn [read_from]. rewrite digit_read by apply mod10. f_equal.
        rewrite Nat2N.inj_succ, N.pow_succ_r'. pose proof (N.div_mod n 10 ltac:(discriminate)) as D.
        replace (a * (10 * 10 ^ N.of_nat k))%N with (10 * (a * 10 ^ N.of_nat k))%N by ring.
        set (u := (a * 10 ^ N.of_nat k)%N). set (v := (n / 10)%N) in *. set (r := (n mod 10)%N) in *. lia.
      * rewrite Ln. simpl. lia.
      * lia.
      * intros d Hd D1. destruct d as [|d]; [lia|]. destruct d as [|d].
        { exfalso. change (10 ^ N.of_nat 1)%N with 10%N in Hd. lia. }
        assert (k <= S d)%nat; [|lia]. apply K2; [|lia].
        rewrite Nat2N.inj_succ, N.pow_succ_r' in Hd. apply N.div_lt_upper_bound; [discriminate|]. exact Hd.
Qed.

Lemma read_dec : forall n, read_nat (dec n) = Some n.
Proof.
  intros n. unfold read_nat. destruct (dec n) eqn:E; [exfalso; exact (dec_nonempty n E)|]. rewrite <- E.
  destruct (read_dec_aux (N.size_nat n) n "" 0 (le_n _)) as (k & R & _).
  unfold dec. rewrite R. reflexivity.
Qed.

Lemma dec_length : forall n d, (n < 10 ^ N.of_nat d)%N -> (1 <= d)%nat -> (String.length (dec n) <= d)%nat.
Proof.
  intros n d H D. destruct (read_dec_aux (N.size_nat n) n "" 0 (le_n _)) as (k & _ & L & _ & K).
  unfold dec. rewrite L. simpl. specialize (K d H D). lia.
Qed.

Lemma read_zeros : forall k s, read_from (rep_char "0" k ++ s) 0 = read_from s 0.
Proof. induction k; intros s; [reflexivity|]. cbn [rep_char append read_from]. exact (IHk s). Qed.

Lemma read_padded : forall w n, read_nat (padl "0" w (dec n)) = Some n.
Proof.
  intros w n. unfold read_nat, padl.
  destruct (rep_char "0" (w - String.length (dec n)) ++ dec n) eqn:E.
  - exfalso. destruct (w - String.length (dec n))%nat; simpl in E; [exact (dec_nonempty n E)|discriminate].
  - rewrite <- E. rewrite read_zeros. destruct (read_dec_aux (N.size_nat n) n "" 0 (le_n _)) as (k & R & _).
    unfold dec. rewrite R. reflexivity.
Qed.

Lemma padl_length : forall c w s, String.length (padl c w s) = Nat.max w (String.length s).
Proof. intros. unfold padl. rewrite len_app, len_rep. lia. Qed.
