(** The value of the autocorrelation effective sample size. *)
From Coq Require Import List Bool Arith Lia ZArith QArith Lqa.
Import ListNotations.
From Verif Require Import Prelude.Py Prelude.QBase Prelude.QFacts Model.Base Spec.FloatSpec Spec.NessSpec Proofs.NessProofs.
Open Scope Q_scope.

Lemma sum_to_ext n f g : (forall i, (i < n)%nat -> f i == g i) -> sum_to n f == sum_to n g.
Proof. induction n as [|n IH]; simpl; intros H; [reflexivity|]. rewrite IH, (H n); auto; reflexivity. Qed.
Lemma sum_to_S n : forall g, sum_to (S n) g == g 0%nat + sum_to n (fun i => g (S i)).
Proof. induction n as [|n IH]; intros g; [simpl; ring|]. simpl in *. rewrite IH. ring. Qed.

(** Sums over lists and over indices. *)
Lemma Qsum_nth {A} (h : A -> Q) l d : Qsum (map h l) == sum_to (length l) (fun i => h (nth i l d)).
Proof.
  induction l as [|a l IH]; cbn [map Qsum length]; [reflexivity|]. rewrite sum_to_S, IH. reflexivity.
Qed.
Lemma Qsum_map2_nth {A B} (h : A -> B -> Q) d e : forall l m, length l = length m ->
  Qsum (map2 h l m) == sum_to (length l) (fun i => h (nth i l d) (nth i m e)).
Proof.
  induction l as [|a l IH]; intros [|b m] L; try discriminate; cbn [map2 Qsum length]; [reflexivity|].
  rewrite sum_to_S, IH by (simpl in L; lia). reflexivity.
Qed.
Lemma nth_skipn' {A} (d : A) t : forall l i, nth i (skipn t l) d = nth (t + i) l d.
Proof. induction t as [|t IH]; intros [|a l] i; simpl; auto. destruct i; auto. Qed.
Lemma nth_firstn' {A} (d : A) k : forall l i, (i < k)%nat -> nth i (firstn k l) d = nth i l d.
Proof. induction k as [|k IH]; intros [|a l] [|i] H; simpl; auto; try lia. apply IH. lia. Qed.

Section Law.
Variable xs : list vec.
Variable d : nat.
Hypothesis rows : Forall (fun r => length r = d) xs.
Hypothesis many : (1 < length xs)%nat.
Let n := length xs.
Let x (i j : nat) : Q := nth j (nth i xs []) 0.

Lemma row_len i : (i < n)%nat -> length (nth i xs []) = d.
Proof. intros H. rewrite Forall_forall in rows. apply rows. apply nth_In. exact H. Qed.

Lemma variogram_eq t : variogram xs t == variogram_at n d x t.
Proof.
  unfold variogram, variogram_at. fold n. apply Qdiv_comp; [|reflexivity].
  assert (L : length (skipn t xs) = (n - t)%nat) by apply skipn_length.
  rewrite (Qsum_map2_nth sqdist [] []).
  2:{ rewrite L, firstn_length. fold n. lia. }
  rewrite L. apply sum_to_ext. intros i I. rewrite nth_skipn', nth_firstn' by lia. unfold sqdist.
  rewrite (Qsum_map2_nth _ 0 0); rewrite ?row_len by lia; auto. reflexivity.
Qed.

Lemma entries_sum (h : Q -> Q) : Qsum (map h (entries xs)) == sum_to n (fun i => sum_to d (fun j => h (x i j))).
Proof.
  unfold entries, n, x. clear many n x. induction xs as [|r l IH]; [reflexivity|]. inversion rows; subst.
  cbn [concat length]. rewrite map_app, Qsum_app, IH, sum_to_S by auto. apply Qplus_comp; [|reflexivity].
  rewrite (Qsum_nth h r 0). reflexivity.
Qed.
Lemma entries_len : length (entries xs) = (n * d)%nat.
Proof.
  unfold entries, n. clear many n x. induction xs as [|r l IH]; auto. inversion rows; subst. cbn [concat length].
  rewrite app_length, IH; auto.
Qed.
Lemma W_eq : feqQ (ness_W xs) (Fin (spread n d x)).
Proof.
  unfold ness_W, spread. fold n.
  assert (K : 0 < Qnat n - 1). { unfold n, Qnat. rewrite <- (Qplus_opp_r 1). apply Qplus_lt_l. change 1 with (inject_Z 1). rewrite <- Zlt_Qlt. lia. }
  assert (M : Qsum (entries xs) / Qnat (length (entries xs)) == grand_mean n d x).
  { unfold grand_mean. apply Qdiv_comp.
    - rewrite <- (map_id (entries xs)). apply (entries_sum (fun a => a)).
    - rewrite entries_len. unfold Qnat. rewrite Nat2Z.inj_mul, inject_Z_mult. reflexivity. }
  unfold fdivQ. destruct (Qeq_bool_spec (Qnat n - 1) 0); [lra|]. simpl.
  apply Qdiv_comp; [|reflexivity]. rewrite (entries_sum (fun a => (a - _) * (a - _))).
  apply sum_to_ext. intros i _. apply sum_to_ext. intros j _. rewrite M. reflexivity.
Qed.

Hypothesis apart : ~ spread n d x == 0.
Lemma rho_eq t : feqQ (rho xs t) (Fin (autocorr n d x t)).
Proof.
  unfold rho, autocorr. pose proof W_eq as W. destruct (ness_W xs) as [w| | |]; simpl in W; try contradiction.
  assert (Z : ~ 2 * w == 0) by lra. unfold fsubQ. cbn [fdivflQ]. unfold fdivQ. destruct (Qeq_bool_spec (2 * w) 0); [contradiction|].
  simpl. rewrite (variogram_eq t), W. ring.
Qed.

Lemma nth_last {A} (l : list A) a b e : nth (length l) ((l ++ [a]) ++ [b]) e = a.
Proof. rewrite <- app_assoc, app_nth2, Nat.sub_diag; auto. Qed.

(** The loop, started with the first t-1 autocorrelations. *)
Lemma loop_spec fuel : forall t acc, (n <= fuel + t)%nat -> (0 < t)%nat -> (t <= n)%nat ->
  Forall2 feqQ acc (map (fun k => Fin (autocorr n d x (S k))) (seq 0 (t - 1))) ->
  (forall u, (u < t)%nat -> ~ negative_pair n d x u) ->
  exists T, last_lag n d x T /\ Forall2 feqQ (ness_loop fuel xs t acc) (map (fun k => Fin (autocorr n d x (S k))) (seq 0 T)).
Proof.
  induction fuel as [|fuel IH]; intros t acc F P Le A Ng; cbn [ness_loop].
  - assert (t = n) by lia. exists (t - 1)%nat. split; auto. repeat split; [lia|intros; apply Ng; lia|left; lia].
  - fold n. destruct (Nat.ltb_spec t n) as [Lt|Lt].
    2:{ exists (t - 1)%nat. split; auto. repeat split; [lia|intros; apply Ng; lia|left; lia]. }
    assert (A' : Forall2 feqQ (acc ++ [rho xs t]) (map (fun k => Fin (autocorr n d x (S k))) (seq 0 t))).
    { replace t with (t - 1 + 1)%nat at 2 by lia. rewrite seq_app, map_app. apply Forall2_app; auto.
      simpl. constructor; auto. replace (S (t - 1)) with t by lia. apply rho_eq. }
    assert (C : Nat.even t = true -> fltQ (faddQ (nth (t - 2) (acc ++ [rho xs t]) NaN) (rho xs t)) (Fin 0) =
                             Qltb (autocorr n d x (t - 1) + autocorr n d x t) 0).
    { intros Ev. assert (t <> 1)%nat by (intros ->; discriminate).
      rewrite (fltQ_comp _ (Fin (autocorr n d x (t - 1) + autocorr n d x t)) _ (Fin 0)); [reflexivity| |reflexivity].
      apply (faddQ_comp _ (Fin (autocorr n d x (t - 1))) _ (Fin (autocorr n d x t))); [|apply rho_eq].
      eapply feq_trans; [apply nth_feq; exact A'|].
      rewrite (nth_indep _ NaN (Fin (autocorr n d x 1))) by (rewrite map_length, seq_length; lia).
      rewrite (map_nth (fun k => Fin (autocorr n d x (S k))) (seq 0 t) 0%nat), seq_nth by lia.
      replace (S (0 + (t - 2))) with (t - 1)%nat by lia. apply feq_refl. }
    destruct (Nat.even t) eqn:Ev.
    + rewrite C by auto. cbn [andb]. destruct (Qltb_spec (autocorr n d x (t - 1) + autocorr n d x t) 0) as [N|N].
      * exists t. split; auto. repeat split; [lia|auto|]. right. repeat split; auto.
      * apply IH; try lia; [replace (S t - 1)%nat with t by lia; auto|].
        intros u U. destruct (Nat.eq_dec u t) as [->|]; [|apply Ng; lia]. intros (_ & _ & Z). lra.
    + cbn [andb]. apply IH; try lia; [replace (S t - 1)%nat with t by lia; auto|].
      intros u U. destruct (Nat.eq_dec u t) as [->|]; [|apply Ng; lia]. intros (Z & _). congruence.
Qed.

Lemma fsum_seq T : feqQ (fsumQ (map (fun k => Fin (autocorr n d x (S k))) (seq 0 T))) (Fin (lag_sum n d x T)).
Proof.
  unfold lag_sum. set (g := fun k => autocorr n d x (S k)).
  assert (G : forall l, fsumQ (map (fun k => Fin (g k)) l) = Fin (Qsum (map g l))).
  { induction l as [|a l IH]; simpl; auto. rewrite IH. reflexivity. }
  change (map (fun k => Fin (autocorr n d x (S k))) (seq 0 T)) with (map (fun k => Fin (g k)) (seq 0 T)). rewrite G. simpl.
  rewrite (Qsum_nth g (seq 0 T) 0%nat), seq_length. apply sum_to_ext. intros i I. rewrite seq_nth by auto. reflexivity.
Qed.

Lemma ness_law : exists T, last_lag n d x T /\
  (~ 1 + 2 * lag_sum n d x T == 0 -> feqQ (get_NESS xs) (Fin (1 / (1 + 2 * lag_sum n d x T)))) /\
  (1 + 2 * lag_sum n d x T == 0 -> get_NESS xs = PInf).
Proof.
  destruct (loop_spec n 1 []) as (T & HT & F); try lia; [constructor| |].
  { intros u U (_ & Z & _). lia. }
  exists T. split; auto. unfold get_NESS. fold n.
  pose proof (feq_trans _ _ _ (fsumQ_comp _ _ F) (fsum_seq T)) as S.
  destruct (fsumQ (ness_loop n xs 1 [])) as [s| | |]; simpl in S; try contradiction.
  assert (N : 0 < Qnat n) by (apply Qnat_pos; unfold n; lia).
  cbn [faddQ fdivflQ]. split; intros Z.
  - unfold fdivQ at 1. destruct (Qeq_bool_spec (1 + 2 * s) 0); [exfalso; apply Z; rewrite <- S; auto|].
    cbn [fdivflQ]. unfold fdivQ. destruct (Qeq_bool_spec (Qnat n) 0); [lra|]. simpl. rewrite S in *. field. split; auto; lra.
  - unfold fdivQ. destruct (Qeq_bool_spec (1 + 2 * s) 0) as [e|e]; [|exfalso; apply e; rewrite S; auto].
    destruct (Qeq_bool_spec (Qnat n) 0); [lra|]. destruct (Qltb_spec 0 (Qnat n)); [|lra]. simpl.
    destruct (Qltb_spec (Qnat n) 0); [lra|]. reflexivity.
Qed.
End Law.

Lemma sum_to_nonneg n g : (forall i, (i < n)%nat -> 0 <= g i) -> 0 <= sum_to n g.
Proof. induction n as [|n IH]; simpl; intros H; [lra|]. pose proof (H n ltac:(lia)). pose proof (IH ltac:(auto)). lra. Qed.
Lemma sum_to_zero n g : (forall i, (i < n)%nat -> 0 <= g i) -> sum_to n g == 0 -> forall i, (i < n)%nat -> g i == 0.
Proof.
  induction n as [|n IH]; simpl; intros H Z i I; [lia|].
  pose proof (H n ltac:(lia)). pose proof (sum_to_nonneg n g ltac:(auto)).
  destruct (Nat.eq_dec i n) as [->|]; [lra|]. apply IH; auto; [lra|lia].
Qed.
Lemma sq_nonneg (a : Q) : 0 <= a * a.
Proof. destruct (Qlt_le_dec a 0); nra. Qed.
Lemma spread_apart n d x i j i' j' : (1 < n)%nat -> (i < n)%nat -> (j < d)%nat -> (i' < n)%nat -> (j' < d)%nat ->
  ~ x i j == x i' j' -> ~ spread n d x == 0.
Proof.
  intros N I J I' J' D Z. apply D. unfold spread in Z. set (m := grand_mean n d x) in *.
  assert (K : 0 < Qnat n - 1). { unfold Qnat. rewrite <- (Qplus_opp_r 1). apply Qplus_lt_l. change 1 with (inject_Z 1). rewrite <- Zlt_Qlt. lia. }
  set (S := sum_to n _) in Z. assert (S0 : S == 0).
  { assert (E : S == S / (Qnat n - 1) * (Qnat n - 1)) by (field; lra). rewrite E, Z. ring. }
  assert (G : forall a b, (a < n)%nat -> (b < d)%nat -> x a b == m).
  { intros a b A B. unfold S in S0.
    assert (Q : (x a b - m) * (x a b - m) == 0).
    { apply (sum_to_zero d (fun j => (x a j - m) * (x a j - m))); auto; [intros; apply sq_nonneg|].
      apply (sum_to_zero n (fun i => sum_to d (fun j => (x i j - m) * (x i j - m)))); auto.
      intros; apply sum_to_nonneg. intros; apply sq_nonneg. }
    apply Qmult_integral in Q. destruct Q; lra. }
  rewrite (G i j), (G i' j'); auto. reflexivity.
Qed.
