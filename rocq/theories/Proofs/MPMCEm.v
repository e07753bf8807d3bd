(** The adaptation of mixture population Monte Carlo as a step of expectation maximisation. *)
From Coq Require Import List Bool Arith Lia QArith Lqa Reals Qreals.
Import ListNotations.
From Verif Require Import Prelude.Py Prelude.QBase Prelude.QFacts Model.Base Model.Mixture Model.Population Model.MPMC
  Spec.MPMCSpec Spec.EmSpec Proofs.PopulationProofs Proofs.PopulationUnbiased Proofs.MPMCProofs Proofs.MPMCHistory Proofs.EmStep.
Open Scope Q_scope.

Definition comp_at (P : mp_params) (s : mp) (d : nat) (x : vec) : Q :=
  mp_comp P (fst (nth d (mp_props s) ([], []))) (snd (nth d (mp_props s) ([], []))) x.
Lemma mix_index P s x : length (mp_props s) = mp_N P -> length (mp_mixw s) = mp_N P ->
  mp_mix P s x = Qsum (map (fun d => nth d (mp_mixw s) 0 * comp_at P s d x) (seq 0 (mp_N P))).
Proof. intros L1 L2. unfold mp_mix. rewrite (map2_nth _ 0 (([], []) : vec * mat)) by congruence. rewrite L2. reflexivity. Qed.

Lemma alpha_form P pi s xs d : 0 < Qsum (map (mp_raw P pi s) xs) ->
  new_alpha (norm_ws P pi s xs) (map (mp_rho P s d) xs) == Qsum (map (fun x => mp_raw P pi s x * mp_rho P s d x) xs) / Qsum (map (mp_raw P pi s) xs).
Proof.
  intros S. unfold new_alpha, norm_ws. generalize dependent (Qsum (map (mp_raw P pi s) xs)). intros T Tp.
  induction xs as [|x xs IH]; simpl; [field; lra|]. rewrite IH. field. lra.
Qed.
Lemma alpha_total P pi s xs : mp_params_ok P -> mp_ok P s -> mp_clean s -> 0 < Qsum (map (mp_raw P pi s) xs) ->
  Qsum (map (fun d => new_alpha (norm_ws P pi s xs) (map (mp_rho P s d) xs)) (seq 0 (mp_N P))) == 1.
Proof.
  intros PO O Cl S.
  rewrite (Qsum_ext _ (fun d => / Qsum (map (mp_raw P pi s) xs) * Qsum (map (fun x => mp_raw P pi s x * mp_rho P s d x) xs)))
    by (intros d _; rewrite (alpha_form P pi s xs d S); unfold Qdiv; ring).
  rewrite Qsum_scal, Qsum_swap.
  assert (E : Qsum (map (fun x => Qsum (map (fun d => mp_raw P pi s x * mp_rho P s d x) (seq 0 (mp_N P)))) xs) == Qsum (map (mp_raw P pi s) xs)).
  { apply Qsum_ext. intros x _. rewrite Qsum_scal, (rho_sum P s x PO O Cl). ring. }
  rewrite E. field. lra.
Qed.
Lemma nth_agree (l m : list Q) d : Forall2 Qeq l m -> nth d l 0 == nth d m 0.
Proof. intros F. revert d. induction F; intros [|d]; simpl; auto; reflexivity. Qed.

Lemma Q2R_Qsum {X} (f : X -> Q) l : Q2R (Qsum (map f l)) = rsum (fun x => Q2R (f x)) l.
Proof. induction l as [|x l IH]; simpl; [apply RMicromega.Q2R_0|]. rewrite Q2R_plus, IH. reflexivity. Qed.
Lemma loglik_rsum w q xs : loglik w q xs = rsum (fun x => (Q2R (w x) * ln (Q2R (q x)))%R) xs.
Proof. induction xs as [|x xs IH]; simpl; auto. rewrite IH. reflexivity. Qed.
Lemma Q2R_pos q : 0 < q -> (0 < Q2R q)%R.
Proof. intros H. rewrite <- RMicromega.Q2R_0. apply Qlt_Rlt. exact H. Qed.
Lemma Q2R_nonneg q : 0 <= q -> (0 <= Q2R q)%R.
Proof. intros H. rewrite <- RMicromega.Q2R_0. apply Qle_Rle. exact H. Qed.

Lemma adapt_improves P pi s s' xs : mp_params_ok P -> mp_ok P s -> mp_clean s -> mp_ok P s' -> (forall x, 0 <= pi x) ->
  0 < Qsum (map (mp_raw P pi s) xs) ->
  (forall d, (d < mp_N P)%nat -> nth d (mp_mixw s') 0 * Qsum (map (mp_raw P pi s) xs) == Qsum (map (fun x => mp_raw P pi s x * mp_rho P s d x) xs)) ->
  (forall d, (d < mp_N P)%nat -> (loglik (fun x => mp_raw P pi s x * mp_rho P s d x)%Q (comp_at P s d) xs <=
                                  loglik (fun x => mp_raw P pi s x * mp_rho P s d x)%Q (comp_at P s' d) xs)%R) ->
  (loglik (mp_raw P pi s) (mp_mix P s) xs <= loglik (mp_raw P pi s) (mp_mix P s') xs)%R.
Proof.
  intros PO O Cl O' Pi Sp New Better. rewrite !loglik_rsum.
  pose proof O as (L1 & L2 & L3 & A & M & S1). pose proof O' as (L1' & L2' & L3' & A' & M' & S1'). pose proof PO as (N & K & C).
  set (a d := Q2R (nth d (mp_mixw s) 0)). set (a' d := Q2R (nth d (mp_mixw s') 0)). set (f d x := Q2R (comp_at P s d x)). set (f' d x := Q2R (comp_at P s' d x)).
  set (ds := seq 0 (mp_N P)).
  assert (Em : forall x, Q2R (mp_mix P s x) = rsum (fun d => (a d * f d x)%R) ds).
  { intros x. rewrite mix_index by auto. rewrite Q2R_Qsum. apply rsum_ext. intros d _. apply Q2R_mult. }
  assert (Em' : forall x, Q2R (mp_mix P s' x) = rsum (fun d => (a' d * f' d x)%R) ds).
  { intros x. rewrite mix_index by auto. rewrite Q2R_Qsum. apply rsum_ext. intros d _. apply Q2R_mult. }
  assert (Er : forall d x, In d ds -> Q2R (mp_rho P s d x) = (a d * f d x / rsum (fun d => a d * f d x) ds)%R).
  { intros d x D. rewrite <- Em. unfold mp_rho. cbv zeta. pose proof (mix_pos P s x PO O) as Mx. rewrite Q2R_div by lra. rewrite Q2R_mult.
    unfold a, f, comp_at. rewrite (Qeq_eqR _ _ (nth_agree _ _ d Cl)). reflexivity. }
  rewrite (rsum_ext _ (fun x => (Q2R (mp_raw P pi s x) * ln (rsum (fun d => a d * f d x) ds))%R)) by (intros x _; rewrite Em; reflexivity).
  rewrite (rsum_ext (fun x => (Q2R (mp_raw P pi s x) * ln (Q2R (mp_mix P s' x)))%R) (fun x => (Q2R (mp_raw P pi s x) * ln (rsum (fun d => a' d * f' d x) ds))%R))
    by (intros x _; rewrite Em'; reflexivity).
  assert (Dn : forall d, In d ds -> (d < mp_N P)%nat) by (intros d D; apply in_seq in D; lia).
  apply em_step.
  - intros x. apply Q2R_nonneg, raw_nonneg; auto.
  - rewrite <- Q2R_Qsum. apply Q2R_pos. exact Sp.
  - intros d D. apply Q2R_pos, nth_pos; auto. rewrite L3. auto.
  - intros d D. apply Q2R_pos, nth_pos; auto. rewrite L3'. auto.
  - intros d x D. apply Q2R_pos, C.
  - intros d x D. apply Q2R_pos, C.
  - intros Z. unfold ds in Z. apply (f_equal (@length nat)) in Z. rewrite seq_length in Z. simpl in Z. lia.
  - unfold a. rewrite <- Q2R_Qsum. rewrite <- RMicromega.Q2R_1. apply Qeq_eqR. rewrite <- S1.
    assert (E : map (fun d => nth d (mp_mixw s) 0) ds = mp_mixw s).
    { unfold ds. rewrite <- L3. clear. induction (mp_mixw s) as [|q l IH]; simpl; auto. f_equal. rewrite <- seq_shift, map_map. exact IH. }
    rewrite E. reflexivity.
  - intros d D. unfold a'. rewrite <- Q2R_Qsum, <- Q2R_mult. rewrite (Qeq_eqR _ _ (New d (Dn d D))). rewrite Q2R_Qsum. apply rsum_ext. intros x _.
    rewrite Q2R_mult, Er by auto. reflexivity.
  - intros d D. specialize (Better d (Dn d D)). rewrite !loglik_rsum in Better.
    rewrite (rsum_ext _ (fun x => (Q2R (mp_raw P pi s x * mp_rho P s d x) * ln (f d x))%R)) by (intros x _; rewrite Q2R_mult, Er by auto; reflexivity).
    rewrite (rsum_ext (fun x => (_ * _ * ln (f' d x))%R) (fun x => (Q2R (mp_raw P pi s x * mp_rho P s d x) * ln (f' d x))%R)) by (intros x _; rewrite Q2R_mult, Er by auto; reflexivity).
    exact Better.
Qed.

Lemma loglik_mono w q q' xs : (forall x, In x xs -> 0 <= w x /\ 0 < q x /\ q x <= q' x) -> (loglik w q xs <= loglik w q' xs)%R.
Proof.
  intros H. rewrite !loglik_rsum. apply rsum_le. intros x X. destruct (H x X) as (W & Q & L). apply Rmult_le_compat_l; [apply Q2R_nonneg; auto|].
  apply Qle_Rle in L. pose proof (Q2R_pos _ Q). destruct L as [L|L]; [left; apply ln_increasing; auto|rewrite L; right; reflexivity].
Qed.
