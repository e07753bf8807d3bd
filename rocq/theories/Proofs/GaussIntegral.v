(** The Gaussian density integrates to one. *)
From Coq Require Import Reals Lra Lia.
From Coquelicot Require Import Coquelicot.
From Verif Require Import Spec.NormalSpec Spec.IntegralSpec Proofs.IntegralProofs.
Open Scope R_scope.

Definition bell (t : R) : R := exp (- (t * t)).
Definition area (x : R) : R := RInt bell 0 x.
Definition corr (x t : R) : R := exp (- (x * x * (1 + t * t))) / (1 + t * t).
Definition rest (x : R) : R := RInt (corr x) 0 1.

Lemma one_sq t : 0 < 1 + t * t. Proof. nra. Qed.

Lemma bell_cont x : continuous bell x.
Proof. apply cont_derive. unfold bell. auto_derive. trivial. Qed.
Lemma bell_int a b : ex_RInt bell a b.
Proof. apply (@ex_RInt_continuous R_CompleteNormedModule). intros. apply bell_cont. Qed.

Lemma corr_cont x t : continuous (corr x) t.
Proof. apply cont_derive. unfold corr. auto_derive. pose proof (one_sq t). lra. Qed.
Lemma corr_int x a b : ex_RInt (corr x) a b.
Proof. apply (@ex_RInt_continuous R_CompleteNormedModule). intros. apply corr_cont. Qed.

Lemma area_derive x : is_derive area x (bell x).
Proof.
  apply (is_derive_RInt bell area 0 x).
  - exists (mkposreal 1 Rlt_0_1). intros y _. apply (@RInt_correct R_CompleteNormedModule), bell_int.
  - apply bell_cont.
Qed.

Definition dcorr (x t : R) : R := - (2 * x) * exp (- (x * x * (1 + t * t))).
Lemma corr_derive x t : is_derive (fun u => corr u t) x (dcorr x t).
Proof.
  unfold corr, dcorr. pose proof (one_sq t). auto_derive; [lra|]. set (e := exp _). field. lra.
Qed.

Lemma dcorr_cont x t : continuity_2d_pt dcorr x t.
Proof.
  unfold dcorr. apply continuity_2d_pt_mult.
  - apply continuity_2d_pt_opp. apply continuity_2d_pt_mult; [apply continuity_2d_pt_const|apply continuity_2d_pt_id1].
  - apply (continuity_1d_2d_pt_comp exp (fun u v => - (u * u * (1 + v * v)))).
    + apply derivable_continuous_pt, derivable_pt_exp.
    + apply continuity_2d_pt_opp. apply continuity_2d_pt_mult.
      * apply continuity_2d_pt_mult; apply continuity_2d_pt_id1.
      * apply continuity_2d_pt_plus; [apply continuity_2d_pt_const|].
        apply continuity_2d_pt_mult; apply continuity_2d_pt_id2.
Qed.

Lemma rest_derive x : is_derive rest x (RInt (dcorr x) 0 1).
Proof.
  rewrite (RInt_ext (dcorr x) (fun t => Derive (fun u => corr u t) x)).
  2:{ intros t _. symmetry. apply is_derive_unique. apply corr_derive. }
  apply (is_derive_RInt_param corr 0 1 x).
  - exists (mkposreal 1 Rlt_0_1). intros y _ t _. eexists. apply corr_derive.
  - intros t _. apply (continuity_2d_pt_ext dcorr).
    + intros u v. symmetry. apply is_derive_unique. apply corr_derive.
    + apply dcorr_cont.
  - exists (mkposreal 1 Rlt_0_1). intros y _. apply corr_int.
Qed.

(** the derivative of [rest], by the substitution s = x t *)
Lemma dcorr_int x : RInt (dcorr x) 0 1 = - (2 * bell x * area x).
Proof.
  assert (H : is_RInt bell (x * 0 + 0) (x * 1 + 0) (area x)).
  { replace (x * 0 + 0) with 0 by ring. replace (x * 1 + 0) with x by ring. apply (@RInt_correct R_CompleteNormedModule), bell_int. }
  apply is_RInt_comp_lin in H. apply (is_RInt_scal _ _ _ (- (2 * bell x))) in H.
  transitivity (scal (- (2 * bell x)) (area x)); [|unfold scal; simpl; unfold mult; simpl; ring].
  apply is_RInt_unique. apply is_RInt_ext with (2 := H). intros t _. unfold scal; simpl; unfold mult; simpl.
  unfold dcorr, bell. replace (- (x * x * (1 + t * t))) with (- (x * x) + - ((x * t + 0) * (x * t + 0))) by ring.
  rewrite exp_plus. ring.
Qed.

Lemma total_derive x : is_derive (fun x => area x * area x + rest x) x 0.
Proof.
  pose proof (area_derive x) as A. pose proof (rest_derive x) as B. rewrite dcorr_int in B.
  assert (AA : is_derive (fun x => area x * area x) x (bell x * area x + area x * bell x)).
  { apply (is_derive_mult area area x (bell x) (bell x) A A). intros. apply Rmult_comm. }
  pose proof (is_derive_plus _ _ _ _ _ AA B) as S. unfold plus in S; simpl in S.
  replace (bell x * area x + area x * bell x + - (2 * bell x * area x)) with 0 in S by ring. exact S.
Qed.

Lemma rest_0 : rest 0 = PI / 4.
Proof.
  unfold rest. apply is_RInt_unique. replace (PI / 4) with (atan 1 - atan 0) by (rewrite atan_1, atan_0; lra).
  apply (is_RInt_prim _ (fun t => / (1 + t * t)) atan); [lra| | |].
  - intros t _. unfold corr. replace (- (0 * 0 * (1 + t * t))) with 0 by ring. rewrite exp_0. unfold Rdiv. ring.
  - intros t _. pose proof (is_derive_atan t) as D. unfold Rsqr in D. exact D.
  - intros t _. apply cont_derive. auto_derive. pose proof (one_sq t). lra.
Qed.

Lemma total_const x : 0 <= x -> area x * area x + rest x = PI / 4.
Proof.
  intros H. destruct H as [H|<-].
  2:{ unfold area. rewrite RInt_point. unfold zero; simpl. rewrite rest_0. ring. }
  destruct (MVT_gen (fun x => area x * area x + rest x) 0 x (fun _ => 0)) as (c & _ & E).
  - intros. apply total_derive.
  - intros y _. apply derivable_continuous_pt. exists 0. apply is_derive_Reals. apply total_derive.
  - rewrite Rmult_0_l in E. assert (Z : area 0 * area 0 + rest 0 = PI / 4).
    { unfold area. rewrite RInt_point. unfold zero; simpl. rewrite rest_0. ring. }
    lra.
Qed.

Lemma rest_bound x : 0 <= rest x <= bell x.
Proof.
  unfold rest. split.
  - apply RInt_ge_0; [lra|apply corr_int|]. intros t _. unfold corr. pose proof (one_sq t).
    apply Rmult_le_pos; [left; apply exp_pos|left; now apply Rinv_0_lt_compat].
  - replace (bell x) with (RInt (fun _ => bell x) 0 1).
    2:{ rewrite RInt_const. unfold scal; simpl; unfold mult; simpl. ring. }
    apply RInt_le; [lra|apply corr_int|apply ex_RInt_const|]. intros t Ht. unfold corr, bell. pose proof (one_sq t) as O.
    apply Rle_trans with (exp (- (x * x * (1 + t * t)))).
    + apply Rmult_le_reg_r with (1 + t * t); [exact O|]. unfold Rdiv. rewrite Rmult_assoc, Rinv_l by lra.
      apply Rmult_le_compat_l; [left; apply exp_pos|nra].
    + destruct (Req_dec (x * x * (t * t)) 0) as [Z|Z].
      * right. f_equal. lra.
      * left. apply exp_increasing. assert (0 <= x * x * (t * t)) by nra. lra.
Qed.

Lemma area_nonneg x : 0 <= x -> 0 <= area x.
Proof. intros H. apply RInt_ge_0; [exact H|apply bell_int|]. intros. left. apply exp_pos. Qed.

Lemma sqrt_pi_pos : 0 < sqrt PI.
Proof. apply sqrt_lt_R0, PI_RGT_0. Qed.

(** the area approaches half the square root of pi *)
Lemma area_gap x : 0 < x -> 0 <= sqrt PI / 2 - area x <= 2 * bell x / sqrt PI.
Proof.
  intros H. pose proof (total_const x (Rlt_le _ _ H)) as T. pose proof (rest_bound x) as [R0 R1].
  pose proof (area_nonneg x (Rlt_le _ _ H)) as A. pose proof sqrt_pi_pos as P.
  assert (Q : sqrt PI * sqrt PI = PI) by (apply sqrt_sqrt; left; apply PI_RGT_0).
  set (s := sqrt PI) in *. set (a := area x) in *. set (b := bell x) in *. set (r := rest x) in *. clearbody s a b r.
  assert (F : (s / 2 - a) * (s / 2 + a) = r) by lra.
  assert (G : 0 <= s / 2 - a). { destruct (Rle_dec 0 (s / 2 - a)); [assumption|]. exfalso. assert (0 < s / 2 + a) by lra. nra. }
  split; [exact G|]. apply Rmult_le_reg_r with s; [exact P|].
  replace (2 * b / s * s) with (2 * b) by (field; lra). nra.
Qed.

Lemma bell_even x : bell (- x) = bell x.
Proof. unfold bell. f_equal. ring. Qed.

Lemma bell_left a : is_RInt bell a 0 (area (- a)).
Proof.
  assert (H : is_RInt bell (-1 * 0 + 0) (-1 * a + 0) (area (- a))).
  { replace (-1 * 0 + 0) with 0 by ring. replace (-1 * a + 0) with (- a) by ring. apply (@RInt_correct R_CompleteNormedModule), bell_int. }
  apply is_RInt_comp_lin in H. apply is_RInt_swap in H. apply is_RInt_opp in H.
  unfold opp in H; simpl in H. rewrite Ropp_involutive in H. apply is_RInt_ext with (2 := H).
  intros t _. unfold scal; simpl; unfold mult; simpl. rewrite <- (bell_even t). replace (- t) with (-1 * t + 0) by ring. ring.
Qed.

Definition std_bell (t : R) : R := bell t / sqrt PI.

Lemma std_bell_integrates : integrates_to std_bell 1.
Proof.
  pose proof sqrt_pi_pos as P.
  assert (SQ : sqrt PI * sqrt PI = PI) by (apply sqrt_sqrt; left; apply PI_RGT_0).
  apply halves_integrate with (GL := fun a => 1 / 2 - area (- a) / sqrt PI) (GR := fun b => 1 / 2 - area b / sqrt PI).
  - intros a _. pose proof (is_RInt_scal _ _ _ (/ sqrt PI) _ (bell_left a)) as H.
    replace (1 / 2 - (1 / 2 - area (- a) / sqrt PI)) with (scal (/ sqrt PI) (area (- a))).
    2:{ unfold scal; simpl; unfold mult; simpl. field. lra. }
    apply is_RInt_ext with (2 := H). intros t _. unfold scal; simpl; unfold mult; simpl. unfold std_bell, Rdiv. ring.
  - intros b _. pose proof (is_RInt_scal _ _ _ (/ sqrt PI) _ (@RInt_correct R_CompleteNormedModule _ _ _ (bell_int 0 b))) as H.
    replace (1 / 2 - (1 / 2 - area b / sqrt PI)) with (scal (/ sqrt PI) (RInt bell 0 b)).
    2:{ unfold scal; simpl; unfold mult; simpl. fold (area b). field. lra. }
    apply is_RInt_ext with (2 := H). intros t _. unfold scal; simpl; unfold mult; simpl. unfold std_bell, Rdiv. ring.
  - intros eps E. pose proof (Rinv_0_lt_compat eps E) as IE. exists (1 + / eps). split; [lra|].
    assert (K : forall b, 1 + / eps <= b -> Rabs (1 / 2 - area b / sqrt PI) < eps).
    { intros b HB. destruct (area_gap b) as [G0 G1]; [lra|].
      replace (1 / 2 - area b / sqrt PI) with ((sqrt PI / 2 - area b) / sqrt PI) by (field; lra).
      rewrite Rabs_right. 2:{ apply Rle_ge. apply Rmult_le_pos; [lra|]. left. now apply Rinv_0_lt_compat. }
      assert (BB : bell b < eps).
      { unfold bell. apply Rlt_trans with (/ (1 + b * b)); [apply exp_small; nra|]. apply inv_small; [exact E|nra]. }
      apply Rle_lt_trans with (2 * bell b / sqrt PI / sqrt PI).
      - apply Rmult_le_compat_r; [left; now apply Rinv_0_lt_compat|exact G1].
      - replace (2 * bell b / sqrt PI / sqrt PI) with (2 * bell b / PI) by (rewrite <- SQ at 1; field; lra).
        apply Rle_lt_trans with (bell b); [|exact BB]. pose proof PI2_1 as P21. pose proof (exp_pos (- (b * b))) as EP. fold (bell b) in EP.
        apply Rmult_le_reg_r with PI; [lra|]. unfold Rdiv. rewrite Rmult_assoc, Rinv_l by lra. nra. }
    split; [|exact K]. intros a HA. apply K. lra.
Qed.

Lemma gauss1_integrates m s : 0 < s -> integrates_to (gauss1 m s) 1.
Proof.
  intros H. pose proof PI_RGT_0 as HP. pose proof sqrt_pi_pos as P.
  assert (Q : 0 < sqrt (2 * s)) by (apply sqrt_lt_R0; lra).
  assert (Q2 : sqrt (2 * s) * sqrt (2 * s) = 2 * s) by (apply sqrt_sqrt; lra).
  pose proof (affine_integrates std_bell 1 m (/ sqrt (2 * s)) (Rinv_0_lt_compat _ Q) std_bell_integrates) as I.
  assert (EQ : forall x, std_bell ((x - m) * / sqrt (2 * s)) * / sqrt (2 * s) = gauss1 m s x).
  { intros x. unfold std_bell, bell, gauss1. replace (2 * PI * s) with (PI * (2 * s)) by ring. rewrite (sqrt_mult PI (2 * s)) by lra.
    replace (- ((x - m) * / sqrt (2 * s) * ((x - m) * / sqrt (2 * s)))) with (- ((x - m) * (x - m) / (2 * s))).
    - set (e := exp _). field. lra.
    - set (q := sqrt (2 * s)) in *. clearbody q. rewrite <- Q2. field. lra. }
  intros eps E. destruct (I eps E) as (B & PB & HB). exists B. split; [exact PB|]. intros a b HA HBb.
  destruct (HB a b HA HBb) as (v & V & AV). exists v. split; [|exact AV]. apply is_RInt_ext with (2 := V). intros x _. apply EQ.
Qed.
