(** The chains of layered AIS on a constant target, and rejection under an exact envelope. *)
From Coq Require Import List Bool Arith Lia QArith Lqa.
Import ListNotations.
From Verif Require Import Prelude.Py Prelude.QBase Prelude.QFacts Model.Base Model.Rejection Model.Population Spec.Box Spec.FlatSpec Proofs.MHProofs
  Proofs.PopulationProofs Proofs.PopulationHistory Proofs.FlatNested.
Open Scope Q_scope.

Lemma walked_app lo hi x ds y es z : walked lo hi x ds y -> walked lo hi y es z -> walked lo hi x (ds ++ es) z.
Proof. induction 1; simpl; auto. intros H1. econstructor; eauto. Qed.

Section Chains.
Variable P : pop_params.
Hypothesis B : is_box (pp_lo P) (pp_hi P).
Variable pi : vec -> Q.
Variable c : Q.
Hypothesis F : flat (pp_lo P) (pp_hi P) c pi.
Hypothesis C : 0 < c.

Lemma chain_walks (ev : nat -> vec * Q) n : (forall l, length (fst (ev l)) = length (pp_lo P) /\ snd (ev l) < 1) -> forall l (x : vec), in_box (pp_lo P) (pp_hi P) x ->
  walked (pp_lo P) (pp_hi P) x (map (fun l => fst (ev l)) (seq l n)) (mcmc_mh P pi ev n l x).
Proof.
  intros E. induction n as [|n IH]; intros l x X; cbn [mcmc_mh seq map]; cbv zeta; [constructor|]. destruct (E l) as (E1 & E2).
  set (y := vclip (vadd x (fst (ev l))) (pp_lo P) (pp_hi P)).
  pose proof (in_box_length _ _ _ X) as LX.
  assert (Y : in_box (pp_lo P) (pp_hi P) y) by (apply vclip_in_box; auto; rewrite vadd_length; lia).
  assert (A : fgtQ (fdivQ (pi y) (pi x)) (snd (ev l)) = true).
  { unfold fdivQ. pose proof (F y Y). pose proof (F x X). destruct (Qeq_bool (pi x) 0) eqn:Z; [apply Qeq_bool_iff in Z; lra|]. simpl. apply Qltb_true.
    assert (pi y / pi x == 1). { rewrite H, H0. field. lra. } lra. }
  fold y. rewrite A. econstructor; [|apply IH; exact Y]. apply clip_moved; auto; [rewrite vadd_length; lia|]. apply vadd_nth. lia.
Qed.

Definition moves (r : pop_round) (j : nat) : list vec := map (fun l => fst (pr_mh r j l)) (seq 0 (pp_L P)).

Lemma nth_combine_seq {A} (l : list A) : forall k j m, nth_error l j = Some m -> nth_error (combine (seq k (length l)) l) j = Some ((k + j)%nat, m).
Proof.
  induction l as [|a l IH]; intros k [|j] m; simpl; try discriminate; intros E.
  - inversion E. rewrite Nat.add_0_r. reflexivity.
  - rewrite (IH (S k) j m E). f_equal. f_equal. lia.
Qed.

Lemma turn_walks r s s' : round_ok P r -> means_in P s -> pop_iter LAIS P pi r s = Done s' ->
  length (pop_means s') = length (pop_means s) /\
  forall j m, nth_error (pop_means s) j = Some m -> exists m', nth_error (pop_means s') j = Some m' /\ walked (pp_lo P) (pp_hi P) m (moves r j) m'.
Proof.
  intros (_ & R) M E. unfold pop_iter, pop_adapt, lais_adapt in E. cbn [pop_means] in E. inversion E; subst; clear E. cbn [pop_means]. split.
  { rewrite map_length, combine_length, seq_length. lia. }
  intros j m Hj. eexists. split.
  - rewrite nth_error_map, (nth_combine_seq _ 0 j m Hj). simpl. reflexivity.
  - unfold moves. apply (chain_walks (pr_mh r j)).
    + intros l. split; [apply (R j l)|apply (R j l)].
    + unfold means_in in M. rewrite Forall_forall in M. apply M. eapply nth_error_In; eauto.
Qed.

Lemma loop_walks n timeout : forall tape el s s', Forall (round_ok P) tape -> means_in P s ->
  pop_loop LAIS P pi n timeout tape el s = Done s' ->
  length (pop_means s') = length (pop_means s) /\
  exists k, length (pop_samples s') = (length (pop_samples s) + k * (length (pop_means s) * pp_K P))%nat /\ (k <= length tape)%nat /\
  forall j m, nth_error (pop_means s) j = Some m -> exists m', nth_error (pop_means s') j = Some m' /\
    walked (pp_lo P) (pp_hi P) m (flat_map (fun r => moves r j) (firstn k tape)) m'.
Proof.
  assert (Stop : forall tape s, exists k, length (pop_samples s) = (length (pop_samples s) + k * (length (pop_means s) * pp_K P))%nat /\ (k <= length (tape : list pop_round))%nat /\
    forall j m, nth_error (pop_means s) j = Some m -> exists m', nth_error (pop_means s) j = Some m' /\
    walked (pp_lo P) (pp_hi P) m (flat_map (fun r => moves r j) (firstn k tape)) m').
  { intros tape s. exists 0%nat. split; [simpl; lia|]. split; [lia|]. intros j m Hj. exists m. split; auto. simpl. constructor. }
  induction tape as [|r t IH]; intros el s s' R M E; cbn [pop_loop] in E.
  - destruct (_ && _); [discriminate|]. inversion E; subst. split; auto.
  - destruct (_ && _); [|inversion E; subst; split; auto].
    inversion R as [|? ? R1 R2]; subst.
    pose proof (means_in_iter P pi r s B R1 M) as M1.
    assert (Sm : forall s1, pop_iter LAIS P pi r s = Done s1 -> length (pop_samples s1) = (length (pop_samples s) + length (pop_means s) * pp_K P)%nat).
    { intros s1 E1. unfold pop_iter, pop_adapt, lais_adapt in E1. inversion E1. cbn [pop_samples]. rewrite app_length. f_equal. unfold pop_draws.
      assert (G : forall a b, length (flat_map (fun j => map (pr_draw r j) (seq 0 (pp_K P))) (seq a b)) = (b * pp_K P)%nat).
      { intros a b. revert a. induction b as [|b IHb]; intros a; simpl; auto. rewrite app_length, map_length, seq_length, IHb. reflexivity. }
      apply G. }
    destruct (pop_iter LAIS P pi r s) as [s1|s1|e s1] eqn:E1; [|discriminate|discriminate].
    destruct (turn_walks r s s1 R1 M E1) as (L1 & W1). simpl in M1.
    destruct (IH _ s1 s' R2 M1 E) as (L2 & k & K1 & K2 & W2). split; [lia|].
    exists (S k). split; [rewrite K1, (Sm s1 eq_refl), L1; simpl; lia|]. split; [simpl; lia|].
    intros j m Hj. destruct (W1 j m Hj) as (m1 & J1 & A1). destruct (W2 j m1 J1) as (m2 & J2 & A2). exists m2. split; auto.
    simpl. eapply walked_app; eauto.
Qed.
End Chains.

(** Rejection: the envelope is the target itself on the points drawn. *)
Lemma exact_round (P : rej_params) (pi : vec -> Q) r k :
  (forall i, (i < k)%nat -> 0 < pi (rr_draw r i) /\ pi (rr_draw r i) == rj_q P (rr_draw r i) * rj_scaling P /\ rr_u r i < 1) ->
  rej_accepted P pi r k = rej_drawn r k.
Proof.
  intros H. unfold rej_accepted, rej_drawn. f_equal.
  assert (G : forall l, (forall i, In i l -> (i < k)%nat) -> filter (fun i => fgtQ (rej_ratio P pi (rr_draw r i)) (rr_u r i)) l = l).
  { induction l as [|i l IH]; intros Hl; auto. simpl. destruct (H i (Hl i (or_introl eq_refl))) as (A & E & U).
    assert (T : fgtQ (rej_ratio P pi (rr_draw r i)) (rr_u r i) = true).
    { unfold rej_ratio, fdivQ. destruct (Qeq_bool (rj_q P (rr_draw r i) * rj_scaling P) 0) eqn:Z; [apply Qeq_bool_iff in Z; lra|]. simpl. apply Qltb_true.
      assert (pi (rr_draw r i) / (rj_q P (rr_draw r i) * rj_scaling P) == 1). { rewrite <- E. field. lra. } lra. }
    rewrite T. f_equal. apply IH. intros; apply Hl; simpl; auto. }
  apply G. intros i Hi. apply in_seq in Hi. lia.
Qed.
