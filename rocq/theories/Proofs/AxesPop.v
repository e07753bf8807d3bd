(** Deterministic-mixture AIS and layered AIS in renamed coordinates. *)
From Coq Require Import List Bool Arith Lia QArith Lqa.
Import ListNotations.
From Verif Require Import Prelude.Py Prelude.QBase Prelude.QFacts Model.Base Model.Mixture Model.Population Spec.ScaleSpec Spec.AxesSpec Spec.AxesOps Proofs.ScaleBase Proofs.ScalePop Proofs.AxesBase
  Proofs.MixtureProofs Proofs.MixtureSelect.
Open Scope Q_scope.

Section Axes.
Variables (dm : nat) (sg : list nat).
Notation R := (relabel dm sg).
Notation dens pi pi' := (forall x y, R x y -> pi' y == pi x).

Definition pop_rel (s s' : pop) : Prop :=
  relabels dm sg (pop_means s) (pop_means s') /\ relabels dm sg (pop_samples s) (pop_samples s') /\ same_weights (pop_weights s) (pop_weights s') /\
  pop_q_samples s' = pop_q_samples s /\ pop_q_evals s' = pop_q_evals s /\ pop_pi_evals s' = pop_pi_evals s /\ pop_qdens s' = pop_qdens s.
Section Pop.
Variables (P P' : pop_params) (pi pi' : vec -> Q).
Hypothesis Sl : R (pp_lo P) (pp_lo P').
Hypothesis Sh : R (pp_hi P) (pp_hi P').
Hypothesis SK : pp_K P' = pp_K P.
Hypothesis SL : pp_L P' = pp_L P.
Hypothesis Sc : forall m m', R m m' -> dens (pp_comp P m) (pp_comp P' m').
Hypothesis K0 : (0 < pp_K P)%nat.
Hypothesis D : dens pi pi'.
Lemma sum_scale (l l' : list Q) : Forall2 (fun u v => v == u) l l' -> Qsum l' == Qsum l.
Proof. induction 1; simpl; [reflexivity|]. now rewrite H, IHForall2. Qed.
Lemma pop_prob_axes (ms ms' : list vec) (x y : vec) : relabels dm sg ms ms' -> R x y -> pop_prob P' ms' y == pop_prob P ms x.
Proof.
  intros M X. unfold pop_prob. rewrite (relabels_length dm sg _ _ M). generalize (1 / Qnat (length ms)). intros w. apply sum_scale.
  eapply map_rel; [|exact M]. intros m m' H. cbv beta. now rewrite (Sc m m' H x y X).
Qed.
Lemma pop_weigh_axes (ms ms' xs ys : list vec) : relabels dm sg ms ms' -> relabels dm sg xs ys -> same_weights (pop_weigh P pi ms xs) (pop_weigh P' pi' ms' ys).
Proof.
  intros M X. unfold pop_weigh. eapply map_rel; [|exact X]. intros x y H. cbv beta. apply times_k with (1 / 1); [reflexivity|]. apply times_fdivQ; [reflexivity|reflexivity|rewrite (D _ _ H); ring|rewrite (pop_prob_axes _ _ _ _ M H); ring].
Qed.
Lemma pop_draws_axes (ms ms' : list vec) r r' : relabels dm sg ms ms' -> pop_round_axes dm sg r r' -> relabels dm sg (pop_draws P ms r) (pop_draws P' ms' r').
Proof.
  intros M (H & _). unfold pop_draws. rewrite SK, (relabels_length dm sg _ _ M). generalize (seq 0 (length ms)). intros l. induction l as [|j l IH]; [constructor|]. cbn [flat_map]. apply app_rel; auto. apply relabels_draws. apply H.
Qed.
Lemma pop_draws_length (ms : list vec) r : length (pop_draws P ms r) = (length ms * pp_K P)%nat.
Proof.
  unfold pop_draws. rewrite <- (seq_length (length ms) 0) at 2. generalize (seq 0 (length ms)). intros l. induction l as [|j l IH]; simpl; auto. rewrite app_length, map_length, seq_length, IH. reflexivity.
Qed.
Lemma dm_adapt_axes r r' (xs ys : list vec) ws ws' s s' : pop_round_axes dm sg r r' -> relabels dm sg xs ys -> length ws = length xs -> (length (pop_means s) <= length xs)%nat ->
  same_weights ws ws' -> pop_rel s s' -> outs pop_rel (dm_adapt P pi r xs ws s) (dm_adapt P' pi' r' ys ws' s').
Proof.
  intros (_ & U & _) X Ln Pos W (H1 & H2 & H3 & H4 & H5 & H6 & H7). unfold dm_adapt. pose proof (normalise_same 1 eq_refl _ _ W) as N. rewrite (all_fin 1 _ _ N). destruct (forallb is_fin (normalise ws)); [|simpl; repeat (split; auto)].
  unfold outs, pop_rel; cbn [pop_means pop_samples pop_weights pop_q_samples pop_q_evals pop_pi_evals pop_qdens]. repeat (split; auto). rewrite (relabels_length dm sg _ _ H1).
  destruct (pop_means s) as [|m0 ms] eqn:Em; [constructor|]. apply relabels_draws. intros j. cbv beta. rewrite (multinomial_eq (map fin_val (normalise ws)) (map fin_val (normalise ws')) (pr_u r' j) (fin_vals_same _ _ N) 1 1 0 (Qeq_refl 1)).
  rewrite (multinomial1_ext _ _ _ _ 0 (U j)). apply relabels_nth; auto. pose proof (multinomial1_range (map fin_val (normalise ws)) 1 (pr_u r j) 0) as Rg.
  assert (Lv : length (map fin_val (normalise ws)) = length xs) by (unfold normalise; rewrite !map_length; exact Ln). rewrite Lv in Rg. simpl in Rg. apply Rg. intros Z. rewrite Z in Lv. simpl in Lv, Pos. lia.
Qed.
Lemma mcmc_axes_pop (ev ev' : nat -> vec * Q) n : (forall l, relabel dm sg (fst (ev l)) (fst (ev' l)) /\ snd (ev' l) = snd (ev l)) -> forall l x y, R x y -> R (mcmc_mh P pi ev n l x) (mcmc_mh P' pi' ev' n l y).
Proof.
  intros E. induction n as [|n IH]; intros l x y X; [exact X|]. cbn [mcmc_mh]. destruct (E l) as (E1 & E2). rewrite E2.
  assert (Y : R (vclip (vadd x (fst (ev l))) (pp_lo P) (pp_hi P)) (vclip (vadd y (fst (ev' l))) (pp_lo P') (pp_hi P'))) by (apply relabel_clip; auto; now apply relabel_add).
  replace (fgtQ (fdivQ (pi' (vclip (vadd y (fst (ev' l))) (pp_lo P') (pp_hi P'))) (pi' y)) (snd (ev l)))
    with (fgtQ (fdivQ (pi (vclip (vadd x (fst (ev l))) (pp_lo P) (pp_hi P))) (pi x)) (snd (ev l))).
  - apply IH. destruct (fgtQ _ _); auto.
  - symmetry. apply (times_gt 1); [reflexivity| |ring]. apply times_k with (1 / 1); [reflexivity|]. apply times_fdivQ; [reflexivity|reflexivity|rewrite (D _ _ Y); ring|rewrite (D _ _ X); ring].
Qed.
Lemma lais_adapt_axes r r' xs ys ws ws' s s' : pop_round_axes dm sg r r' -> pop_rel s s' -> outs pop_rel (lais_adapt P pi r xs ws s) (lais_adapt P' pi' r' ys ws' s').
Proof.
  intros (_ & _ & E & _) (H1 & H2 & H3 & H4 & H5 & H6 & H7). unfold lais_adapt. rewrite SL, (relabels_length dm sg _ _ H1). unfold outs, pop_rel; cbn [pop_means pop_samples pop_weights pop_q_samples pop_q_evals pop_pi_evals pop_qdens].
  rewrite H4, H5, H6, H7. repeat (split; auto). generalize (seq 0 (length (pop_means s))). revert H1. generalize (pop_means s) (pop_means s'). clear -E Sl Sh D. intros ms ms' H. induction H as [|x y xs ys X H IH]; intros [|j js]; try constructor; [|exact (IH js)].
  apply mcmc_axes_pop; auto.
Qed.
Lemma pop_iter_axes k r r' s s' : pop_round_axes dm sg r r' -> pop_rel s s' -> outs pop_rel (pop_iter k P pi r s) (pop_iter k P' pi' r' s').
Proof.
  intros E L. unfold pop_iter. pose proof L as (H1 & H2 & H3 & H4 & H5 & H6 & H7). pose proof (pop_draws_axes _ _ r r' H1 E) as X. pose proof (pop_draws_length (pop_means s) r) as Ln. pose proof (pop_weigh_axes _ _ _ _ H1 X) as W.
  assert (Lw : length (pop_weigh P pi (pop_means s) (pop_draws P (pop_means s) r)) = length (pop_draws P (pop_means s) r)) by apply map_length.
  revert X Ln W Lw. generalize (pop_draws P (pop_means s) r) (pop_draws P' (pop_means s') r'). intros xs ys X Ln W Lw. revert W Lw. generalize (pop_weigh P pi (pop_means s) xs) (pop_weigh P' pi' (pop_means s') ys). intros ws ws' W Lw.
  match goal with |- outs _ (match pop_adapt k P pi r xs ws ?u with _ => _ end) (match pop_adapt k P' pi' r' ys ws' ?u' with _ => _ end) => assert (L1 : pop_rel u u');
    [|assert (T : outs pop_rel (pop_adapt k P pi r xs ws u) (pop_adapt k P' pi' r' ys ws' u')); [destruct k; [apply dm_adapt_axes; auto; cbn [pop_means]; rewrite Ln; nia|apply lais_adapt_axes; auto]|];
    destruct (pop_adapt k P pi r xs ws u), (pop_adapt k P' pi' r' ys ws' u')] end; simpl in *; try tauto.
  - unfold pop_rel; simpl. rewrite (relabels_length dm sg _ _ X), (relabels_length dm sg _ _ H1), H4, H5, H6, H7. repeat (split; auto).
  - destruct T as (T1 & T2 & T3 & T4 & T5 & T6 & T7). unfold pop_rel; simpl. repeat (split; auto); apply app_rel; auto.
Qed.
Lemma pop_loop_axes k n timeout tape tape' : Forall2 (pop_round_axes dm sg) tape tape' -> forall el s s', pop_rel s s' -> outs pop_rel (pop_loop k P pi n timeout tape el s) (pop_loop k P' pi' n timeout tape' el s').
Proof.
  induction 1 as [|r r' t t' E F IH]; intros el s s' L; cbn [pop_loop]; rewrite (relabels_length dm sg _ _ (proj1 (proj2 L))); destruct (_ && _); try exact L.
  replace (pr_clock r') with (pr_clock r) by (symmetry; apply E). pose proof (pop_iter_axes k r r' s s' E L) as H. destruct (pop_iter k P pi r s), (pop_iter k P' pi' r' s'); simpl in H; try contradiction; try exact H. now apply IH.
Qed.
End Pop.
End Axes.
