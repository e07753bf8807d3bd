(** Lemmas about the density of mixture distributions. *)
From Coq Require Import List Bool Arith Lia QArith Reals Qreals Lra.
Import ListNotations.
From Verif Require Import Prelude.Py Prelude.QBase Prelude.QFacts Prelude.RBase Model.Mixture Spec.DensitySpec.
Open Scope R_scope.

Lemma Q2R_nonneg w : (0 <= w)%Q -> 0 <= Q2R w.
Proof. intros H. apply Qle_Rle in H. now rewrite RMicromega.Q2R_0 in H. Qed.
Lemma Q2R_sum ws : Q2R (Qsum ws) = Rsum (map Q2R ws).
Proof. induction ws; simpl; [apply RMicromega.Q2R_0|]. now rewrite Q2R_plus, IHws. Qed.

Lemma density_nonneg l : 0 <= density_of l.
Proof. destruct l; simpl; try lra. left; apply exp_pos. Qed.

Lemma fexp_density l : log_value l -> fexp l = Fin (density_of l).
Proof. destruct l; simpl; tauto. Qed.

Lemma mixture_sum ls : forall ws, Forall log_value ls ->
  fsumR (map2 (fun l w => fmulR (fexp l) (Fin (Q2R w))) ls ws) = Fin (weighted_sum ws (map density_of ls)).
Proof.
  induction ls as [|l ls IH]; intros ws F; simpl.
  - destruct ws; reflexivity.
  - inversion F; subst. destruct ws as [|w ws]; simpl; auto.
    rewrite IH, fexp_density by auto. simpl. f_equal. ring.
Qed.

Lemma weighted_nonneg ws : forall ds, Forall (fun w => (0 <= w)%Q) ws -> Forall (fun d => 0 <= d) ds -> 0 <= weighted_sum ws ds.
Proof.
  induction ws as [|w ws IH]; intros ds F G; simpl; try lra. destruct ds as [|d ds]; try lra.
  inversion F; inversion G; subst. apply Q2R_nonneg in H1. specialize (IH ds H2 H6). nra.
Qed.

Lemma density_list_nonneg ls : Forall (fun d => 0 <= d) (map density_of ls).
Proof. rewrite Forall_map. apply Forall_forall. intros; apply density_nonneg. Qed.

Lemma finfo_neg : finfo_min < 0.
Proof.
  unfold finfo_min. assert (0 < 2 ^ 1023) by (apply pow_lt; lra).
  assert (/ 2 ^ 52 < 1). { rewrite <- Rinv_1. apply Rinv_lt_contravar; [|apply Rlt_pow_R1; [lra|lia]].
    rewrite Rmult_1_l. apply pow_lt; lra. }
  set (z := 2 ^ 1023) in *. set (y := / 2 ^ 52) in *. nra.
Qed.

Lemma mixture_prob_spec ls ws : Forall log_value ls -> Forall (fun w => (0 <= w)%Q) ws ->
  mixture_prob ls ws = Fin (weighted_sum ws (map density_of ls)).
Proof.
  intros F G. unfold mixture_prob. rewrite mixture_sum by auto.
  pose proof (weighted_nonneg ws (map density_of ls) G (density_list_nonneg ls)).
  unfold Rltb. destruct (Rlt_dec _ _) as [L|L]; auto. pose proof finfo_neg. lra.
Qed.

Lemma weighted_le ws : forall ds m, Forall (fun w => (0 <= w)%Q) ws -> Forall (fun d => d <= m) ds -> length ws = length ds ->
  weighted_sum ws ds <= Q2R (Qsum ws) * m.
Proof.
  induction ws as [|w ws IH]; intros [|d ds] m F G L; try discriminate; simpl.
  - rewrite RMicromega.Q2R_0. lra.
  - inversion F; inversion G; subst. rewrite Q2R_plus. apply Q2R_nonneg in H1.
    specialize (IH ds m H2 H6 ltac:(simpl in L; lia)). nra.
Qed.
Lemma weighted_ge ws : forall ds m, Forall (fun w => (0 <= w)%Q) ws -> Forall (fun d => m <= d) ds -> length ws = length ds ->
  Q2R (Qsum ws) * m <= weighted_sum ws ds.
Proof.
  induction ws as [|w ws IH]; intros [|d ds] m F G L; try discriminate; simpl.
  - rewrite RMicromega.Q2R_0. lra.
  - inversion F; inversion G; subst. rewrite Q2R_plus. apply Q2R_nonneg in H1.
    specialize (IH ds m H2 H6 ltac:(simpl in L; lia)). nra.
Qed.

(** logsumexp *)
Lemma fmax_log a b : log_value a -> log_value b -> log_value (fmaxR a b).
Proof. destruct a, b; simpl; tauto. Qed.
Lemma fold_max_log l : Forall log_value l -> log_value (fold_right fmaxR NInf l).
Proof. induction 1; simpl; auto. now apply fmax_log. Qed.
Lemma fold_max_ninf l : Forall log_value l -> fold_right fmaxR NInf l = NInf -> Forall (fun x => x = NInf) l.
Proof.
  induction 1 as [|x l Hx H IH]; simpl; auto. intros E.
  pose proof (fold_max_log l H) as G. destruct x; simpl in Hx; try contradiction.
  - destruct (fold_right fmaxR NInf l); simpl in *; try discriminate; contradiction.
  - constructor; auto. apply IH. destruct (fold_right fmaxR NInf l); simpl in *; try discriminate; auto; contradiction.
Qed.

Lemma masked_sum ls : forall ws m0, Forall log_value ls ->
  fsumR (map2 (fun x w => fmulR (Fin (Q2R w)) (fexp (fsubR x (Fin m0))))
     (map2 (fun x w => if Qeq_bool w 0 then NInf else x) ls ws) ws)
  = Fin (weighted_sum ws (map density_of ls) * exp (- m0)).
Proof.
  induction ls as [|l ls IH]; intros ws m0 F.
  - destruct ws; simpl; f_equal; ring.
  - inversion F; subst. destruct ws as [|w ws]; [simpl; f_equal; ring|]. cbn [map2 fsumR map weighted_sum]. rewrite IH by auto.
    destruct (Qeq_bool_spec w 0) as [E|E].
    + simpl. f_equal. assert (Z : Q2R w = 0) by (apply Qeq_eqR in E; now rewrite RMicromega.Q2R_0 in E). rewrite Z. ring.
    + destruct l as [a| | |]; simpl in *; try contradiction; f_equal; [|ring].
      unfold Rminus. rewrite exp_plus. ring.
Qed.

Lemma mixture_log_spec ls ws : Forall log_value ls -> Forall (fun w => (0 <= w)%Q) ws ->
  log_of (mixture_log_prob ls ws) (weighted_sum ws (map density_of ls)).
Proof.
  intros F G. unfold mixture_log_prob, logsumexp.
  set (m0 := match fold_right fmaxR NInf _ with Fin r => r | _ => 0 end). clearbody m0.
  rewrite masked_sum by auto. set (d := weighted_sum ws (map density_of ls)).
  assert (D : 0 <= d) by (apply weighted_nonneg; auto; apply density_list_nonneg).
  clearbody d. pose proof (exp_pos (- m0)) as P. unfold log_of, fln, Rltb, Reqb.
  destruct (Rlt_dec 0 (d * exp (- m0))) as [L|L].
  - assert (0 < d) by nra. left. split; auto. simpl. f_equal. rewrite ln_mult, ln_exp by auto. ring.
  - assert (d = 0) by nra. subst d. right. split; auto. destruct (Req_EM_T _ _) as [E|E]; [reflexivity|].
    exfalso. apply E. ring.
Qed.
