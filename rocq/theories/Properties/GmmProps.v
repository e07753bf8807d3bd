(** C78: Gaussian mixture targets. *)
From Coq Require Import List Bool Arith Lia QArith Reals Qreals Lra.
Import ListNotations.
From Verif Require Import Prelude.Py Prelude.QBase Prelude.RBase Model.Normal Model.Mixture Model.Gmm
  Spec.NormalSpec Spec.DensitySpec Spec.WeightSpec Spec.GmmSpec
  Proofs.NormalProofs Proofs.MixtureProofs Proofs.MixtureDensity Proofs.GmmProofs.
Open Scope R_scope.

Lemma total_rsum ws : is_normalised ws -> Rsum (map Q2R ws) = 1.
Proof. intros [_ T]. rewrite total_Qsum in T. rewrite <- Q2R_sum. apply Qeq_eqR in T. rewrite T. apply RMicromega.Q2R_1. Qed.

(** With positive variances and at least one usable weight the target is built, the weights used are
    normalised and keep the ratios of the given ones, and for every batch: the density of a row is the
    weighted sum of the products of one-dimensional Gaussian densities with the given numbers as means and
    variances (not standard deviations), the log density is its logarithm, it is positive, and integrating
    out all the coordinates gives one. *)
Theorem C78_gmm_density_partial : forall d det inv means vars input,
  right_on_diagonals d det inv -> means <> [] -> length vars = length means ->
  Forall (fun m => length m = d) means -> Forall (variances d) vars ->
  length input = length means -> ~ In PInf input -> Exists usable input ->
  exists g ws, gmm_new det inv means vars (Some input) = Ok g /\ is_normalised ws /\ keeps_ratios input ws /\
    (forall rows, Forall (fun x => length x = d) rows ->
       Forall2 (fun x p => p = Fin (gauss_mixture (map Q2R ws) means vars x)) rows (gmm_prob g rows) /\
       Forall2 (fun x l => log_of l (gauss_mixture (map Q2R ws) means vars x)) rows (gmm_log_prob g rows)) /\
    (forall x, length x = d -> 0 < gauss_mixture (map Q2R ws) means vars x) /\
    integrates_all d (gauss_mixture (map Q2R ws) means vars) 1.
Proof.
  intros d det inv means vars input D N L F F' LI NP EU.
  destruct (set_weights_spec input NP EU) as (ws & SW & NW & KR). rewrite LI in SW.
  assert (LW : length ws = length means) by (destruct KR as [K _]; congruence).
  destruct (gmm_values det inv d means vars ws input D N L F F' SW NW LW) as (ss & E & V).
  assert (LS : length ss = length means).
  { destruct (components_ok det inv d D means vars L F F') as (ss' & E' & LS & _). rewrite E in E'. now inversion E'. }
  exists (mkGmm d ss (map Fin ws)), ws. split.
  { unfold gmm_new. destruct means as [|m0 means]; [congruence|]. rewrite E. cbn [bind]. rewrite LS, SW.
    inversion F; subst. reflexivity. }
  split; [exact NW|]. split; [exact KR|]. split; [intros rows FR; now apply V|]. split.
  - intros x Lx. apply mixture_positive with (d := d); auto; congruence.
  - rewrite <- (total_rsum ws NW). apply mixture_integrates; rewrite ?map_length; auto; congruence.
Qed.

Lemma repeat_usable q n : (0 < q)%Q -> n <> 0%nat -> Exists usable (repeat (Fin q) n).
Proof. intros H N. destruct n; [congruence|]. left. exists q. auto. Qed.
Lemma equal_total ws c : Forall (fun w => w == c)%Q ws -> (total ws == inject_Z (Z.of_nat (length ws)) * c)%Q.
Proof.
  induction 1 as [|w ws W F IH]; [reflexivity|]. cbn [total fold_right length] in *. fold (total ws). rewrite IH, W, Nat2Z.inj_succ.
  unfold Z.succ. rewrite inject_Z_plus. ring.
Qed.

(** Without weights every component gets the same. *)
Theorem C78_default_weights_partial : forall d det inv means vars,
  right_on_diagonals d det inv -> means <> [] -> length vars = length means ->
  Forall (fun m => length m = d) means -> Forall (variances d) vars ->
  exists g ws, gmm_new det inv means vars None = Ok g /\ length ws = length means /\ equal_weights ws /\
    (forall rows, Forall (fun x => length x = d) rows ->
       Forall2 (fun x p => p = Fin (gauss_mixture (map Q2R ws) means vars x)) rows (gmm_prob g rows) /\
       Forall2 (fun x l => log_of l (gauss_mixture (map Q2R ws) means vars x)) rows (gmm_log_prob g rows)) /\
    integrates_all d (gauss_mixture (map Q2R ws) means vars) 1.
Proof.
  intros d det inv means vars D N L F F'.
  set (input := default_weights (length means)).
  assert (NZ : length means <> 0%nat) by (destruct means; [congruence|discriminate]).
  assert (PQ : (0 < 1 / inject_Z (Z.of_nat (length means)))%Q).
  { unfold Qdiv. rewrite Qmult_1_l. apply Qinv_lt_0_compat. change 0%Q with (inject_Z 0). rewrite <- Zlt_Qlt. lia. }
  assert (LI : length input = length means) by apply repeat_length.
  destruct (C78_gmm_density_partial d det inv means vars input D N L F F' LI) as (g & ws & G & NW & KR & V & _ & I).
  { unfold input, default_weights. intros H. apply repeat_spec in H. discriminate. }
  { apply repeat_usable; auto. }
  exists g, ws. split; [exact G|]. assert (LW : length ws = length means) by (destruct KR; congruence).
  split; [exact LW|]. split; [|split; [exact V|exact I]].
  destruct KR as (_ & _ & KR). destruct NW as [NN T].
  assert (EQ : forall x y, In x ws -> In y ws -> (x == y)%Q).
  { intros x y Hx Hy. apply In_nth_error in Hx, Hy. destruct Hx as [i Hi]. destruct Hy as [j Hj].
    assert (B : forall k z, nth_error ws k = Some z -> nth_error input k = Some (Fin (1 / inject_Z (Z.of_nat (length means)))%Q)).
    { intros k z H. unfold input, default_weights. apply nth_error_repeat. rewrite <- LW. apply nth_error_Some. congruence. }
    specialize (KR i j _ _ x y (B i x Hi) PQ Hi (B j y Hj) PQ Hj). apply Qmult_inj_r in KR; [exact KR|].
    intros Z. rewrite Z in PQ. now apply Qlt_irrefl in PQ. }
  unfold equal_weights. apply Forall_forall. intros x Hx.
  assert (FX : Forall (fun w => w == x)%Q ws) by (apply Forall_forall; intros y Hy; now apply EQ).
  apply equal_total in FX. rewrite <- T, FX. ring.
Qed.

(** 2 x 2 determinant and inverse. *)
Definition gdet2 (c : rmat) : R := c 0%nat 0%nat * c 1%nat 1%nat - c 0%nat 1%nat * c 1%nat 0%nat.
Definition ginv2 (c : rmat) : rmat := fun i j =>
  match i, j with
  | O, O => c 1%nat 1%nat / gdet2 c | O, S O => - c 0%nat 1%nat / gdet2 c
  | S O, O => - c 1%nat 0%nat / gdet2 c | S O, S O => c 0%nat 0%nat / gdet2 c
  | _, _ => 0 end.
Lemma routines2 : right_on_diagonals 2 gdet2 ginv2.
Proof.
  intros sg c P C. pose proof (P 0%nat ltac:(lia)) as P0. pose proof (P 1%nat ltac:(lia)) as P1.
  pose proof (C 0%nat 0%nat ltac:(lia) ltac:(lia)) as C00. pose proof (C 0%nat 1%nat ltac:(lia) ltac:(lia)) as C01.
  pose proof (C 1%nat 0%nat ltac:(lia) ltac:(lia)) as C10. pose proof (C 1%nat 1%nat ltac:(lia) ltac:(lia)) as C11.
  simpl in C00, C01, C10, C11.
  assert (D : gdet2 c = sg 0%nat * sg 1%nat) by (unfold gdet2; rewrite C00, C01, C10, C11; ring).
  split; [rewrite D; unfold product; simpl; ring|].
  intros [|[|i]] [|[|j]] A B; try lia; simpl; rewrite ?D, ?C00, ?C01, ?C10, ?C11; field; lra.
Qed.

Example C78_example : right_on_diagonals 2 gdet2 ginv2 /\ Forall (fun m => length m = 2%nat) [[0; 1]; [-3; 2]] /\
  Forall (variances 2) [[1; 2]; [/ 2; 3]] /\ ~ In PInf [Fin 3%Q; NaN] /\ Exists usable [Fin 3%Q; NaN].
Proof.
  split; [exact routines2|]. split; [repeat constructor|].
  split; [repeat (apply Forall_cons || apply Forall_nil); (split; [reflexivity|repeat (apply Forall_cons || apply Forall_nil); lra])|].
  split; [intros [H|[H|[]]]; discriminate|]. left. exists 3%Q. split; reflexivity.
Qed.

(** Variances that are not positive are not always refused: only the sign of their product is looked at.
    Two negative ones give a target whose "density" grows without bound away from the mean. *)
Theorem C78_negative_variances_refuted : exists means vars g,
  gmm_new gdet2 ginv2 means vars None = Ok g /\ Forall (Forall (fun s => s < 0)) vars /\
  forall b, exists x p, gmm_prob g [x] = [Fin p] /\ b < p.
Proof.
  assert (D : gdet2 (diag_of [-1; -1]) = 1) by (unfold gdet2, diag_of; simpl; ring).
  exists [[0; 0]], [[-1; -1]].
  eexists. split.
  { unfold gmm_new, gmm_components, gmm_component. cbn [length Nat.eqb]. unfold normal_new. rewrite D.
    unfold Rltb. destruct (Rlt_dec 0 1) as [_|N]; [|exfalso; lra]. cbn [bind length]. 
    replace (set_weights 1 (default_weights 1)) with (Ok [Fin (1 / 1 / (1 / 1 + 0))%Q]) by reflexivity. reflexivity. }
  split; [repeat (apply Forall_cons || apply Forall_nil); lra|].
  intros b. set (c := - (1 / 2) * INR 2 * ln (PI * 2) + - (1 / 2) * ln 1).
  set (t := 2 + Rabs b + Rabs c). exists [t; 0]. eexists. split.
  { unfold gmm_prob, gmm_eval. cbn [g_weights g_models plain map]. unfold mixture_prob_batch. cbn [map].
    rewrite mixture_prob_spec; [reflexivity|repeat constructor|repeat constructor; discriminate]. }
  cbn [map density_of weighted_sum].
  replace (Q2R (1 / 1 / (1 / 1 + 0))) with 1 by (unfold Q2R; simpl; lra).
  rewrite Rmult_1_l, Rplus_0_r. unfold normal_log_prob. cbn [n_term1 n_term2 n_dims n_inv n_loc]. fold c.
  assert (Q : quad_form 2 (ginv2 (diag_of [-1; -1])) (fun i => vec_of [0; 0] i - vec_of [t; 0] i) = - (t * t)).
  { unfold quad_form, ginv2. rewrite D. unfold sum_to, vec_of, diag_of. simpl. field. }
  rewrite Q. pose proof (exp_ineq1_le (c + - (1 / 2) * - (t * t))) as E.
  pose proof (Rle_abs b). pose proof (Rle_abs (- c)) as C. rewrite Rabs_Ropp in C. pose proof (Rabs_pos b). pose proof (Rabs_pos c).
  assert (2 * t <= t * t) by (unfold t; nra). unfold t in *. lra.
Qed.

Print Assumptions C78_gmm_density_partial.
Print Assumptions C78_default_weights_partial.
Print Assumptions C78_negative_variances_refuted.
