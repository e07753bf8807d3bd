(** Lemmas on Gaussian mixture targets. *)
From Coquelicot Require Import Coquelicot.
From Coq Require Import List Bool Arith Lia QArith Reals Qreals Lra.
Import ListNotations.
From Verif Require Import Prelude.Py Prelude.QBase Prelude.RBase Model.Normal Model.Mixture Model.Gmm
  Spec.NormalSpec Spec.IntegralSpec Spec.DensitySpec Spec.WeightSpec Spec.GmmSpec
  Proofs.NormalProofs Proofs.GaussIntegral Proofs.MixtureProofs Proofs.MixtureDensity.
Open Scope R_scope.

(** ** Integrals *)
Lemma integrates_zero : integrates_to (fun _ => 0) 0.
Proof.
  intros e He. exists 1. split; [lra|]. intros a b _ _. exists 0. split.
  - pose proof (@is_RInt_const R_NormedModule a b 0) as H. unfold scal in H; simpl in H; unfold mult in H; simpl in H.
    rewrite Rmult_0_r in H. exact H.
  - rewrite Rminus_0_r, Rabs_R0. exact He.
Qed.
Lemma integrates_ext f g l : (forall x, f x = g x) -> integrates_to f l -> integrates_to g l.
Proof.
  intros E H e He. destruct (H e He) as (B & P & C). exists B. split; [exact P|]. intros a b A A'.
  destruct (C a b A A') as (v & I & V). exists v. split; [|exact V]. apply is_RInt_ext with (2 := I). intros x _. apply E.
Qed.
Lemma integrates_plus f g k l : integrates_to f k -> integrates_to g l -> integrates_to (fun x => f x + g x) (k + l).
Proof.
  intros F G e He. destruct (F (e / 2)) as (B & P & C); [lra|]. destruct (G (e / 2)) as (B' & P' & C'); [lra|].
  exists (Rmax B B'). split; [apply Rlt_le_trans with B; [exact P|apply Rmax_l]|]. intros a b A A'.
  pose proof (Rmax_l B B'). pose proof (Rmax_r B B').
  destruct (C a b) as (v & I & V); [lra|lra|]. destruct (C' a b) as (v' & I' & V'); [lra|lra|].
  exists (v + v'). split; [apply (is_RInt_plus f g a b v v' I I')|].
  apply Rabs_def2 in V, V'. apply Rabs_def1; lra.
Qed.
Lemma integrates_scal c f l : integrates_to f l -> integrates_to (fun x => c * f x) (c * l).
Proof.
  intros F e He. assert (P : 0 < Rabs c + 1) by (pose proof (Rabs_pos c); lra).
  destruct (F (e / (Rabs c + 1))) as (B & PB & C); [apply Rdiv_lt_0_compat; lra|].
  exists B. split; [exact PB|]. intros a b A A'. destruct (C a b A A') as (v & I & V).
  exists (c * v). split; [apply (is_RInt_scal f a b c v I)|].
  replace (c * v - c * l) with (c * (v - l)) by ring. rewrite Rabs_mult.
  apply Rle_lt_trans with ((Rabs c) * (e / (Rabs c + 1))).
  - apply Rmult_le_compat_l; [apply Rabs_pos|lra].
  - apply Rmult_lt_reg_r with (Rabs c + 1); [exact P|]. unfold Rdiv. rewrite !Rmult_assoc, Rinv_l by lra.
    pose proof (Rabs_pos c). nra.
Qed.

Lemma integrates_all_ext d : forall f g l, (forall x, length x = d -> f x = g x) -> integrates_all d f l -> integrates_all d g l.
Proof.
  induction d as [|d IH]; intros f g l E; simpl.
  - intros H. rewrite <- E; [exact H|reflexivity].
  - intros (h & H & K). exists h. split; [|exact K]. intros xs L. apply integrates_ext with (2 := H xs L).
    intros x. apply E. simpl. now rewrite L.
Qed.

Lemma mixture_first ws : forall means vars d, length means = length ws -> length vars = length ws ->
  Forall (fun m => length m = S d) means -> Forall (variances (S d)) vars ->
  forall xs, integrates_to (fun x => gauss_mixture ws means vars (x :: xs))
               (gauss_mixture ws (map (@tl R) means) (map (@tl R) vars) xs).
Proof.
  induction ws as [|w ws IH]; intros [|m means] [|v vars] d L L' F F' xs; try discriminate; simpl.
  - apply integrates_zero.
  - inversion F as [|? ? Fm F0]; inversion F' as [|? ? [Fv Pv] F0']; subst.
    destruct m as [|a m]; [discriminate|]. destruct v as [|s v]; [discriminate|]. cbn [tl gauss_product].
    apply integrates_plus.
    + apply integrates_ext with (f := fun x => (w * gauss_product m v xs) * gauss1 a s x); [intros x; ring|].
      assert (Ps : 0 < s) by now inversion Pv.
      pose proof (integrates_scal (w * gauss_product m v xs) _ 1 (gauss1_integrates a s Ps)) as H.
      rewrite Rmult_1_r in H. exact H.
    + apply (IH means vars d); auto.
Qed.
Lemma mixture_integrates d : forall ws means vars, length means = length ws -> length vars = length ws ->
  Forall (fun m => length m = d) means -> Forall (variances d) vars ->
  integrates_all d (gauss_mixture ws means vars) (Rsum ws).
Proof.
  induction d as [|d IH]; intros ws means vars L L' F F'; simpl.
  - revert means vars L L' F F'. induction ws as [|w ws IHw]; intros [|m means] [|v vars] L L' F F'; try discriminate; [reflexivity|].
    inversion F; inversion F'; subst. simpl. rewrite IHw; auto. destruct m; [simpl; ring|discriminate].
  - exists (gauss_mixture ws (map (@tl R) means) (map (@tl R) vars)). split.
    + intros xs _. now apply mixture_first with (d := d).
    + apply IH; try (now rewrite map_length).
      * rewrite Forall_map. eapply Forall_impl; [|exact F]. intros [|a m] E; simpl in *; [discriminate|lia].
      * rewrite Forall_map. eapply Forall_impl; [|exact F']. intros [|a m] [E P]; [discriminate|].
        split; [simpl in *; lia|now inversion P].
Qed.

(** ** One component *)
Lemma product_shift d f : product (S d) f = f 0%nat * product d (fun i => f (S i)).
Proof. unfold product. cbn [seq map fold_right]. f_equal. now rewrite <- seq_shift, map_map. Qed.
Lemma product_list : forall m v x, length v = length m -> length x = length m ->
  product (length m) (fun i => gauss1 (nth i m 0) (nth i v 0) (nth i x 0)) = gauss_product m v x.
Proof.
  induction m as [|a m IH]; intros [|s v] [|y x] L L'; try discriminate; [reflexivity|].
  cbn [length gauss_product]. rewrite product_shift. cbn [nth]. f_equal. apply IH; simpl in *; lia.
Qed.

Lemma component_ok det inv d m v : right_on_diagonals d det inv -> length m = d -> variances d v ->
  exists s, gmm_component det inv m v = Ok s /\
    forall x, length x = d -> exp (normal_log_prob s (vec_of x)) = gauss_product m v x.
Proof.
  intros D L [Lv P]. unfold gmm_component. rewrite Lv, L, Nat.eqb_refl.
  assert (PV : forall i, (i < d)%nat -> 0 < nth i v 0).
  { intros i H. apply (proj1 (Forall_forall _ _) P). apply nth_In. lia. }
  destruct (D (fun i => nth i v 0) (diag_of v) PV) as [DD DI]; [intros; reflexivity|].
  assert (POS : 0 < det (diag_of v)) by (rewrite DD; now apply product_pos).
  unfold normal_new, Rltb. destruct (Rlt_dec 0 (det (diag_of v))) as [_|N]; [|contradiction].
  eexists. split; [reflexivity|]. intros x Lx.
  assert (N : normal_new det inv d (vec_of m) (diag_of v) = Ok (mkNormal d (vec_of m) (diag_of v) (inv (diag_of v))
     (- (1 / 2) * INR d * ln (PI * 2)) (- (1 / 2) * ln (det (diag_of v))) (det (diag_of v)))).
  { unfold normal_new, Rltb. destruct (Rlt_dec 0 (det (diag_of v))); [reflexivity|contradiction]. }
  rewrite (holds_log _ _ _ _ _ _ (vec_of x) (new_holds _ _ _ _ _ _ N)).
  rewrite (diagonal_factor d (vec_of m) (fun i => nth i v 0)); auto.
  subst d. apply product_list; auto.
Qed.

Lemma components_ok det inv d : right_on_diagonals d det inv -> forall means vars, length vars = length means ->
  Forall (fun m => length m = d) means -> Forall (variances d) vars ->
  exists ss, gmm_components det inv means vars = Ok ss /\ length ss = length means /\
    forall ws x, length x = d ->
      weighted_sum ws (map (fun s => exp (normal_log_prob s (vec_of x))) ss) = gauss_mixture (map Q2R ws) means vars x.
Proof.
  intros D. induction means as [|m means IH]; intros [|v vars] L F F'; try discriminate.
  - exists []. split; [reflexivity|]. split; [reflexivity|]. intros [|w ws] x _; reflexivity.
  - inversion F; inversion F'; subst. destruct (IH vars) as (ss & E & LS & W); auto.
    destruct (component_ok det inv (length m) m v D) as (s & Es & Vs); auto.
    exists (s :: ss). simpl. rewrite Es. simpl. rewrite E. simpl. split; [reflexivity|]. split; [now rewrite LS|].
    intros [|w ws] x Lx; [reflexivity|]. simpl. rewrite (Vs x Lx). now rewrite W.
Qed.

Lemma plain_fin ws : plain (map Fin ws) = Some ws.
Proof. induction ws as [|w ws IH]; simpl; [reflexivity|]. now rewrite IH. Qed.

Lemma mixture_positive ws : forall means vars x d, is_normalised ws -> length means = length ws -> length vars = length ws ->
  Forall (variances d) vars -> length x = d -> 0 < gauss_mixture (map Q2R ws) means vars x.
Proof.
  intros means vars x d [N T] L L' F Lx.
  assert (GP : forall m v, Forall (fun s => 0 < s) v -> forall x, 0 < gauss_product m v x).
  { induction m as [|a m IH]; intros [|s v] P y; try (simpl; lra). destruct y as [|b y]; [simpl; lra|].
    inversion P; subst. simpl. apply Rmult_lt_0_compat; [|now apply IH]. unfold gauss1.
    apply Rmult_lt_0_compat; [|apply exp_pos]. apply Rinv_0_lt_compat, sqrt_lt_R0.
    pose proof PI_RGT_0. apply Rmult_lt_0_compat; lra. }
  assert (G : (0 < total ws)%Q -> 0 < gauss_mixture (map Q2R ws) means vars x).
  { clear T. revert means vars L L' F. induction N as [|w ws W N IH]; intros [|m means] [|v vars] L L' F T; try discriminate.
    inversion F as [|? ? [_ P] F0]; subst. simpl.
    assert (NN : forall ms vs, length ms = length ws -> length vs = length ws -> Forall (variances (length x)) vs ->
              0 <= gauss_mixture (map Q2R ws) ms vs x).
    { clear - N GP. induction N as [|w ws W N IH]; intros [|m ms] [|v vs] L L' F; try discriminate; simpl; [lra|].
      inversion F as [|? ? [_ P] F0]; subst. pose proof (GP m v P x). pose proof (Q2R_nonneg w W).
      assert (0 <= gauss_mixture (map Q2R ws) ms vs x) by (apply IH; auto). nra. }
    pose proof (GP m v P x) as GM. pose proof (Q2R_nonneg w W) as QW. simpl in T.
    destruct (Qlt_le_dec 0 w) as [PW|ZW].
    - apply Qlt_Rlt in PW. rewrite RMicromega.Q2R_0 in PW.
      assert (0 <= gauss_mixture (map Q2R ws) means vars x) by (apply NN; auto). nra.
    - assert (0 < gauss_mixture (map Q2R ws) means vars x).
      { apply IH; auto. apply Qlt_le_trans with (w + total ws)%Q; [exact T|].
        rewrite <- (Qplus_0_l (total ws)) at 2. apply Qplus_le_compat; [exact ZW|apply Qle_refl]. }
      nra. }
  apply G. rewrite T. reflexivity.
Qed.

Lemma gmm_values det inv d means vars ws input :
  right_on_diagonals d det inv -> means <> [] -> length vars = length means ->
  Forall (fun m => length m = d) means -> Forall (variances d) vars ->
  set_weights (length means) input = Ok (map Fin ws) -> is_normalised ws -> length ws = length means ->
  exists ss, gmm_components det inv means vars = Ok ss /\
  forall k rows, Forall (fun x => length x = d) rows ->
    let g := mkGmm k ss (map Fin ws) in
    Forall2 (fun x p => p = Fin (gauss_mixture (map Q2R ws) means vars x)) rows (gmm_prob g rows) /\
    Forall2 (fun x l => log_of l (gauss_mixture (map Q2R ws) means vars x)) rows (gmm_log_prob g rows).
Proof.
  intros D N L F F' SW NW LW. destruct (components_ok det inv d D means vars L F F') as (ss & E & LS & W).
  exists ss. split; [exact E|]. intros k rows FR g.
  unfold gmm_prob, gmm_log_prob, gmm_eval, g. cbn [g_weights g_models]. rewrite plain_fin.
  unfold mixture_prob_batch, mixture_log_prob_batch.
  assert (LV : forall x, Forall log_value (map (fun m => m x) (map (fun s x => Fin (normal_log_prob s (vec_of x))) ss))).
  { intros x. rewrite !Forall_map. apply Forall_forall. intros; exact I. }
  assert (V : forall x, length x = d -> weighted_sum ws (map density_of (map (fun m => m x)
     (map (fun s x => Fin (normal_log_prob s (vec_of x))) ss))) = gauss_mixture (map Q2R ws) means vars x).
  { intros x Lx. rewrite !map_map. cbn [density_of]. now apply W. }
  split.
  - induction FR as [|x rows Lx FR IH]; simpl; constructor; auto.
    rewrite mixture_prob_spec; [|apply LV|apply NW]. now rewrite V.
  - induction FR as [|x rows Lx FR IH]; simpl; constructor; auto.
    rewrite <- V by auto. apply mixture_log_spec; [apply LV|apply NW].
Qed.
