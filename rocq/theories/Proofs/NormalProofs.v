(** Lemmas about Gaussian densities. *)
From Coq Require Import List Bool Arith Lia Reals Lra.
Import ListNotations.
From Verif Require Import Prelude.Py Prelude.RBase Model.Normal Spec.NormalSpec.
Open Scope R_scope.

Lemma fold_plus_app l x : fold_right Rplus 0 (l ++ [x]) = fold_right Rplus 0 l + x.
Proof. induction l; simpl; [lra|]. rewrite IHl. lra. Qed.
Lemma fold_mult_app l x : fold_right Rmult 1 (l ++ [x]) = fold_right Rmult 1 l * x.
Proof. induction l; simpl; [lra|]. rewrite IHl. ring. Qed.

Lemma over_S d f : over (S d) f = over d f + f d.
Proof. unfold over. rewrite seq_S, map_app. simpl. apply fold_plus_app. Qed.
Lemma product_S d f : product (S d) f = product d f * f d.
Proof. unfold product. rewrite seq_S, map_app. simpl. apply fold_mult_app. Qed.
Lemma over_0 f : over 0 f = 0. Proof. reflexivity. Qed.
Lemma product_0 f : product 0 f = 1. Proof. reflexivity. Qed.

Lemma sum_to_over d f : sum_to d f = over d f.
Proof. induction d; simpl; [reflexivity|]. now rewrite over_S, IHd. Qed.

Lemma over_ext d f g : (forall i, (i < d)%nat -> f i = g i) -> over d f = over d g.
Proof.
  induction d; intros H; [reflexivity|]. rewrite !over_S, (H d) by lia. rewrite IHd; [reflexivity|].
  intros. apply H. lia.
Qed.
Lemma over_scal d c f : over d (fun i => c * f i) = c * over d f.
Proof. induction d; [rewrite !over_0; ring|]. rewrite !over_S, IHd. ring. Qed.
Lemma over_opp d f : over d (fun i => - f i) = - over d f.
Proof. induction d; [rewrite !over_0; ring|]. rewrite !over_S, IHd. ring. Qed.
Lemma over_single d k c : (k < d)%nat -> over d (fun j => if Nat.eq_dec j k then c else 0) = c.
Proof.
  intros H. induction d; [lia|]. rewrite over_S. destruct (Nat.eq_dec d k) as [->|N].
  - assert (G : forall n, (n <= k)%nat -> over n (fun j => if Nat.eq_dec j k then c else 0) = 0).
    { induction n; intros L; [reflexivity|]. rewrite over_S, IHn by lia. destruct (Nat.eq_dec n k); [lia|lra]. }
    rewrite G by lia. lra.
  - rewrite IHd by lia. lra.
Qed.

Lemma quad_dot d m v : quad_form d m v = dot d v (apply d m v).
Proof.
  unfold quad_form, dot, apply. rewrite sum_to_over. apply over_ext. intros i _. rewrite sum_to_over, <- over_scal.
  apply over_ext. intros j _. ring.
Qed.
Lemma quad_opp d m v : quad_form d m (fun i => - v i) = quad_form d m v.
Proof.
  unfold quad_form. rewrite !sum_to_over. apply over_ext. intros. rewrite !sum_to_over. apply over_ext. intros. ring.
Qed.
Lemma quad_ext d m v w : (forall i, (i < d)%nat -> v i = w i) -> quad_form d m v = quad_form d m w.
Proof.
  intros H. unfold quad_form. rewrite !sum_to_over. apply over_ext. intros. rewrite !sum_to_over. apply over_ext.
  intros. now rewrite !H.
Qed.
Lemma quad_zero d m v : (forall i, (i < d)%nat -> v i = 0) -> quad_form d m v = 0.
Proof.
  intros H. rewrite (quad_ext d m v (fun _ => 0) H). unfold quad_form. rewrite sum_to_over.
  rewrite (over_ext d _ (fun i => 0 * 0)). { rewrite over_scal. ring. }
  intros. rewrite sum_to_over. rewrite (over_ext d _ (fun i => 0 * 0)). { rewrite over_scal. ring. } intros. ring.
Qed.

Lemma inverse_psd d a b : psd d a -> inverse_of d b a -> psd d b.
Proof.
  intros P I v. specialize (P (apply d b v)). unfold dot in *.
  rewrite (over_ext d _ (fun i => apply d b v i * v i)) in P.
  - rewrite (over_ext d _ (fun i => apply d b v i * v i)); [exact P|]. intros. ring.
  - intros i L. now rewrite (I v i L).
Qed.

(** what the object stores for the moments (m, c) *)
Definition holds (det : rmat -> R) (inv : rmat -> rmat) (d : nat) (s : normal) (m : rvec) (c : rmat) : Prop :=
  n_dims s = d /\ n_loc s = m /\ n_inv s = inv c /\ n_term1 s = - (1 / 2) * INR d * ln (PI * 2) /\
  n_term2 s = - (1 / 2) * ln (det c) /\ 0 < det c.

(** a history of calls, each refused or not *)
Fixpoint run_moments (det : rmat -> R) (inv : rmat -> rmat) (s : normal) (h : list (rvec * rmat)) : normal :=
  match h with
  | [] => s
  | (m, c) :: h' => run_moments det inv (out_state (set_moments det inv s m c)) h'
  end.

Lemma new_holds det inv d m c s : normal_new det inv d m c = Ok s -> holds det inv d s m c.
Proof.
  unfold normal_new, Rltb. destruct (Rlt_dec 0 (det c)); [|discriminate].
  intros E. assert (s = mkNormal d m c (inv c) (- (1 / 2) * INR d * ln (PI * 2)) (- (1 / 2) * ln (det c)) (det c)) as -> by congruence.
  repeat split; auto.
Qed.

Lemma set_holds det inv d s m c m' c' : holds det inv d s m c ->
  (0 < det c' -> holds det inv d (out_state (set_moments det inv s m' c')) m' c') /\
  (~ 0 < det c' -> holds det inv d (out_state (set_moments det inv s m' c')) m c).
Proof.
  intros (A & B & C & D & E & F). unfold set_moments, Rltb. destruct (Rlt_dec 0 (det c')); split; intros G; try contradiction;
  repeat split; simpl; auto.
Qed.

Lemma run_holds det inv d h : forall s m c, holds det inv d s m c ->
  forall r, last_accepted (fun mc => 0 < det (snd mc)) h (m, c) r -> holds det inv d (run_moments det inv s h) (fst r) (snd r).
Proof.
  induction h as [|[m' c'] h IH]; intros s m c H r L; cbn [run_moments last_accepted] in *.
  - subst r. exact H.
  - destruct (set_holds det inv d s m c m' c' H) as [Y N]. destruct L as [[O L]|[O L]]; cbn [snd] in O.
    + apply (IH _ m' c' (Y O) r L).
    + apply (IH _ m c (N O) r L).
Qed.

Lemma holds_log det inv d s m c x : holds det inv d s m c -> normal_log_prob s x = gauss_log d m (det c) (inv c) x.
Proof.
  intros (A & B & C & D & E & F). unfold normal_log_prob, gauss_log. rewrite A, B, C, D, E.
  rewrite (quad_ext d (inv c) (fun i => m i - x i) (fun i => - (x i - m i))) by (intros; ring).
  rewrite quad_opp, quad_dot. rewrite (Rmult_comm PI 2). lra.
Qed.

Lemma gauss_log_ext d m D P x y : (forall i, (i < d)%nat -> x i = y i) -> gauss_log d m D P x = gauss_log d m D P y.
Proof.
  intros H. unfold gauss_log. rewrite <- !quad_dot. rewrite (quad_ext d P (fun i => x i - m i) (fun i => y i - m i)); [reflexivity|].
  intros. now rewrite H.
Qed.

Lemma gauss_log_max d m D P x : psd d P -> gauss_log d m D P x <= gauss_log d m D P m.
Proof.
  intros H. unfold gauss_log. rewrite <- !quad_dot. rewrite (quad_zero d P (fun i => m i - m i)) by (intros; lra).
  rewrite quad_dot. specialize (H (fun i => x i - m i)). lra.
Qed.

Lemma product_pos d f : (forall i, (i < d)%nat -> 0 < f i) -> 0 < product d f.
Proof.
  induction d; intros H; [rewrite product_0; lra|]. rewrite product_S. apply Rmult_lt_0_compat; [apply IHd; intros; apply H; lia|apply H; lia].
Qed.

Lemma gauss1_log m s x : 0 < s -> gauss1 m s x = exp (- (1 / 2) * ln (2 * PI) - / 2 * ln s - / 2 * ((x - m) * (/ s) * (x - m))).
Proof.
  intros H. pose proof PI_RGT_0 as HP. unfold gauss1.
  assert (Q : / sqrt (2 * PI * s) = exp (- (1 / 2) * ln (2 * PI) - / 2 * ln s)).
  { rewrite <- (exp_ln (/ sqrt (2 * PI * s))) by (apply Rinv_0_lt_compat, sqrt_lt_R0; nra).
    f_equal. rewrite ln_Rinv by (apply sqrt_lt_R0; nra).
    assert (L : ln (2 * PI * s) = 2 * ln (sqrt (2 * PI * s))).
    { rewrite <- (sqrt_sqrt (2 * PI * s)) at 1 by nra. rewrite ln_mult by (apply sqrt_lt_R0; nra). lra. }
    rewrite ln_mult in L by lra. lra. }
  rewrite Q, <- exp_plus. f_equal. field. lra.
Qed.

(** diagonal covariance *)
Lemma diagonal_factor d m sg D P x :
  (forall i, (i < d)%nat -> 0 < sg i) -> D = product d sg ->
  (forall i j, (i < d)%nat -> (j < d)%nat -> P i j = if Nat.eq_dec j i then / sg i else 0) ->
  exp (gauss_log d m D P x) = product d (fun i => gauss1 (m i) (sg i) (x i)).
Proof.
  intros HS -> HP. unfold gauss_log, dot.
  rewrite (over_ext d (fun i => (x i - m i) * apply d P (fun j => x j - m j) i) (fun i => (x i - m i) * / sg i * (x i - m i))).
  2:{ intros i L. unfold apply. rewrite (over_ext d _ (fun j => if Nat.eq_dec j i then / sg i * (x i - m i) else 0)).
      - rewrite over_single by auto. ring.
      - intros j LJ. rewrite HP by auto. destruct (Nat.eq_dec j i) as [->|]; ring. }
  clear HP. induction d as [|d IH].
  - rewrite over_0, !product_0. rewrite ln_1. simpl. replace (- (0 / 2) * ln (2 * PI) - / 2 * 0 - / 2 * 0) with 0 by lra. apply exp_0.
  - rewrite !product_S, over_S. rewrite <- IH by (intros; apply HS; lia).
    rewrite (ln_mult (product d sg)) by (try apply product_pos; intros; apply HS; lia).
    rewrite (gauss1_log (m d) (sg d)) by (apply HS; lia). rewrite <- exp_plus. f_equal. rewrite S_INR. lra.
Qed.
