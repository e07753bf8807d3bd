(** C80: the banana target. *)
From Coq Require Import List Bool Arith Lia Reals Lra.
Import ListNotations.
From Verif Require Import Prelude.Py Model.Shape Model.Banana Spec.NormalSpec Spec.IntegralSpec Spec.GmmSpec Spec.BananaSpec
  Proofs.NormalProofs Proofs.GaussIntegral Proofs.GmmProofs.
Open Scope R_scope.

Lemma banana_twisted x y : exp (banana_logdensity x y) = banana_mass * twisted x y.
Proof.
  assert (P : 0 < PI) by apply PI_RGT_0. unfold twisted, gauss1, banana_mass.
  assert (S : sqrt (2 * PI * (100 / 3)) * sqrt (2 * PI * 1) = 2 * PI * sqrt (100 / 3)).
  { rewrite <- sqrt_mult by (apply Rmult_le_pos; lra). replace (2 * PI * (100 / 3) * (2 * PI * 1)) with ((2 * PI) * (2 * PI) * (100 / 3)) by ring.
    rewrite sqrt_mult by (try apply Rmult_le_pos; lra). rewrite sqrt_square by lra. reflexivity. }
  assert (A : 0 < sqrt (2 * PI * (100 / 3))) by (apply sqrt_lt_R0, Rmult_lt_0_compat; lra).
  assert (B : 0 < sqrt (2 * PI * 1)) by (apply sqrt_lt_R0, Rmult_lt_0_compat; lra).
  rewrite <- S. set (a := sqrt (2 * PI * (100 / 3))) in *. set (b := sqrt (2 * PI * 1)) in *.
  transitivity (exp (- ((x - 0) * (x - 0) / (2 * (100 / 3)))) *
    exp (- ((y - (3 - 3 / 100 * (x * x))) * (y - (3 - 3 / 100 * (x * x))) / (2 * 1)))); [|field; lra].
  rewrite <- exp_plus. f_equal. unfold banana_logdensity. field.
Qed.

(** What one row reports: the same multiple of the density of a twisted Gaussian everywhere, so it is
    positive; it is at most one, one only at (0, 3), and does not see the sign of the first coordinate. *)
Definition banana_value (r : list R) (p l : R) : Prop :=
  exists x y, r = [x; y] /\ p = exp l /\ p = banana_mass * twisted x y /\ 0 < p <= 1 /\ (p = 1 <-> x = 0 /\ y = 3).

Lemma banana_one x y : banana_value [x; y] (exp (banana_logdensity x y)) (banana_logdensity x y).
Proof.
  exists x, y. split; [reflexivity|]. split; [reflexivity|]. split; [apply banana_twisted|].
  assert (E : banana_logdensity x y = - (5 / 10) * (3 / 100 * (x * x) + (y + 3 / 100 * (x * x - 100)) * (y + 3 / 100 * (x * x - 100))))
    by (unfold banana_logdensity; ring).
  rewrite E. set (t := y + 3 / 100 * (x * x - 100)).
  assert (X : 0 <= x * x) by nra. assert (T : 0 <= t * t) by nra.
  split.
  - split; [apply exp_pos|]. rewrite <- exp_0. destruct (Req_dec (3 / 100 * (x * x) + t * t) 0) as [Z|Z].
    + right. f_equal. rewrite Z. ring.
    + left. apply exp_increasing. lra.
  - split.
    + intros H. rewrite <- exp_0 in H. apply exp_inv in H.
      assert (XX : x * x = 0) by lra. assert (TT : t * t = 0) by lra. apply Rsqr_0_uniq in XX. apply Rsqr_0_uniq in TT.
      split; [exact XX|]. unfold t in TT. rewrite XX in TT. lra.
    + intros [-> Y]. unfold t. rewrite Y. rewrite <- exp_0. f_equal. field.
Qed.

(** Every batch of pairs gets one value per row; the density and the log density belong together and
    follow the twisted Gaussian. *)
Theorem C80_banana_values : forall rows, Forall (fun r => length r = 2%nat) rows ->
  exists ps ls, banana_prob (Arr2 2 rows) = Ok ps /\ banana_log_prob (Arr2 2 rows) = Ok ls /\
    length ps = length rows /\ length ls = length rows /\
    (forall i r p l, nth_error rows i = Some r -> nth_error ps i = Some p -> nth_error ls i = Some l -> banana_value r p l).
Proof.
  intros rows F. unfold banana_prob, banana_log_prob, banana_rows. rewrite Nat.eqb_refl. cbn [bind].
  do 2 eexists. split; [reflexivity|]. split; [reflexivity|]. rewrite !map_length. split; [reflexivity|]. split; [reflexivity|].
  intros i r p l R P L. rewrite !map_map in P. rewrite map_map in L.
  assert (LR : length r = 2%nat) by (apply nth_error_In in R; exact (proj1 (Forall_forall _ _) F r R)).
  destruct r as [|x [|y [|z r]]]; try discriminate.
  rewrite (map_nth_error _ _ _ R) in P. rewrite (map_nth_error _ _ _ R) in L. inversion P; inversion L; subst. apply banana_one.
Qed.

(** Mirroring the first coordinate of every row changes nothing. *)
Theorem C80_mirror : forall rows, banana_prob (Arr2 2 (map (fun p => [fst p; snd p]) rows)) =
  banana_prob (Arr2 2 (map (fun p : R * R => [- fst p; snd p]) rows)).
Proof.
  intros rows. unfold banana_prob, banana_log_prob, banana_rows. rewrite !map_length, Nat.eqb_refl. cbn [bind].
  f_equal. rewrite !map_map. apply map_ext. intros [x y]. cbn [fst snd nth]. f_equal. unfold banana_logdensity. ring.
Qed.

(** The reported values have mass 2 pi sqrt(100/3), not one: they are only proportional to a density. The second
    coordinate is integrated first. *)
Theorem C80_mass : forall f, (forall x y, banana_prob (Arr2 2 [[x; y]]) = Ok [f x y]) ->
  integrates_all 2 (fun v => f (nth 1 v 0) (nth 0 v 0)) banana_mass /\ 1 < banana_mass.
Proof.
  intros f F. assert (FE : forall x y, f x y = exp (banana_logdensity x y)).
  { intros x y. specialize (F x y). cbn in F. inversion F. reflexivity. }
  assert (P : 0 < PI) by apply PI_RGT_0.
  split.
  - simpl. exists (fun v => banana_mass * gauss1 0 (100 / 3) (nth 0 v 0)). split.
    + intros xs L. destruct xs as [|x [|x' xs]]; try discriminate. cbn [nth].
      apply integrates_ext with (f := fun y => banana_mass * gauss1 0 (100 / 3) x * gauss1 (3 - 3 / 100 * (x * x)) 1 y).
      * intros y. rewrite FE, banana_twisted. unfold twisted. ring.
      * pose proof (integrates_scal (banana_mass * gauss1 0 (100 / 3) x) _ 1 (gauss1_integrates (3 - 3 / 100 * (x * x)) 1 Rlt_0_1)) as H.
        rewrite Rmult_1_r in H. exact H.
    + exists (fun _ => banana_mass). split; [|reflexivity]. intros xs L. cbn [nth].
      assert (Q : 0 < 100 / 3) by lra.
      pose proof (integrates_scal banana_mass _ 1 (gauss1_integrates 0 (100 / 3) Q)) as H. rewrite Rmult_1_r in H. exact H.
  - unfold banana_mass. assert (1 < sqrt (100 / 3)) by (rewrite <- sqrt_1 at 1; apply sqrt_lt_1; lra).
    pose proof PI2_3_2. unfold PI2 in *. nra.
Qed.

(** A single point may be passed as a vector; every other shape with a wrong width is refused. *)
Theorem C80_shapes : forall x ps, banana_prob x = Ok ps ->
  (exists v, x = Arr1 v /\ length v = 2%nat /\ length ps = 1%nat) \/
  (exists w rows, x = Arr2 w rows /\ (w = 2%nat \/ rows = []) /\ length ps = length rows).
Proof.
  intros x ps H. unfold banana_prob, banana_log_prob, banana_rows in H. destruct x as [v|w rows|k]; [left|right|discriminate].
  - destruct (Nat.eqb_spec (length v) 2) as [E|E]; [|discriminate]. cbn in H. inversion H. eauto.
  - destruct (Nat.eqb_spec (length rows * w) (length rows * 2)) as [E|E]; [|discriminate]. cbn [bind] in H. inversion H.
    exists w, rows. split; [reflexivity|]. rewrite !map_length. split; [|reflexivity].
    destruct rows as [|r rows]; [now right|left]. apply Nat.mul_cancel_l in E; [exact E|discriminate].
Qed.

Example C80_example : Forall (fun r => length r = 2%nat) [[0; 3]; [-4; 7]] /\
  (exists ps, banana_prob (Arr1 [1; 2]) = Ok ps) /\ exists f, forall x y, banana_prob (Arr2 2 [[x; y]]) = Ok [f x y].
Proof. split; [repeat constructor|]. split; [eexists; reflexivity|]. exists (fun x y => exp (banana_logdensity x y)). reflexivity. Qed.

Print Assumptions C80_banana_values.
Print Assumptions C80_mirror.
Print Assumptions C80_mass.
Print Assumptions C80_shapes.
