(** Property C91: adaptation of mixture population Monte Carlo. *)
From Coq Require Import List Bool Arith Lia QArith Lqa Reals Qreals.
Import ListNotations.
From Verif Require Import Prelude.Py Prelude.QBase Prelude.RBase Prelude.QFacts Model.Base Model.Mixture Model.Population Model.MPMC Model.Normal
  Spec.MPMCSpec Spec.PopulationSpec Spec.EmSpec Spec.NormalSpec Proofs.PopulationProofs Proofs.MPMCProofs Proofs.MPMCHistory Proofs.MPMCWitness
  Proofs.EmStep Proofs.MPMCEm Proofs.NormalProofs Proofs.NormalMean Proofs.MPMCWorse.
Open Scope Q_scope.

(** C91 (full statement: without the condition on the components). After a turn, the mixture has at least the weighted log
    likelihood on the new batch that it had before, the weights being target over previous mixture, as soon as the new mean
    and covariance of each component are no worse than the previous ones for the weights it is responsible for. *)
Theorem C91_adaptation_partial :
  forall P us ops s, mp_params_ok P -> length us = mp_N P -> Forall (fun e => mp_op_ok P (fst e)) ops -> mp_reachable P us ops s ->
  since_reset (map mp_raised ops) = 0%nat -> mp_dead s = false ->
  forall pi r s', (forall x, 0 <= pi x) -> mp_iter P pi r s = Done s' -> mp_dead s' = false ->
  exists xs, mp_samples s' = mp_samples s ++ xs /\
  let w x := pi x / mp_mix P s x in
  ((forall d p p', nth_error (mp_props s) d = Some p -> nth_error (mp_props s') d = Some p' ->
      (loglik (fun x => (w x * mp_rho P s d x)%Q) (mp_comp P (fst p) (snd p)) xs <= loglik (fun x => (w x * mp_rho P s d x)%Q) (mp_comp P (fst p') (snd p')) xs)%R) ->
   (loglik w (mp_mix P s) xs <= loglik w (mp_mix P s') xs)%R).
Proof.
  intros P us ops s PO U O R Z _ pi r s' Pi E Dd. destruct (mp_books_reachable _ _ _ _ PO U O R) as (t & Ok & _ & _ & _ & _ & _ & _ & Cl).
  specialize (Cl Z). pose proof (mp_iter_case P pi r s PO Ok Pi) as Ic. rewrite E in Ic.
  inversion Ic as [xs Lx Zx Eq|xs alpha mixw props Lx Ex Hp Ha Al Sa Ok' Eq|]; subst; [discriminate|].
  exists xs. split; [reflexivity|]. cbv zeta. intros Better.
  assert (Sp : 0 < Qsum (map (mp_raw P pi s) xs)).
  { apply Exists_exists in Ex. destruct Ex as (x & X & Px).
    assert (Fr : Forall (fun w => 0 <= w) (map (mp_raw P pi s) xs)).
    { apply Forall_forall. intros w W. apply in_map_iff in W. destruct W as (y & <- & _). apply raw_nonneg; auto. }
    apply (Qsum_pos_in _ (mp_raw P pi s x) Fr (in_map _ _ _ X)).
    unfold mp_raw. apply Qlt_shift_div_l; [apply mix_pos; auto|]. rewrite Qmult_0_l. auto. }
  set (s' := mkMp _ _ _ _ _ _ _ _ _) in *.
  apply (adapt_improves P pi s s' xs PO Ok Cl Ok' Pi Sp).
  - intros d D. rewrite <- (nth_agree _ _ d Al : nth d alpha 0 == nth d (mp_mixw s') 0).
    pose proof (Ha d D) as Hd. rewrite (alpha_total P pi s xs PO Ok Cl Sp) in Hd. rewrite Qmult_1_r in Hd. rewrite Hd.
    rewrite (alpha_form P pi s xs d Sp). field. lra.
  - intros d D. destruct Ok as (L1 & _). destruct Ok' as (L1' & _).
    apply (Better d (nth d (mp_props s) ([], [])) (nth d (mp_props s') ([], []))); apply nth_error_nth'; congruence.
Qed.
Print Assumptions C91_adaptation_partial.
Definition upper_batch : mp_round := vround [[3 # 4]; [1]].
Definition upper_state : mp := out_state (mp_iter (vmp 2) vpi upper_batch (v0 2)).
Example C91_adaptation_example :
  mp_params_ok (vmp 2) /\ mp_reachable (vmp 2) vus [] (v0 2) /\ mp_iter (vmp 2) vpi upper_batch (v0 2) = Done upper_state /\ mp_dead upper_state = false /\
  mp_samples upper_state = mp_samples (v0 2) ++ [[3 # 4]; [1]] /\
  (forall d p p', nth_error (mp_props (v0 2)) d = Some p -> nth_error (mp_props upper_state) d = Some p' ->
      (loglik (fun x => (vpi x / mp_mix (vmp 2) (v0 2) x * mp_rho (vmp 2) (v0 2) d x)%Q) (mp_comp (vmp 2) (fst p) (snd p)) [[(3 # 4)%Q]; [1%Q]] <=
       loglik (fun x => (vpi x / mp_mix (vmp 2) (v0 2) x * mp_rho (vmp 2) (v0 2) d x)%Q) (mp_comp (vmp 2) (fst p') (snd p')) [[(3 # 4)%Q]; [1%Q]])%R) /\
  ~ nth 0 (mp_mixw upper_state) 0 == nth 0 (mp_mixw (v0 2)) 0.
Proof.
  split; [apply vparams_ok; lia|]. split; [apply mp_init|]. split; [apply done_run; vm_compute; reflexivity|]. split; [vm_compute; reflexivity|].
  split; [vm_compute; reflexivity|]. split; [|vm_compute; discriminate].
  intros d p p' E E'. apply loglik_mono. intros x X.
  assert (Ld : (d < 2)%nat) by (apply (nth_error_lt _ _ _ E)).
  apply nth_error_nth with (d := ([], [])) in E, E'. subst p p'.
  destruct X as [<-|[<-|[]]]; destruct d as [|[|d]]; try lia; split; try (vm_compute; discriminate); split; vm_compute; try reflexivity; discriminate.
Qed.

(** The condition holds for the new mean of a Gaussian component when its covariance stays: the weighted mean is the best. *)
Theorem C91_mean_step :
  forall det inv d m c s mu s' (w : rvec -> R) xs, normal_new det inv d m c = Ok s -> set_moments det inv s mu c = Done s' ->
  psd d c -> inverse_of d (inv c) c -> (forall x, 0 <= w x)%R -> (forall i, (i < d)%nat -> weighted_R w (fun _ => mu i) xs = weighted_R w (fun x => x i) xs) ->
  (weighted_R w (normal_log_prob s) xs <= weighted_R w (normal_log_prob s') xs)%R.
Proof.
  intros det inv d m c s mu s' w xs N S Pc Iv W M0. rewrite !weighted_R_rsum.
  assert (M : forall i, (i < d)%nat -> (rsum w xs * mu i)%R = rsum (fun x => (w x * x i)%R) xs).
  { intros i I. rewrite <- !weighted_R_rsum, <- (M0 i I), weighted_R_rsum. rewrite (rsum_ext (fun x => (w x * mu i)%R) (fun x => (mu i * w x)%R)) by (intros; ring).
    rewrite rsum_scal. ring. }
  unfold normal_new in N. destruct (Rltb 0 (det c)) eqn:D; [|discriminate]. injection N as <-.
  unfold set_moments in S. rewrite D in S. injection S as <-. unfold normal_log_prob. cbn [n_dims n_loc n_cov n_inv n_term1 n_term2 n_det].
  set (k := (- (1 / 2) * INR d * ln (PI * 2) + - (1 / 2) * ln (det c))%R).
  rewrite (rsum_ext (fun x => (w x * (k + - (1 / 2) * quad_form d (inv c) (fun i => m i - x i)))%R)
                    (fun x => (k * w x + - (1 / 2) * (w x * quad_form d (inv c) (fun i => m i - x i)))%R)) by (intros; ring).
  rewrite (rsum_ext (fun x => (w x * (k + - (1 / 2) * quad_form d (inv c) (fun i => mu i - x i)))%R)
                    (fun x => (k * w x + - (1 / 2) * (w x * quad_form d (inv c) (fun i => mu i - x i)))%R)) by (intros; ring).
  rewrite !rsum_plus, !rsum_scal, (spread_at_mean d (inv c) w mu m xs M).
  assert (Q : (0 <= quad_form d (inv c) (fun i => m i - mu i))%R) by (rewrite quad_dot; apply (inverse_psd d c (inv c) Pc Iv)).
  pose proof (rsum_nonneg w xs (fun x _ => W x)). 
  assert (0 <= rsum w xs * quad_form d (inv c) (fun i => m i - mu i))%R by (apply Rmult_le_pos; auto). Lra.lra.
Qed.
Print Assumptions C91_mean_step.
Example C91_mean_step_example :
  exists s s', normal_new (fun c => c 0%nat 0%nat) (fun c _ _ => / c 0%nat 0%nat)%R 1 (fun _ => 0%R) (fun _ _ => 2%R) = Ok s /\
  set_moments (fun c => c 0%nat 0%nat) (fun c _ _ => / c 0%nat 0%nat)%R s (fun _ => 1%R) (fun _ _ => 2%R) = Done s' /\
  psd 1 (fun _ _ => 2%R) /\ inverse_of 1 (fun _ _ => / 2)%R (fun _ _ => 2%R) /\
  weighted_R (fun _ => 1%R) (fun _ => 1%R) [fun _ : nat => 0%R; fun _ => 2%R] = weighted_R (fun _ => 1%R) (fun x => x 0%nat) [fun _ : nat => 0%R; fun _ => 2%R].
Proof.
  unfold normal_new, set_moments, Rltb. destruct (Rlt_dec 0 2) as [H|H]; [|exfalso; apply H; Lra.lra]. eexists. eexists. split; [reflexivity|].
  split; [reflexivity|]. split; [intros v; unfold dot, apply, over; simpl; pose proof (Rle_0_sqr (v 0%nat)) as Sq; unfold Rsqr in Sq; Lra.lra|].
  split; [intros v i L; unfold apply, over; simpl; destruct i; [|lia]; field|]. simpl. ring.
Qed.

(** The normal density that the code builds from a stored mean and covariance, in one dimension. *)
Definition line_normal (p : vec * mat) : res normal :=
  normal_new (fun c => c 0%nat 0%nat) (fun c _ _ => / c 0%nat 0%nat)%R 1 (fun i => Q2R (nth i (fst p) 0)) (fun i j => Q2R (nth j (nth i (snd p) []) 0)).
Definition line_point (x : vec) : rvec := fun i => Q2R (nth i x 0).

(** C91 does not hold without the condition: the covariance of a component is the unweighted scatter of the batch, summed and
    not averaged. With one proposal N(0, 1) that already equals the target, the batch -1, 1 makes it N(0, 2), and the weighted
    log likelihood of the batch falls. Whatever positive density plays the component in the weights. *)
Theorem C91_adaptation_refuted :
  forall comp, (forall m c x, 0 < comp m c x) ->
  exists P us r s' p p' n n', mp_params_ok P /\ mp_comp P = comp /\ length us = mp_N P /\
  let s := mp_new P us in let pi := mp_mix P s in
  mp_iter P pi r s = Done s' /\ mp_dead s' = false /\ mp_props s = [p] /\ mp_props s' = [p'] /\ line_normal p = Ok n /\ line_normal p' = Ok n' /\
  (weighted_R (fun x => Q2R (pi x / mp_mix P s x)) (fun x => normal_log_prob n' (line_point x)) (mp_samples s')
   < weighted_R (fun x => Q2R (pi x / mp_mix P s x)) (fun x => normal_log_prob n (line_point x)) (mp_samples s'))%R.
Proof.
  intros comp Cp. destruct (worse_turn comp Cp) as (s' & c & m & E & D & Sm & Pr & M & C & W).
  assert (Pr0 : exists m0, mp_props (mp_new (one_normal comp) at_zero) = [([m0], [[1]])] /\ m0 == 0).
  { eexists. split; [reflexivity|]. reflexivity. }
  destruct Pr0 as (m0 & Pr0 & M0). apply Qeq_eqR in M, C, M0.
  assert (R0 : Q2R 0 = 0%R) by (unfold Q2R; simpl; Lra.lra). assert (R1 : Q2R 1 = 1%R) by (unfold Q2R; simpl; Lra.lra).
  assert (R2 : Q2R 2 = 2%R) by (unfold Q2R; simpl; Lra.lra). assert (Rm : Q2R (-1) = (-1)%R) by (unfold Q2R; simpl; Lra.lra).
  assert (N0 : exists n, line_normal ([m0], [[1]]) = Ok n /\ forall x, normal_log_prob n x = (- (1 / 2) * 1 * ln (PI * 2) + - (1 / 2) * ln 1 - 1 / 2 * (x 0%nat * x 0%nat))%R).
  { unfold line_normal, normal_new, Rltb. cbn [fst snd nth]. destruct (Rlt_dec 0 (Q2R 1)) as [H|H]; [|exfalso; apply H; Lra.lra].
    eexists. split; [reflexivity|]. intros x. unfold normal_log_prob, quad_form. simpl. rewrite R1, M0, R0. field. }
  assert (N1 : exists n, line_normal ([m], [[c]]) = Ok n /\ forall x, normal_log_prob n x = (- (1 / 2) * 1 * ln (PI * 2) + - (1 / 2) * ln 2 - 1 / 4 * (x 0%nat * x 0%nat))%R).
  { unfold line_normal, normal_new, Rltb. cbn [fst snd nth]. destruct (Rlt_dec 0 (Q2R c)) as [H|H]; [|exfalso; apply H; rewrite C; Lra.lra].
    eexists. split; [reflexivity|]. intros x. unfold normal_log_prob, quad_form. simpl. rewrite C, M, R0, R2. field. }
  destruct N0 as (n0 & N0 & L0). destruct N1 as (n1 & N1 & L1).
  exists (one_normal comp), at_zero, both_sides, s', ([m0], [[1]]), ([m], [[c]]), n0, n1.
  split; [apply one_normal_ok, Cp|]. split; [reflexivity|]. split; [reflexivity|]. cbv zeta. split; [exact E|]. split; [exact D|]. split; [exact Pr0|].
  split; [exact Pr|]. split; [exact N0|]. split; [exact N1|]. rewrite Sm. cbn [weighted_R]. rewrite !L0, !L1. unfold line_point. cbn [nth].
  assert (W' : forall x, Q2R (mp_mix (one_normal comp) (mp_new (one_normal comp) at_zero) x / mp_mix (one_normal comp) (mp_new (one_normal comp) at_zero) x) = 1%R).
  { intros x. rewrite <- R1. apply Qeq_eqR. apply W. }
  rewrite !W', Rm, R1, ln_1. pose proof ln_lt_2. Lra.lra.
Qed.
Print Assumptions C91_adaptation_refuted.
