(** Property C96. *)
From Coq Require Import List Bool Arith Lia ZArith QArith Qabs Lqa.
Import ListNotations.
From Verif Require Import Prelude.Py Prelude.QBase Prelude.QFacts Model.Base Model.MetropolisHastings Model.MHLaw Spec.ChainSpec Proofs.MHLawProofs Proofs.MHChain.
Open Scope Q_scope.

(** C96, what holds: on finitely many states, with attempts in balance with the masses m (the target, by C33), the point that
    sample(1) returns has, up to errors that vanish with the number T of steps (burn-in included) and with the number n of
    attempts a step may take, the law with masses m times the acceptance rate. Full statement: with masses m. *)
Theorem C96_sample_law_partial :
  forall P lp timeout om n k at_ F m s i b elb els beta rho,
  attempts_move P lp om k at_ F -> lively k F -> balanced k m F -> masses k m ->
  (i < k)%nat -> at_ i (mh_current s) = true -> (0 < mh_steps P)%nat ->
  length elb = (if mh_is_init s then 0 else mh_burnin P)%nat -> length els = mh_steps P ->
  (forall wa, In wa om -> at_clock (snd wa) < 60) ->
  (forall e, In e els -> 0 < timeout - e /\ forall wa, In wa om -> at_clock (snd wa) < timeout - e) ->
  let long_run := share k (fun j => m j * rate k F j) in
  0 <= beta <= 1 -> (forall i j, (i < k)%nat -> (j < k)%nat -> beta * long_run j <= F i j / rate k F i) ->
  (forall i, (i < k)%nat -> 1 - rate k F i <= rho) ->
  let T := length (elb ++ els) in
  Qabs (sample_prob P lp timeout om n (elb ++ els) s (states_in k at_ b) - chance k long_run b) <= Qpow (1 - beta) T + Qnat T * Qpow rho n.
Proof.
  intros P lp timeout om n k at_ F m s i b elb els beta rho (W1 & W0 & Mv & Ac & Dj) (F0 & Lv) Bal (m0 & mp) I A St Lb Ls C60 Ce long_run B0 Cov Rho T.
  apply (sample_converges P lp om n k at_ F W1 Mv Ac Dj (fun i I => proj1 (Lv i I)) m beta rho Bal m0 mp F0 (fun i I => proj2 (Lv i I)) B0 Cov Rho timeout b s i); auto.
Qed.
Print Assumptions C96_sample_law_partial.

(** C96 holds when attempts are accepted equally often from every state. *)
Theorem C96_equal_rates_partial :
  forall P lp timeout om n k at_ F m s i b elb els beta a,
  attempts_move P lp om k at_ F -> lively k F -> balanced k m F -> masses k m -> (forall i, (i < k)%nat -> rate k F i == a) ->
  (i < k)%nat -> at_ i (mh_current s) = true -> (0 < mh_steps P)%nat ->
  length elb = (if mh_is_init s then 0 else mh_burnin P)%nat -> length els = mh_steps P ->
  (forall wa, In wa om -> at_clock (snd wa) < 60) ->
  (forall e, In e els -> 0 < timeout - e /\ forall wa, In wa om -> at_clock (snd wa) < timeout - e) ->
  0 <= beta <= 1 -> (forall i j, (i < k)%nat -> (j < k)%nat -> beta * share k m j <= F i j / a) ->
  let T := length (elb ++ els) in
  Qabs (sample_prob P lp timeout om n (elb ++ els) s (states_in k at_ b) - chance k (share k m) b) <= Qpow (1 - beta) T + Qnat T * Qpow (1 - a) n.
Proof.
  intros P lp timeout om n k at_ F m s i b elb els beta a M (F0 & Lv) Bal (m0 & mp) Ra I A St Lb Ls C60 Ce B0 Cov T.
  assert (Ap : 0 < a) by (rewrite <- (Ra i I); apply Lv; auto).
  assert (E : forall j, (j < k)%nat -> share k (fun j => m j * rate k F j) j == share k m j).
  { intros j J. unfold share. rewrite (over_ext k _ (fun j => a * m j)) by (intros l L; rewrite (Ra l L); ring). rewrite over_scal, (Ra j J). field. split; lra. }
  assert (Ec : chance k (share k m) b == chance k (share k (fun j => m j * rate k F j)) b).
  { unfold chance. apply over_ext. intros j J. destruct (b j); [rewrite (E j J)|]; reflexivity. }
  rewrite Ec. apply (C96_sample_law_partial P lp timeout om n k at_ F m s i b elb els beta (1 - a)); auto; try (split; auto; fail).
  - intros x y X Y. rewrite (E y Y), (Ra x X). auto.
  - intros x X. rewrite (Ra x X). lra.
Qed.
Print Assumptions C96_equal_rates_partial.

(** Two points, the second three times as likely; displacements -1, 0, 1. *)
Definition c_at (i : nat) (x : vec) : bool := match x with [a] => (Qnum a =? Z.of_nat i)%Z && (Qden a =? 1)%positive | _ => false end.
Definition c_lp (w : Q) (x : vec) : fl Q := if c_at 0 x then Fin 0 else if c_at 1 x then Fin w else NInf.
Definition c_par (burn steps : nat) : mh_params := mkMH [-(10)] [10] steps burn 1 (fun _ => Fin 0).
Definition c_om : list (Q * attempt) :=
  flat_map (fun d => map (fun u => (1 # 9, mkAttempt [d] (Fin u) 0)) [-(2); -(1 # 2); -(1 # 4)]) [-(1); 0; 1].
Definition c_m (i : nat) : Q := match i with O => 1 | _ => 3 end.
Definition c_F (m : nat -> Q) (i j : nat) : Q := (1 # 3) * (if Qle_bool (m i) (m j) then 1 else m j / m i).

Lemma c_at_eq i x : c_at i x = true -> x = [inject_Z (Z.of_nat i)].
Proof.
  destruct x as [|[a d] [|y l]]; try discriminate. unfold c_at. cbn [Qnum Qden]. intros H. apply andb_true_iff in H. destruct H as [A B].
  apply Z.eqb_eq in A. apply Pos.eqb_eq in B. subst. reflexivity.
Qed.
Lemma two_cases i : (i < 2)%nat -> i = 0%nat \/ i = 1%nat. Proof. lia. Qed.
Lemma c_moves w m burn steps : (w = 1 /\ m = c_m) \/ (w = 0 /\ m = fun _ => 1) -> attempts_move (c_par burn steps) (c_lp w) c_om 2 c_at (c_F m).
Proof.
  intros Hw. split; [reflexivity|]. split; [intros wa I; simpl in I; repeat (destruct I as [<-|I]; [simpl; lra|]); destruct I|]. split; [|split].
  - intros i j x I J A. apply c_at_eq in A. subst x.
    destruct Hw as [[-> ->]|[-> ->]]; destruct (two_cases i I) as [-> | ->]; destruct (two_cases j J) as [-> | ->]; vm_compute; reflexivity.
  - intros i x wa I A Hin Acc. apply c_at_eq in A. subst x. unfold in_state.
    destruct Hw as [[-> ->]|[-> ->]]; destruct (two_cases i I) as [-> | ->]; simpl in Hin; repeat (destruct Hin as [<-|Hin]; [clear -Acc; vm_compute in Acc; try discriminate;
       first [exists 0%nat; split; [lia|vm_compute; reflexivity]|exists 1%nat; split; [lia|vm_compute; reflexivity]]|]); destruct Hin.
  - intros x i j I J A B. apply c_at_eq in A. apply c_at_eq in B. subst x. injection B as B. lia.
Qed.
Lemma c_lively m : m = c_m \/ (m = fun _ => 1) -> lively 2 (c_F m).
Proof.
  intros [-> | ->]; split; intros i; try intros j I J; try intros I; destruct (two_cases i I) as [-> | ->]; try destruct (two_cases j J) as [-> | ->]; vm_compute; try (split; [reflexivity|]); discriminate.
Qed.
Lemma c_balanced m : m = c_m \/ (m = fun _ => 1) -> balanced 2 m (c_F m).
Proof. intros [-> | ->] i j I J; destruct (two_cases i I) as [-> | ->]; destruct (two_cases j J) as [-> | ->]; vm_compute; reflexivity. Qed.
Lemma c_masses m : m = c_m \/ (m = fun _ => 1) -> masses 2 m.
Proof. intros [-> | ->]; (split; [intros i I; destruct (two_cases i I) as [-> | ->]; vm_compute; discriminate|reflexivity]). Qed.
Lemma c_cover i j : (i < 2)%nat -> (j < 2)%nat -> (3 # 4) * share 2 (fun j => c_m j * rate 2 (c_F c_m) j) j <= c_F c_m i j / rate 2 (c_F c_m) i.
Proof. intros I J; destruct (two_cases i I) as [-> | ->]; destruct (two_cases j J) as [-> | ->]; vm_compute; discriminate. Qed.
Lemma c_rho i : (i < 2)%nat -> 1 - rate 2 (c_F c_m) i <= 5 # 9.
Proof. intros I; destruct (two_cases i I) as [-> | ->]; vm_compute; discriminate. Qed.
Lemma c_clock T wa : 0 < T -> In wa c_om -> at_clock (snd wa) < T.
Proof. intros H I. simpl in I. repeat (destruct I as [<-|I]; [exact H|]). destruct I. Qed.

Example C96_sample_law_partial_example :
  attempts_move (c_par 1 1) (c_lp 1) c_om 2 c_at (c_F c_m) /\ lively 2 (c_F c_m) /\ balanced 2 c_m (c_F c_m) /\ masses 2 c_m /\
  chance 2 (share 2 (fun j => c_m j * rate 2 (c_F c_m) j)) (fun j => j =? 0)%nat == 1 # 3 /\
  (forall i j, (i < 2)%nat -> (j < 2)%nat -> (3 # 4) * share 2 (fun j => c_m j * rate 2 (c_F c_m) j) j <= c_F c_m i j / rate 2 (c_F c_m) i).
Proof.
  split; [apply c_moves; auto|]. split; [apply c_lively; auto|]. split; [apply c_balanced; auto|]. split; [apply c_masses; auto|].
  split; [vm_compute; reflexivity|apply c_cover].
Qed.
Example C96_equal_rates_partial_example : let m := fun _ : nat => 1 in
  attempts_move (c_par 1 1) (c_lp 0) c_om 2 c_at (c_F m) /\ lively 2 (c_F m) /\ balanced 2 m (c_F m) /\ masses 2 m /\
  (forall i, (i < 2)%nat -> rate 2 (c_F m) i == 2 # 3) /\
  (forall i j, (i < 2)%nat -> (j < 2)%nat -> 1 * share 2 m j <= c_F m i j / (2 # 3)).
Proof.
  cbv zeta. split; [apply c_moves; auto|]. split; [apply c_lively; auto|]. split; [apply c_balanced; auto|]. split; [apply c_masses; auto|].
  split; intros i; try intros j I J; try intros I; destruct (two_cases i I) as [-> | ->]; try destruct (two_cases j J) as [-> | ->]; vm_compute; try reflexivity; discriminate.
Qed.

Lemma pow_small n : Qpow (5 # 9) n * (1 + (4 # 5) * Qnat n) <= 1.
Proof.
  induction n as [|n IH]; [vm_compute; discriminate|]. cbn [Qpow].
  assert (T : Qnat (S n) == Qnat n + 1) by (unfold Qnat; rewrite Nat2Z.inj_succ; unfold Z.succ; rewrite inject_Z_plus; reflexivity).
  rewrite T. pose proof (Qpow_nonneg (5 # 9) n ltac:(lra)) as P0. assert (0 <= Qnat n) by (unfold Qnat, Qle; simpl; lia). nra.
Qed.

(** C96 is false of the target itself: a rejected attempt is repeated, so points from which attempts are often rejected are
    returned too rarely. The target has masses 1 and 3, attempts move by -1, 0 or 1 and are accepted with the probabilities of
    Metropolis and Hastings. However long the burn-in, and if a step may take enough attempts, the point of mass 1/4 is
    returned with a probability off by at least 1/20 (it tends to 1/3). *)
Theorem C96_target_refuted :
  exists lp om at_ m F x0,
  (forall i j, (i < 2)%nat -> (j < 2)%nat -> F i j == (1 # 3) * (if Qle_bool (m i) (m j) then 1 else m j / m i)) /\
  at_ 0%nat x0 = true /\ masses 2 m /\ lively 2 F /\ balanced 2 m F /\
  forall burn steps, let P := mkMH [-(10)] [10] steps burn 1 (fun _ => Fin 0) in attempts_move P lp om 2 at_ F /\
  ((0 < steps)%nat -> (3 <= burn + steps)%nat -> exists n0, forall n, (n0 <= n)%nat ->
   1 # 20 <= Qabs (sample_prob P lp 1 om n (repeat 0 (burn + steps)) (mh_new x0) (states_in 2 at_ (fun j => j =? 0)%nat) -
                   chance 2 (share 2 m) (fun j => j =? 0)%nat)).
Proof.
  exists (c_lp 1), c_om, c_at, c_m, (c_F c_m), [0]. split; [reflexivity|]. split; [reflexivity|]. split; [apply c_masses; auto|].
  split; [apply c_lively; auto|]. split; [apply c_balanced; auto|]. intros burn steps P. split; [apply c_moves; auto|].
  intros Hs HT. exists (80 * (burn + steps))%nat. intros n Hn.
  pose proof (C96_sample_law_partial P (c_lp 1) 1 c_om n 2 c_at (c_F c_m) c_m (mh_new [0]) 0 (fun j => j =? 0)%nat (repeat 0 burn) (repeat 0 steps) (3 # 4) (5 # 9)
    (c_moves 1 c_m burn steps (or_introl (conj eq_refl eq_refl))) (c_lively c_m (or_introl eq_refl)) (c_balanced c_m (or_introl eq_refl)) (c_masses c_m (or_introl eq_refl))
    ltac:(lia) eq_refl Hs (repeat_length _ _) (repeat_length _ _) (fun wa Iw => c_clock 60 wa eq_refl Iw)) as L.
  cbv zeta in L.
  assert (L2 : forall e, In e (repeat 0 steps) -> 0 < 1 - e /\ forall wa, In wa c_om -> at_clock (snd wa) < 1 - e).
  { intros e E. apply repeat_spec in E. subst e. split; [lra|]. intros wa Iw. apply c_clock; [lra|exact Iw]. }
  specialize (L L2 ltac:(lra) c_cover c_rho). rewrite <- repeat_app, repeat_length in L.
  assert (E1 : chance 2 (share 2 (fun j => c_m j * rate 2 (c_F c_m) j)) (fun j => j =? 0)%nat == 1 # 3) by (vm_compute; reflexivity).
  assert (E2 : chance 2 (share 2 c_m) (fun j => j =? 0)%nat == 1 # 4) by (vm_compute; reflexivity).
  rewrite E1 in L. rewrite E2. set (p := sample_prob _ _ _ _ _ _ _ _) in *. clearbody p. set (T := (burn + steps)%nat) in *.
  assert (A1 : Qpow (1 - (3 # 4)) T <= 1 # 64).
  { rewrite (Qpow_proper _ (1 # 4)) by reflexivity. clear - HT. induction HT as [|T H IH]; [vm_compute; discriminate|]. cbn [Qpow].
    pose proof (Qpow_nonneg (1 # 4) T ltac:(lra)). lra. }
  assert (A2 : Qnat T * Qpow (5 # 9) n <= 1 # 64).
  { pose proof (pow_small n) as S. pose proof (Qpow_nonneg (5 # 9) n ltac:(lra)) as P0.
    assert (Tn : 80 * Qnat T <= Qnat n) by (unfold Qnat; change 80 with (inject_Z 80); rewrite <- inject_Z_mult, <- Zle_Qle; lia).
    assert (Qpow (5 # 9) n * (64 * Qnat T) <= Qpow (5 # 9) n * (1 + (4 # 5) * Qnat n)) by (rewrite !(Qmult_comm (Qpow (5 # 9) n)); apply Qmult_le_compat_r; [lra|exact P0]).
    lra. }
  apply Qabs_Qle_condition in L. destruct L as [L _]. apply Qle_trans with (p - (1 # 4)); [lra|apply Qle_Qabs].
Qed.
Print Assumptions C96_target_refuted.
