(** C125: the effective sample size of nested sampling. *)
From Coq Require Import List Bool Arith Lia QArith Reals Qreals Lqa Lra.
Import ListNotations.
From Verif Require Import Prelude.Py Prelude.QBase Prelude.RBase Model.Base.
From Verif Require Import Model.Nested.
From Verif Require Import Proofs.NestedProofs Proofs.NestedHistory Proofs.MultiNestedProofs Proofs.NestedEss Proofs.NestedWitness.
Open Scope R_scope.

Lemma ess_of N (a b : Q) (L : list Q) n : (0 < N)%nat -> (0 < a)%Q -> Forall (fun l => (a <= l <= b)%Q) L -> length L = n -> (0 < n)%nat ->
  exists ws ness, nested_weights N (map Q2R L) = map Fin ws /\ length ws = n /\ nested_NESS ws = Fin ness /\ 0 < ness /\
    ness * INR n <= (INR N + 1) * exp (2 * (Q2R b / Q2R a)).
Proof.
  intros HN Ha F E Hn. destruct (ess_bound N (Q2R a) (Q2R b) (map Q2R L)) as (ws & ness & A & B & C & D & G); auto.
  - replace 0 with (Q2R 0) by apply RMicromega.Q2R_0. now apply Qlt_Rlt.
  - destruct L; simpl in *; [lia|discriminate].
  - apply Forall_map. eapply Forall_impl; [|exact F]. simpl. intros l (X & Y). split; now apply Qle_Rle.
  - rewrite map_length, E in *. exists ws, ness. auto.
Qed.
Lemma falls N (a b : Q) eps : 0 < eps -> exists n0 : nat, forall n ness, (n0 <= n)%nat -> ness * INR n <= (INR N + 1) * exp (2 * (Q2R b / Q2R a)) -> ness < eps.
Proof.
  intros He. set (C := (INR N + 1) * exp (2 * (Q2R b / Q2R a))). destruct (archimed (C / eps)) as (U & _).
  exists (S (Z.to_nat (up (C / eps)))). intros n ness Hn H. 
  assert (CP : 0 < C) by (apply Rmult_lt_0_compat; [pose proof (pos_INR N); lra|apply exp_pos]).
  assert (X : C / eps < INR n).
  { eapply Rlt_le_trans; [exact U|]. apply Rle_trans with (INR (Z.to_nat (up (C / eps)))); [|apply le_INR; lia].
    rewrite INR_IZR_INZ. apply IZR_le. rewrite Z2Nat.id; [lia|]. apply le_IZR. left. eapply Rlt_trans; [|exact U]. now apply Rdiv_lt_0_compat. }
  assert (PN : 0 < INR n) by (eapply Rlt_trans; [|exact X]; now apply Rdiv_lt_0_compat).
  apply Rmult_lt_reg_r with (INR n); auto. eapply Rle_lt_trans; [exact H|]. apply Rmult_lt_compat_r with (r := eps) in X; auto.
  unfold Rdiv in X. rewrite Rmult_assoc, Rinv_l in X by lra. lra.
Qed.

(** C125. Nested sampling with N live points: as long as the likelihoods lie between a > 0 and b, the effective sample size
    (get_NESS times the number of samples) is at most (N + 1) exp(2 b / a), however many samples are asked for. *)
Theorem C125_nested_bounded :
  forall P us ops s (a b : Q), start_ok P us -> Forall (ns_op_ok P) ops -> nested_reachable P us ops s -> ns_samples s <> [] ->
  (0 < a)%Q -> Forall (fun l => (a <= l <= b)%Q) (ns_L s) ->
  exists ws ness, nested_weights (ns_N P) (map Q2R (ns_L s)) = map Fin ws /\ length ws = length (ns_samples s) /\ nested_NESS ws = Fin ness /\ 0 < ness /\
    ness * INR (length (ns_samples s)) <= (INR (ns_N P) + 1) * exp (2 * (Q2R b / Q2R a)).
Proof.
  intros P us ops s a b S0 OK R NE Ha F. destruct (booked_reachable P us S0 ops s OK R) as ((BL & _) & _). destruct S0 as (_ & HN & _).
  apply ess_of; auto. destruct (ns_samples s); [congruence|simpl; lia].
Qed.
Print Assumptions C125_nested_bounded.

(** C125. The same for multi-nested sampling. *)
Theorem C125_multi_bounded :
  forall P us ops s (a b : Q), mn_ready P -> start_ok P us -> Forall (mn_op_ok P) ops -> multi_reachable P us ops s -> ns_samples s <> [] ->
  (0 < a)%Q -> Forall (fun l => (a <= l <= b)%Q) (ns_L s) ->
  exists ws ness, nested_weights (ns_N P) (map Q2R (ns_L s)) = map Fin ws /\ length ws = length (ns_samples s) /\ nested_NESS ws = Fin ness /\ 0 < ness /\
    ness * INR (length (ns_samples s)) <= (INR (ns_N P) + 1) * exp (2 * (Q2R b / Q2R a)).
Proof.
  intros P us ops s a b RD S0 OK R NE Ha F. destruct (multi_booked P us RD S0 ops s OK R) as ((BL & _) & _). destruct S0 as (_ & HN & _).
  apply ess_of; auto. destruct (ns_samples s); [congruence|simpl; lia].
Qed.
Print Assumptions C125_multi_bounded.

(** C125. So the value get_NESS reports falls below every positive number: after n0 samples, a number that depends on the live points and
    the range of the likelihoods only, it is smaller than eps in every history of either sampler. *)
Theorem C125_falls :
  forall N (a b : Q) eps, 0 < eps -> (0 < a)%Q ->
  exists n0 : nat,
    (forall P us ops s ws ness, ns_N P = N -> start_ok P us -> Forall (ns_op_ok P) ops -> nested_reachable P us ops s -> Forall (fun l => (a <= l <= b)%Q) (ns_L s) ->
       (n0 <= length (ns_samples s))%nat -> nested_weights N (map Q2R (ns_L s)) = map Fin ws -> nested_NESS ws = Fin ness -> ness < eps) /\
    (forall P us ops s ws ness, ns_N P = N -> mn_ready P -> start_ok P us -> Forall (mn_op_ok P) ops -> multi_reachable P us ops s -> Forall (fun l => (a <= l <= b)%Q) (ns_L s) ->
       (n0 <= length (ns_samples s))%nat -> nested_weights N (map Q2R (ns_L s)) = map Fin ws -> nested_NESS ws = Fin ness -> ness < eps).
Proof.
  intros N a b eps He Ha. destruct (falls N a b eps He) as (n0 & H). exists (S n0).
  assert (IJ : forall u v : list R, map Fin u = map Fin v -> u = v).
  { induction u as [|x u IH]; intros [|y v] E; simpl in E; try discriminate; auto. injection E as -> E. f_equal. auto. }
  split.
  - intros P us ops s ws ness EN S0 OK R F Hn W E.
    destruct (C125_nested_bounded P us ops s a b S0 OK R) as (ws' & e & A & _ & B & _ & C); auto. { intros X. rewrite X in Hn. simpl in Hn. lia. }
    rewrite EN, W in A. apply IJ in A. subst ws'. rewrite E in B. injection B as <-. rewrite EN in C. apply (H (length (ns_samples s))); auto. lia.
  - intros P us ops s ws ness EN RD S0 OK R F Hn W E.
    destruct (C125_multi_bounded P us ops s a b RD S0 OK R) as (ws' & e & A & _ & B & _ & C); auto. { intros X. rewrite X in Hn. simpl in Hn. lia. }
    rewrite EN, W in A. apply IJ in A. subst ws'. rewrite E in B. injection B as <-. rewrite EN in C. apply (H (length (ns_samples s))); auto. lia.
Qed.
Print Assumptions C125_falls.

Example C125_nested_example :
  exists a b, start_ok nP nus /\ Forall (ns_op_ok nP) [ncall] /\ nested_reachable nP nus [ncall] ns1 /\ (1 < length (ns_samples ns1))%nat /\ (0 < a)%Q /\
    Forall (fun l => (a <= l <= b)%Q) (ns_L ns1).
Proof.
  exists (1 # 10)%Q, 1%Q. split; [apply n_start|]. split; [constructor; [apply n_ok|constructor]|]. split; [exact n_reach|]. split; [simpl; lia|]. split; [reflexivity|].
  vm_compute. repeat constructor; discriminate.
Qed.
Example C125_multi_example :
  exists a b, mn_ready mP /\ start_ok mP mus /\ Forall (mn_op_ok mP) [mcall] /\ multi_reachable mP mus [mcall] ms1 /\ length (ns_samples ms1) = 4%nat /\ (0 < a)%Q /\
    Forall (fun l => (a <= l <= b)%Q) (ns_L ms1).
Proof.
  exists (1 # 20)%Q, 1%Q. split; [exact m_ready|]. split; [exact m_start|]. split; [constructor; [exact m_ok|constructor]|]. split; [exact m_reach|]. split; [reflexivity|].
  split; [reflexivity|]. vm_compute. repeat constructor; discriminate.
Qed.
