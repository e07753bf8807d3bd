(** Property C88. *)
From Coq Require Import List Bool Arith Lia QArith Lqa.
Import ListNotations.
From Verif Require Import Prelude.Py Prelude.QBase Prelude.QFacts Model.Base Model.Mixture Model.Population Model.PopulationLaw
  Spec.Box Spec.PopulationSpec Spec.UnbiasedSpec Proofs.PopulationProofs Proofs.PopulationHistory Proofs.PopulationUnbiased.
Open Scope Q_scope.

Lemma reachable_regular k P us ops s : pop_params_ok P -> us_ok P us -> Forall (fun e => pop_op_ok P (fst e)) ops ->
  pop_reachable k P us ops s -> regular P s.
Proof.
  intros A B C D. destruct (books_reachable k P us ops s (proj1 B) C D) as (t & M & _ & W & _).
  destruct A as (_ & N & _). repeat split; auto. intros Z. rewrite Z in M. simpl in M. lia.
Qed.

(** C88. After any history, one turn of the loop of either sampler: the sum of weight times f over the stored samples grows in
    expectation by N*K times the integral of target times f, for every f and whatever the adaptation does; all stored weights
    stay finite. A turn that raises stores nothing: the draws it loses have weight zero. *)
Theorem C88_batch :
  forall k P us ops s, pop_params_ok P -> us_ok P us -> Forall (fun e => pop_op_ok P (fst e)) ops -> pop_reachable k P us ops s ->
  forall pi f v pts rest, (forall x, 0 <= pi x) -> (forall m, In m (pop_means s) -> integral v pts (pp_comp P m) == 1) ->
  (forall xs j i, (j < pp_N P)%nat -> (i < pp_K P)%nat -> pr_draw (rest xs) j i = nth (j * pp_K P + i) xs []) ->
  let after xs := out_state (pop_iter k P pi (rest xs) s) in
  (forall xs, all_finite (pop_weights (after xs)) /\ length (pop_weights (after xs)) = length (pop_samples (after xs))) /\
  expect_each (proposal_laws P v pts s) (fun xs => weighted_total f (pop_samples (after xs)) (pop_weights (after xs))) ==
  weighted_total f (pop_samples s) (pop_weights s) + Qnat (pp_N P * pp_K P) * integral v pts (fun x => pi x * f x).
Proof.
  intros k P us ops s A B C D pi f v pts rest Pi I R after. destruct (reachable_regular k P us ops s A B C D) as (M & Mn & L).
  assert (A' := A). destruct A' as (_ & N & K & Cp). split.
  - intros xs. split.
    + destruct (good_iter k P pi (rest xs) s A Pi (good_reachable _ _ _ _ _ A B C D)) as (_ & ws & W & _).
      unfold after. rewrite W. apply Forall_forall. intros w X. apply in_map_iff in X. destruct X as (a & <- & _). eauto.
    + unfold after. destruct (pop_iter k P pi (rest xs) s) as [s'|s'|e s'] eqn:E; simpl.
      * apply done_len in E. symmetry. apply E. auto.
      * exfalso. exact (pop_iter_not_running _ _ _ _ _ _ E).
      * revert E. destruct k; [|discriminate]. unfold pop_iter. simpl. unfold dm_adapt. destruct (forallb _ _); [discriminate|].
        intros [= _ <-]. simpl. auto.
  - pose proof (batch_unbiased k P pi f v pts rest s Cp Mn K Pi L I) as G. unfold total in G. fold after in G. rewrite M in G.
    apply G. exact R.
Qed.
Print Assumptions C88_batch.

(** C88. A whole call of layered AIS, after any history: the expected growth is the number of samples stored times the integral;
    the number of turns is the one the request needs. *)
Theorem C88_lais_call :
  forall P us ops s, pop_params_ok P -> us_ok P us -> Forall (fun e => pop_op_ok P (fst e)) ops -> pop_reachable LAIS P us ops s ->
  forall pi f v pts rest n timeout t, (forall x, 0 <= pi x) -> (forall m, integral v pts (pp_comp P m) == 1) ->
  (forall i xs j l, (j < pp_N P)%nat -> (l < pp_K P)%nat -> pr_draw (rest i xs) j l = nth (j * pp_K P + l) xs []) ->
  0 < timeout -> (forall i xs, pr_clock (rest i xs) < timeout) ->
  let c := (pp_N P * pp_K P)%nat in let turns := ((n - length (pop_samples s) + c - 1) / c)%nat in (turns <= t)%nat ->
  let after tape := out_state (pop_call LAIS P pi n timeout tape s) in
  expect_turns LAIS P pi v pts rest t s (fun tape => weighted_total f (pop_samples (after tape)) (pop_weights (after tape))) ==
  weighted_total f (pop_samples s) (pop_weights s) + Qnat (turns * c) * integral v pts (fun x => pi x * f x).
Proof.
  intros P us ops s A B C D pi f v pts rest n timeout t Pi I R T Cl c turns Ht after.
  apply (call_unbiased LAIS P pi f v pts rest (proj2 (proj2 (proj2 A))) (proj1 (proj2 (proj2 A))) Pi (or_introl eq_refl) I R n timeout t s 0); auto.
  apply (reachable_regular LAIS P us ops s); auto.
Qed.
Print Assumptions C88_lais_call.

(** C88 for calls of deterministic mixture AIS, when the target is positive everywhere. Full statement: as [C88_lais_call]. *)
Theorem C88_dm_call_partial :
  forall P us ops s, pop_params_ok P -> us_ok P us -> Forall (fun e => pop_op_ok P (fst e)) ops -> pop_reachable DM P us ops s ->
  forall pi f v pts rest n timeout t, (forall x, 0 < pi x) -> (forall m, integral v pts (pp_comp P m) == 1) ->
  (forall i xs j l, (j < pp_N P)%nat -> (l < pp_K P)%nat -> pr_draw (rest i xs) j l = nth (j * pp_K P + l) xs []) ->
  0 < timeout -> (forall i xs, pr_clock (rest i xs) < timeout) ->
  let c := (pp_N P * pp_K P)%nat in let turns := ((n - length (pop_samples s) + c - 1) / c)%nat in (turns <= t)%nat ->
  let after tape := out_state (pop_call DM P pi n timeout tape s) in
  expect_turns DM P pi v pts rest t s (fun tape => weighted_total f (pop_samples (after tape)) (pop_weights (after tape))) ==
  weighted_total f (pop_samples s) (pop_weights s) + Qnat (turns * c) * integral v pts (fun x => pi x * f x).
Proof.
  intros P us ops s A B C D pi f v pts rest n timeout t Pi I R T Cl c turns Ht after.
  assert (Pi0 : forall x, 0 <= pi x) by (intros x; specialize (Pi x); lra).
  apply (call_unbiased DM P pi f v pts rest (proj2 (proj2 (proj2 A))) (proj1 (proj2 (proj2 A))) Pi0 (or_intror Pi) I R n timeout t s 0); auto.
  apply (reachable_regular DM P us ops s); auto.
Qed.
Print Assumptions C88_dm_call_partial.

(** Two proposals with one sample each, two cells of volume 2; each proposal prefers its side. *)
Definition ucomp (m x : vec) : Q :=
  if Bool.eqb (Qle_bool (nth 0 m 0) 2) (Qle_bool (nth 0 x 0) 2) then 3 # 8 else 1 # 8.
Definition upop : pop_params := mkPop [0] [4] 2 1 1 ucomp.
Definition upts : list vec := [[1]; [3]].
Definition uround (i : nat) (xs : list vec) : pop_round :=
  mkPopR (fun j k => nth (j * 1 + k) xs []) (fun _ _ => 0) (fun _ _ => ([1], 1 # 2)) (1 # 2).
Definition upi (x : vec) : Q := if Qle_bool (nth 0 x 0) 2 then 3 else 1.
Definition uzero (x : vec) : Q := if Qle_bool (nth 0 x 0) 2 then 1 else 0.
Definition u0 : pop := pop_new upop [[1 # 4]; [3 # 4]].
Lemma uparams : pop_params_ok upop.
Proof.
  repeat split; try (simpl; lia); try (simpl; lra). intros m x. simpl. unfold ucomp. destruct (Bool.eqb _ _); reflexivity.
Qed.
Lemma uus : us_ok upop [[1 # 4]; [3 # 4]].
Proof. repeat split; repeat constructor; simpl; lra. Qed.
Lemma umass m : integral 2 upts (ucomp m) == 1.
Proof. unfold integral, upts, ucomp. simpl. destruct (Qle_bool (nth 0 m 0) 2); reflexivity. Qed.
Lemma uround_draw i xs j l : (j < pp_N upop)%nat -> (l < pp_K upop)%nat -> pr_draw (uround i xs) j l = nth (j * pp_K upop + l) xs [].
Proof. reflexivity. Qed.

Example C88_batch_example :
  pop_reachable DM upop [[1 # 4]; [3 # 4]] [] u0 /\ (forall x, 0 <= uzero x) /\ integral 2 upts (fun x => uzero x * 1) == 2 /\
  (exists e s', pop_iter DM upop uzero (uround 0 [[3]; [3]]) u0 = Failed e s') /\
  expect_each (proposal_laws upop 2 upts u0)
    (fun xs => let s := out_state (pop_iter DM upop uzero (uround 0 xs) u0) in weighted_total (fun _ => 1) (pop_samples s) (pop_weights s)) == 4.
Proof.
  split; [apply pop_init|]. split; [intros x; unfold uzero; destruct (Qle_bool _ _); lra|]. split; [vm_compute; reflexivity|].
  split; [eexists; eexists; vm_compute; reflexivity|vm_compute; reflexivity].
Qed.
Example C88_lais_call_example :
  pop_reachable LAIS upop [[1 # 4]; [3 # 4]] [] u0 /\ integral 2 upts (fun x => upi x * nth 0 x 0) == 12 /\
  expect_turns LAIS upop upi 2 upts uround 2 u0
    (fun tape => let s := out_state (pop_call LAIS upop upi 3 1 tape u0) in weighted_total (fun x => nth 0 x 0) (pop_samples s) (pop_weights s)) == 48.
Proof. split; [apply pop_init|]. split; vm_compute; reflexivity. Qed.
Example C88_dm_call_partial_example :
  pop_reachable DM upop [[1 # 4]; [3 # 4]] [] u0 /\ (forall x, 0 < upi x) /\
  expect_turns DM upop upi 2 upts uround 2 u0
    (fun tape => let s := out_state (pop_call DM upop upi 3 1 tape u0) in weighted_total (fun x => nth 0 x 0) (pop_samples s) (pop_weights s)) == 48.
Proof.
  split; [apply pop_init|]. split; [intros x; unfold upi; destruct (Qle_bool _ _); lra|vm_compute; reflexivity].
Qed.

(** C88 is false of calls of deterministic mixture AIS when the target vanishes somewhere: a batch without a sample in the
    support ends the call with an exception, and the samples of the turns that do not take place are missing. *)
Theorem C88_dm_call_refuted :
  exists P us s, pop_params_ok P /\ us_ok P us /\ pop_reachable DM P us [] s /\
  exists pi v pts rest n timeout, (forall x, 0 <= pi x) /\ (forall m, integral v pts (pp_comp P m) == 1) /\
  (forall i xs j l, (j < pp_N P)%nat -> (l < pp_K P)%nat -> pr_draw (rest i xs) j l = nth (j * pp_K P + l) xs []) /\
  0 < timeout /\ (forall i xs, pr_clock (rest i xs) < timeout) /\
  let c := (pp_N P * pp_K P)%nat in let turns := ((n - length (pop_samples s) + c - 1) / c)%nat in
  let after tape := out_state (pop_call DM P pi n timeout tape s) in
  expect_turns DM P pi v pts rest turns s (fun tape => weighted_total (fun _ => 1) (pop_samples (after tape)) (pop_weights (after tape))) <
  weighted_total (fun _ => 1) (pop_samples s) (pop_weights s) + Qnat (turns * c) * integral v pts (fun x => pi x * 1).
Proof.
  exists upop, [[1 # 4]; [3 # 4]], u0. split; [apply uparams|]. split; [apply uus|]. split; [apply pop_init|].
  exists uzero, 2, upts, uround, 3%nat, 1. split; [intros x; unfold uzero; destruct (Qle_bool _ _); lra|].
  split; [apply umass|]. split; [apply uround_draw|]. split; [lra|]. split; [intros; simpl; lra|]. vm_compute. reflexivity.
Qed.
Print Assumptions C88_dm_call_refuted.
