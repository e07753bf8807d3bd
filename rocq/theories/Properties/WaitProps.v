(** C82: waiting for a distribution to be ready. *)
From Coq Require Import List Bool Arith Lia QArith Qround Lqa.
Import ListNotations.
From Verif Require Import Prelude.Py Prelude.QBase Prelude.QFacts Model.Wait Spec.WaitSpec.
Open Scope Q_scope.

Section Wait.
Variables (timeout t0 : Q).
Let late (p : Q * bool) : Prop := timeout <= fst p - t0.
Let stop (p : Q * bool) : Prop := snd p = true \/ late p.

Lemma wait_first : forall tape,
  (wait_for_ready timeout t0 tape = WPending <-> forall p, In p tape -> ~ stop p) /\
  (forall r, wait_for_ready timeout t0 tape = r -> r <> WPending ->
     exists k p, nth_error tape k = Some p /\ first_poll stop tape k /\ (late p -> r = WRaise TimeoutError) /\ (~ late p -> r = WTrue)).
Proof.
  assert (FS : forall q tape k, ~ stop q -> first_poll stop tape k -> first_poll stop (q :: tape) (S k)).
  { intros q tape k N [[x [E X]] F]. split; [exists x; auto|]. intros [|j] y L H; simpl in H; [inversion H; subst; exact N|].
    apply (F j y); [lia|exact H]. }
  induction tape as [|[t b] tape [IP IR]]; simpl.
  - split; [split; [intros _ p []|reflexivity]|]. intros r <- N. congruence.
  - destruct (Qltb_spec (t - t0) timeout) as [L|L].
    + assert (NL : ~ late (t, b)) by (unfold late; simpl; lra). destruct b.
      * split; [split; [discriminate|]|].
        { intros H. exfalso. apply (H (t, true)); [now left|left; reflexivity]. }
        intros r <- _. exists 0%nat, (t, true). split; [reflexivity|]. split.
        { split; [exists (t, true); split; [reflexivity|now left]|]. intros j x J. lia. }
        split; [contradiction|reflexivity].
      * assert (NS : ~ stop (t, false)) by (intros [H|H]; [discriminate|contradiction]). split.
        { rewrite IP. split; [intros H p [<-|I]; auto|intros H p I; apply H; now right]. }
        intros r E N. destruct (IR r E N) as (k & p & A & B & C). exists (S k), p. split; [exact A|]. split; [now apply FS|exact C].
    + assert (LT : late (t, b)) by (unfold late; simpl; lra). split.
      { split; [discriminate|]. intros H. exfalso. apply (H (t, b)); [now left|now right]. }
      intros r <- _. exists 0%nat, (t, b). split; [reflexivity|]. split.
      { split; [exists (t, b); split; [reflexivity|now right]|]. intros j x J. lia. }
      split; [reflexivity|contradiction].
Qed.
End Wait.

(** Waiting ends at the first poll that finds the distribution ready or the time over: with True exactly when it was
    ready in time, with TimeoutError exactly when at least [timeout] has passed. *)
Theorem C82_first_event : forall timeout t0 tape,
  let late (p : Q * bool) := timeout <= fst p - t0 in
  (wait_for_ready timeout t0 tape = WTrue <->
     exists k p, nth_error tape k = Some p /\ snd p = true /\ ~ late p /\ first_poll (fun p => snd p = true \/ late p) tape k) /\
  (wait_for_ready timeout t0 tape = WRaise TimeoutError <->
     exists k p, nth_error tape k = Some p /\ late p /\ first_poll (fun p => snd p = true \/ late p) tape k).
Proof.
  intros timeout t0 tape late.
  destruct (wait_first timeout t0 tape) as [WP WR]. fold late in WP, WR.
  assert (U : forall P k k', @first_poll (Q * bool) P tape k -> first_poll P tape k' -> k = k').
  { intros P k k' [[x [A X]] F] [[x' [A' X']] F']. destruct (Nat.lt_trichotomy k k') as [H|[H|H]]; [|exact H|]; exfalso.
    - exact (F' k x H A X).
    - exact (F k' x' H A' X'). }
  assert (NP : forall k p, nth_error tape k = Some p -> first_poll (fun p => snd p = true \/ late p) tape k ->
    wait_for_ready timeout t0 tape <> WPending).
  { intros k p A [[x [B X]] _] H. apply (proj1 WP H x); [eapply nth_error_In; eauto|exact X]. }
  assert (DL : forall p, late p \/ ~ late p).
  { intros p. destruct (Qlt_le_dec (fst p - t0) timeout); [right; unfold late; lra|left; assumption]. }
  split; split.
  - intros H. destruct (WR _ H) as (k & p & A & B & C & D); [discriminate|]. exists k, p. split; [exact A|].
    destruct (DL p) as [L|L]; [specialize (C L); discriminate|]. split; [|split; assumption].
    destruct B as [[x [E X]] _]. rewrite A in E. inversion E; subst x. destruct X; [assumption|contradiction].
  - intros (k & p & A & S & L & B). destruct (WR _ eq_refl (NP k p A B)) as (k' & p' & A' & B' & C & D).
    rewrite (U _ _ _ B' B) in A'. rewrite A in A'. inversion A'; subst. exact (D L).
  - intros H. destruct (WR _ H) as (k & p & A & B & C & D); [discriminate|]. exists k, p. split; [exact A|]. split; [|exact B].
    destruct (DL p) as [L|L]; [exact L|]. specialize (D L). discriminate.
  - intros (k & p & A & L & B). destruct (WR _ eq_refl (NP k p A B)) as (k' & p' & A' & B' & C & D).
    rewrite (U _ _ _ B' B) in A'. rewrite A in A'. inversion A'; subst. exact (C L).
Qed.

(** On a clock that advances with every poll a call with any timeout ends, ready or not. *)
Theorem C82_ends : forall timeout t0 delta tape, 0 < delta -> ticking delta t0 (map fst tape) ->
  timeout <= inject_Z (Z.of_nat (pred (length tape))) * delta -> (0 < length tape)%nat ->
  wait_for_ready timeout t0 tape <> WPending.
Proof.
  intros timeout t0 delta tape D T L N H. apply (proj1 (wait_first timeout t0 tape)) with
    (p := nth (pred (length tape)) tape (0, true)) in H; [|apply nth_In; lia]. apply H. right.
  set (k := pred (length tape)) in *. assert (E : nth_error tape k = Some (nth k tape (0, true))) by (apply nth_error_nth'; unfold k; lia).
  specialize (T k (fst (nth k tape (0, true)))). rewrite nth_error_map, E in T. specialize (T eq_refl). lra.
Qed.

(** What every distribution of the package does (it is always ready): the answer is True at the first poll, provided
    that poll comes in time; a timeout that is not positive raises although the distribution is ready. *)
Theorem C82_ready : forall timeout t0 tape, tape <> [] -> (forall p, In p tape -> snd p = true) -> monotone t0 (map fst tape) ->
  (forall p, nth_error tape 0 = Some p -> fst p - t0 < timeout -> wait_for_ready timeout t0 tape = WTrue) /\
  (timeout <= 0 -> wait_for_ready timeout t0 tape = WRaise TimeoutError).
Proof.
  intros timeout t0 [|[t b] tape] N R [M _]; [congruence|]. simpl.
  assert (b = true) as -> by (apply (R (t, b)); now left). split.
  - intros p E L. inversion E; subst p. simpl in L. apply Qltb_true in L. now rewrite L.
  - intros L. assert (t0 <= t) by (apply M; now left). destruct (Qltb_spec (t - t0) timeout); [lra|reflexivity].
Qed.

Example C82_example : let tape := [(10, false); (21 # 2, false); (11, true); (13, true)] in
  wait_for_ready 2 10 tape = WTrue /\ wait_for_ready 1 10 tape = WRaise TimeoutError /\
  ticking (1 # 4) 10 (map fst tape) /\ monotone 0 (map fst [(1, true); (2, true)]).
Proof.
  split; [reflexivity|]. split; [reflexivity|]. split.
  - intros k t H. do 4 (destruct k as [|k]; [simpl in H; inversion H; subst; vm_compute; discriminate|]). destruct k; discriminate.
  - split.
    + intros t [<-|[<-|[]]]; simpl; lra.
    + intros [|[|i]] [|[|j]] x y L A B; simpl in A, B; try lia; try (destruct i; discriminate); try (destruct j; discriminate);
        inversion A; inversion B; subst; lra.
Qed.

Print Assumptions C82_first_event.
Print Assumptions C82_ends.
Print Assumptions C82_ready.
