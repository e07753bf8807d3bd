(** Traces of the benchmark loop under assumptions on the method: progress, growth, exact delivery. *)
From Coq Require Import String List Bool Arith ZArith Lia QArith.
Import ListNotations.
From Verif Require Import Prelude.Py Prelude.QBase Prelude.QFacts Model.TableFormat Model.Benchmark Spec.BenchSpec Spec.BenchMethodSpec
  Proofs.BenchmarkProofs.
Open Scope list_scope.

Section World.
Context {W : Type}.
Notation bstate := (bstate W).
Notation bench := (bench W).

Lemma each_len : forall (B : bench) op, (forall i k w, b_len B (op i k w) = b_len B w) ->
  forall ks i w, b_len B (each op i ks w) = b_len B w.
Proof. intros B op H. induction ks as [|k ks IH]; intros i w; [reflexivity|]. cbn [each]. now rewrite IH. Qed.

Lemma compute_len : forall (B : bench), (forall i k w w' v, b_compute B i k w = Ok (w', v) -> b_len B w' = b_len B w) ->
  forall ks i w d w' d', compute_all B i ks w d = Ok (w', d') -> b_len B w' = b_len B w.
Proof.
  intros B H. induction ks as [|k ks IH]; intros i w d w' d' E; cbn [compute_all] in E.
  - now injection E as <- _.
  - destruct (b_compute B i k w) as [[w1 v]|e] eqn:K; [|discriminate]. rewrite (IH _ _ _ _ _ E). exact (H _ _ _ _ _ K).
Qed.

Inductive linked (P : nat -> nat -> nat -> Prop) : nat -> list (nat * Q * nat) -> Prop :=
| linked_nil a : linked P a []
| linked_cons a n t l cs : P a n l -> linked P l cs -> linked P a ((n, t, l) :: cs).

Lemma turn_linked : forall (B : bench) C P n (s s' : bstate), metrics_keep B -> calls_satisfy B (c_time C) P ->
  b_len B (bs_w s) = bs_len s -> bench_turn B C n s = Done s' ->
  P (bs_len s) n (bs_len s') /\ b_len B (bs_w s') = bs_len s'.
Proof.
  intros B C P n s s' (_ & Pr & Po & Co) Ca I H.
  destruct (turn_done _ _ _ _ _ H) as (_ & w1 & w2 & E1 & E2 & E3 & d & E4 & _).
  assert (L1 : b_len B w1 = bs_len s) by (subst w1; rewrite (each_len B _ Pr); exact I).
  split; [rewrite <- L1, E3; exact (Ca _ _ _ E2)|].
  rewrite (compute_len B Co _ _ _ _ _ _ E4), (each_len B _ Po). now symmetry.
Qed.

Lemma loop_linked : forall fuel (B : bench) C P n (s s' : bstate), metrics_keep B -> calls_satisfy B (c_time C) P ->
  0 <= c_time C -> b_len B (bs_w s) = bs_len s -> bench_loop fuel B C n s = Done s' ->
  exists cs, ghost_calls s' = ghost_calls s ++ cs /\ linked P (bs_len s) cs.
Proof.
  induction fuel as [|f IH]; intros B C P n s s' M Ca T I H; cbn [bench_loop] in H.
  - destruct (bs_len s <? c_max C)%nat; [discriminate|]. injection H as <-. exists []. rewrite app_nil_r. split; [reflexivity|constructor].
  - destruct (bs_len s <? c_max C)%nat.
    + destruct (bench_turn B C n s) as [s1|s1|e s1] eqn:E; try discriminate.
      assert (Qltb (c_time C) 0 = false) as G by (apply Qltb_false; exact T). rewrite G in H.
      destruct (turn_linked _ _ _ _ _ _ M Ca I E) as (L & I').
      destruct (turn_done _ _ _ _ _ E) as (K & _).
      destruct (IH _ _ _ _ _ _ M Ca T I' H) as (cs & K2 & L2).
      exists ((n, c_time C, bs_len s1) :: cs). split; [rewrite K2, K, <- app_assoc; reflexivity | now constructor].
    + injection H as <-. exists []. rewrite app_nil_r. split; [reflexivity|constructor].
Qed.

Lemma reps_linked : forall k fuel (B : bench) C P (s s' : bstate), metrics_keep B -> reset_empties B ->
  calls_satisfy B (c_time C) P -> 0 <= c_time C -> bench_reps k fuel B C s = Done s' ->
  exists gs cgs, bs_rows s' = bs_rows s ++ concat gs /\ ghost_calls s' = ghost_calls s ++ concat cgs /\
    length gs = k /\ length cgs = k /\
    Forall2 (fun g cg => (if c_file C then Forall2 (row_of B) g cg else g = []) /\
                         requests (c_batch C) (c_batch C) (c_time C) cg /\ stops_at (c_max C) (map snd cg) /\
                         linked P 0 cg) gs cgs.
Proof.
  induction k as [|k IH]; intros fuel B C P s s' M Re Ca T H; cbn [bench_reps] in H.
  - injection H as <-. exists [], []. cbn. rewrite !app_nil_r. repeat split; constructor.
  - destruct (bench_rep fuel B C s) as [s1|s1|e s1] eqn:E; try discriminate.
    destruct (rep_done _ _ _ _ _ T E) as (_ & rs & cs & R & K & F & Rq & St).
    destruct (IH _ _ _ _ _ _ M Re Ca T H) as (gs & cgs & R2 & K2 & L1 & L2 & F2).
    assert (Lk : linked P 0 cs).
    { unfold bench_rep in E. cbv zeta in E. destruct (bench_loop fuel B C _ _) as [s2|s2|e s2] eqn:E2; try discriminate.
      destruct (c_max C =? 0)%nat; [discriminate|]. injection E as <-.
      match type of E2 with bench_loop _ _ _ _ ?x = _ => assert (I0 : b_len B (bs_w x) = bs_len x) end.
      { cbn. pose proof M as M'. destruct M' as (Mr & _). rewrite (each_len B _ Mr). apply Re. }
      destruct (loop_linked _ _ _ P _ _ _ M Ca T I0 E2) as (cs' & K3 & L3).
      - cbn in K3. rewrite K in K3. apply app_inv_head in K3. subst cs'. exact L3. }
    exists (rs :: gs), (cs :: cgs). cbn. rewrite R2, R, K2, K, <- !app_assoc. repeat split; try lia.
    constructor; [repeat split; assumption | assumption].
Qed.

(** Consequences of the link relation. *)
Lemma linked_nondecreasing : forall cs a, linked (fun a _ b => (a <= b)%nat) a cs -> nondecreasing (a :: map snd cs).
Proof.
  induction cs as [|[[n t] l] cs IH]; intros a H; [exact I|]. inversion H; subst. cbn [map snd].
  split; [assumption|]. now apply IH.
Qed.
Lemma nondecreasing_tail : forall a l, nondecreasing (a :: l) -> nondecreasing l.
Proof. intros a [|b l] H; [exact I | exact (proj2 H)]. Qed.

Lemma exact_counts : forall b cs n a m, (1 <= b)%nat ->
  requests n b m cs -> n = (a + b)%nat -> linked (fun a n l => l = Nat.max n a) a cs ->
  map snd cs = map (fun i => a + S i * b)%nat (seq 0 (length cs)).
Proof.
  intros b cs. induction cs as [|[[n0 t] l] cs IH]; intros n a m Hb R E L; [reflexivity|].
  inversion R; subst. inversion L; subst. cbn [map snd length seq].
  assert (X : Nat.max (a + b) a = (a + b)%nat) by lia. rewrite X in *.
  f_equal; [lia|]. match goal with R' : requests _ _ _ cs |- _ => rewrite (IH _ (a + b)%nat _ Hb R') by (assumption || reflexivity) end.
  rewrite <- seq_shift, map_map. apply map_ext. intros i. lia.
Qed.

Lemma stops_length : forall m b cs a k, (1 <= b)%nat -> (a < m)%nat ->
  cs = map (fun i => a + S i * b)%nat (seq 0 k) -> stops_at m cs ->
  (m <= a + k * b)%nat /\ (a + k * b < m + b)%nat /\ (1 <= k)%nat.
Proof.
  intros m b cs. induction cs as [|c cs IH]; intros a k Hb A E S; [inversion S|].
  destruct k as [|k]; [discriminate|]. cbn [seq map] in E. injection E as Ec Es.
  rewrite <- seq_shift, map_map in Es.
  inversion S as [l H|l ls H1 H2]; subst.
  - destruct k as [|k]; [lia|discriminate].
  - destruct (IH (a + 1 * b)%nat k Hb H1) as (I1 & I2 & I3); [|exact H2|lia].
    apply map_ext. intros i. lia.
Qed.

(** ** Termination *)
Lemma turn_not_running : forall (B : bench) C n (s s' : bstate), never_hangs B (c_time C) -> bench_turn B C n s <> Running s'.
Proof.
  intros B C n s s' N H. unfold bench_turn in H. cbv zeta in H.
  destruct (b_call B n (c_time C) _) as [w2|w2|e w2] eqn:E; [| exact (N _ _ _ E) | discriminate].
  destruct (compute_all B 0 _ _ []) as [[w4 d]|e]; [|discriminate].
  destruct (c_file C); [|discriminate]. destruct (make_row B d (b_len B w2) w4); discriminate.
Qed.

Lemma turn_calls : forall (B : bench) C n (s : bstate),
  (length (ghost_calls (out_state (bench_turn B C n s))) <= S (length (ghost_calls s)))%nat.
Proof.
  intros B C n s. unfold bench_turn. cbv zeta.
  destruct (b_call B n (c_time C) _) as [w2|w2|e w2]; cbn; try lia.
  destruct (compute_all B 0 _ _ []) as [[w4 d]|e]; cbn; try (rewrite app_length; cbn; lia).
  destruct (c_file C); cbn; try (rewrite app_length; cbn; lia).
  destruct (make_row B d (b_len B w2) w4); cbn; rewrite app_length; cbn; lia.
Qed.

Lemma loop_ends : forall fuel (B : bench) C (s : bstate), metrics_keep B -> never_hangs B (c_time C) ->
  calls_satisfy B (c_time C) gains -> (1 <= c_batch C)%nat -> b_len B (bs_w s) = bs_len s ->
  (c_max C <= fuel + bs_len s)%nat ->
  (forall s', bench_loop fuel B C (bs_len s + c_batch C) s <> Running s') /\
  (length (ghost_calls (out_state (bench_loop fuel B C (bs_len s + c_batch C) s))) <=
   length (ghost_calls s) + (c_max C - bs_len s))%nat.
Proof.
  induction fuel as [|f IH]; intros B C s M N Ga Hb I F; cbn [bench_loop].
  - destruct (bs_len s <? c_max C)%nat eqn:L; [apply Nat.ltb_lt in L; lia|]. split; [discriminate|cbn; lia].
  - destruct (bs_len s <? c_max C)%nat eqn:L; [|split; [discriminate|cbn; lia]]. apply Nat.ltb_lt in L.
    pose proof (turn_calls B C (bs_len s + c_batch C) s) as Tc.
    destruct (bench_turn B C _ s) as [s1|s1|e s1] eqn:E; cbn [out_state] in Tc.
    + destruct (turn_linked _ _ _ _ _ _ M Ga I E) as (L1 & I1). unfold gains in L1. specialize (L1 ltac:(lia)).
      destruct (Qltb (c_time C) 0); [split; [discriminate|cbn; lia]|].
      destruct (IH B C s1 M N Ga Hb I1 ltac:(lia)) as (R & K). split; [exact R|]. lia.
    + exfalso. exact (turn_not_running _ _ _ _ _ N E).
    + split; [discriminate|]. cbn. lia.
Qed.

Lemma rep_ends : forall fuel (B : bench) C (s : bstate), metrics_keep B -> reset_empties B -> never_hangs B (c_time C) ->
  calls_satisfy B (c_time C) gains -> (1 <= c_batch C)%nat -> (c_max C <= fuel)%nat ->
  (forall s', bench_rep fuel B C s <> Running s') /\
  (length (ghost_calls (out_state (bench_rep fuel B C s))) <= length (ghost_calls s) + c_max C)%nat.
Proof.
  intros fuel B C s M Re N Ga Hb F. unfold bench_rep. cbv zeta.
  set (s0 := mkB _ 0 (bs_rows s) (ghost_calls s)).
  assert (I0 : b_len B (bs_w s0) = bs_len s0).
  { subst s0. cbn. destruct M as (Mr & _). rewrite (each_len B _ Mr). apply Re. }
  destruct (loop_ends fuel B C s0 M N Ga Hb I0) as (R & K); [subst s0; cbn; lia|].
  change (bs_len s0 + c_batch C)%nat with (c_batch C) in *. change (ghost_calls s0) with (ghost_calls s) in K.
  change (bs_len s0) with 0%nat in K. rewrite Nat.sub_0_r in K.
  destruct (bench_loop fuel B C (c_batch C) s0) as [s1|s1|e s1]; cbn [out_state] in K.
  - destruct (c_max C =? 0)%nat; (split; [discriminate|exact K]).
  - exfalso. exact (R s1 eq_refl).
  - split; [discriminate|exact K].
Qed.

Lemma reps_end : forall k fuel (B : bench) C (s : bstate), metrics_keep B -> reset_empties B -> never_hangs B (c_time C) ->
  calls_satisfy B (c_time C) gains -> (1 <= c_batch C)%nat -> (c_max C <= fuel)%nat ->
  (forall s', bench_reps k fuel B C s <> Running s') /\
  (length (ghost_calls (out_state (bench_reps k fuel B C s))) <= length (ghost_calls s) + k * c_max C)%nat.
Proof.
  induction k as [|k IH]; intros fuel B C s M Re N Ga Hb F; cbn [bench_reps].
  - split; [discriminate|cbn; lia].
  - destruct (rep_ends fuel B C s M Re N Ga Hb F) as (R & K).
    destruct (bench_rep fuel B C s) as [s1|s1|e s1]; cbn [out_state] in K.
    + destruct (IH fuel B C s1 M Re N Ga Hb F) as (R2 & K2). split; [exact R2|]. lia.
    + exfalso. exact (R s1 eq_refl).
    + split; [discriminate|]. cbn. lia.
Qed.

(** A method that stops gaining samples is called for ever. *)
Lemma loop_forever : forall (B : bench) C (Inv : bstate -> Prop), 0 <= c_time C ->
  (forall s, Inv s -> (bs_len s < c_max C)%nat) ->
  (forall s, Inv s -> exists s', bench_turn B C (bs_len s + c_batch C) s = Done s' /\ Inv s') ->
  forall fuel s, Inv s -> exists s', bench_loop fuel B C (bs_len s + c_batch C) s = Running s' /\ Inv s' /\
                  length (ghost_calls s') = (length (ghost_calls s) + fuel)%nat.
Proof.
  intros B C Inv T A St. induction fuel as [|f IH]; intros s I; cbn [bench_loop].
  - rewrite (proj2 (Nat.ltb_lt _ _) (A s I)). exists s. split; [reflexivity|]. split; [exact I|lia].
  - rewrite (proj2 (Nat.ltb_lt _ _) (A s I)). destruct (St s I) as (s1 & E & I1). rewrite E.
    assert (Qltb (c_time C) 0 = false) as G by (apply Qltb_false; exact T). rewrite G.
    destruct (IH s1 I1) as (s' & R & I' & L). exists s'. split; [exact R|]. split; [exact I'|].
    destruct (turn_done _ _ _ _ _ E) as (K & _). rewrite L, K, app_length. cbn. lia.
Qed.

End World.
