(** Lemmas on the evaluation loop of the benchmark runner. *)
From Coq Require Import String List Bool Arith ZArith Lia QArith.
Import ListNotations.
From Verif Require Import Prelude.Py Prelude.QBase Prelude.QFacts Model.TableFormat Model.Benchmark Spec.BenchSpec.

Open Scope list_scope.

Section World.
Context {W : Type}.
Notation bstate := (bstate W).
Notation bench := (bench W).

Lemma turn_done : forall (B : bench) C n (s s' : bstate), bench_turn B C n s = Done s' ->
  ghost_calls s' = ghost_calls s ++ [(n, c_time C, bs_len s')] /\
  (exists w1 w2, w1 = each (b_pre B) 0 (instances (c_metrics C)) (bs_w s) /\ b_call B n (c_time C) w1 = Done w2 /\
     bs_len s' = b_len B w2 /\
     exists d, compute_all B 0 (instances (c_metrics C)) (each (b_post B) 0 (instances (c_metrics C)) w2) [] = Ok (bs_w s', d) /\
       if c_file C then exists r, bs_rows s' = bs_rows s ++ [r] /\ make_row B d (bs_len s') (bs_w s') = Ok r
       else bs_rows s' = bs_rows s).
Proof.
  intros B C n s s' H. unfold bench_turn in H. cbv zeta in H.
  destruct (b_call B n (c_time C) _) as [w2|w2|e w2] eqn:E; try discriminate.
  destruct (compute_all B 0 _ _ []) as [[w4 d]|e] eqn:K; try discriminate.
  destruct (c_file C).
  - destruct (make_row B d (b_len B w2) w4) as [r|e] eqn:M; try discriminate. injection H as <-. cbn.
    split; [reflexivity|]. eexists. exists w2. split; [reflexivity|]. split; [exact E|]. split; [reflexivity|].
    exists d. split; [exact K|]. exists r. split; [reflexivity | exact M].
  - injection H as <-. cbn. split; [reflexivity|]. eexists. exists w2. split; [reflexivity|].
    split; [exact E|]. split; [reflexivity|]. exists d. split; [exact K | reflexivity].
Qed.

Lemma make_row_ok : forall (B : bench) d l w r, make_row B d l w = Ok r ->
  r_dims r = b_dims B /\ r_count r = l /\ r_results r = d /\ r_method r = b_method B /\ r_target r = b_target B /\
  b_stats B w = Ok (r_ness r, r_acc r, r_qs r, r_qe r, r_pi r).
Proof.
  intros B d l w r H. unfold make_row in H. destruct (b_stats B w) as [[[[[a b] c] e] f]|e]; [|discriminate].
  injection H as <-. cbn. repeat split.
Qed.

(** What one repetition adds. *)
Definition row_of (B : bench) (r : row) (c : nat * Q * nat) : Prop :=
  r_dims r = b_dims B /\ r_count r = snd c /\ r_method r = b_method B /\ r_target r = b_target B.

Definition step_rows (B : bench) (C : config) (s s' : bstate) : Prop :=
  exists rs cs, bs_rows s' = bs_rows s ++ rs /\ ghost_calls s' = ghost_calls s ++ cs /\
    if c_file C then Forall2 (row_of B) rs cs else rs = [].

Lemma loop_done : forall fuel (B : bench) C n (s s' : bstate),
  0 <= c_time C -> bench_loop fuel B C n s = Done s' ->
  exists rs cs, bs_rows s' = bs_rows s ++ rs /\ ghost_calls s' = ghost_calls s ++ cs /\
    (if c_file C then Forall2 (row_of B) rs cs else rs = []) /\
    requests n (c_batch C) (c_time C) cs /\
    ((bs_len s < c_max C)%nat -> stops_at (c_max C) (map snd cs)) /\
    ((c_max C <= bs_len s)%nat -> cs = []) /\ bs_len s' = last (map snd cs) (bs_len s).
Proof.
  induction fuel as [|f IH]; intros B C n s s' T H; cbn [bench_loop] in H.
  - destruct (bs_len s <? c_max C)%nat eqn:L; [discriminate|]. injection H as <-. apply Nat.ltb_ge in L.
    exists [], []. rewrite !app_nil_r. split; [reflexivity|]. split; [reflexivity|].
    split; [destruct (c_file C); constructor|]. split; [constructor|]. split; [intros; lia|]. now split.
  - destruct (bs_len s <? c_max C)%nat eqn:L.
    + apply Nat.ltb_lt in L. destruct (bench_turn B C n s) as [s1|s1|e s1] eqn:E; try discriminate.
      assert (Qltb (c_time C) 0 = false) as G by (apply Qltb_false; exact T). rewrite G in H.
      destruct (turn_done B C n s s1 E) as (G1 & w1 & w2 & _ & _ & _ & d & _ & R1).
      destruct (IH B C _ s1 s' T H) as (rs & cs & R & K & F & Rq & St & Nil & La).
      assert (X : exists r1, bs_rows s1 = bs_rows s ++ r1 /\
                  if c_file C then exists r, r1 = [r] /\ row_of B r (n, c_time C, bs_len s1) else r1 = []).
      { destruct (c_file C).
        - destruct R1 as (r & Rr & M). exists [r]. split; [exact Rr|]. exists r. split; [reflexivity|].
          destruct (make_row_ok _ _ _ _ _ M) as (A1 & A2 & _ & A4 & A5 & _). repeat split; assumption.
        - exists []. rewrite app_nil_r. split; [exact R1 | reflexivity]. }
      destruct X as (r1 & X1 & X2).
      exists (r1 ++ rs), ((n, c_time C, bs_len s1) :: cs).
      split; [rewrite R, X1, app_assoc; reflexivity|].
      split; [rewrite K, G1, <- app_assoc; reflexivity|].
      split.
      { destruct (c_file C); [|now rewrite X2, F]. destruct X2 as (r & -> & Rr). constructor; assumption. }
      split; [constructor; exact Rq|].
      split.
      { intros _. cbn [map snd]. destruct (le_lt_dec (c_max C) (bs_len s1)) as [G2|G2].
        - rewrite (Nil G2). apply stops_last. exact G2.
        - apply stops_more; [exact G2|]. exact (St G2). }
      split; [intros; lia|].
      cbn [map snd]. rewrite La. destruct (map snd cs) as [|a l]; [reflexivity|]. cbn [last].
      clear. revert a. induction l as [|b l IH]; intros a; [reflexivity|]. cbn [last] in *. apply IH.
    + injection H as <-. apply Nat.ltb_ge in L. exists [], []. rewrite !app_nil_r.
      split; [reflexivity|]. split; [reflexivity|].
      split; [destruct (c_file C); constructor|]. split; [constructor|]. split; [intros; lia|]. now split.
Qed.

Lemma rep_done : forall fuel (B : bench) C (s s' : bstate), 0 <= c_time C -> bench_rep fuel B C s = Done s' ->
  (1 <= c_max C)%nat /\
  exists rs cs, bs_rows s' = bs_rows s ++ rs /\ ghost_calls s' = ghost_calls s ++ cs /\
    (if c_file C then Forall2 (row_of B) rs cs else rs = []) /\
    requests (c_batch C) (c_batch C) (c_time C) cs /\ stops_at (c_max C) (map snd cs).
Proof.
  intros fuel B C s s' T H. unfold bench_rep in H. cbv zeta in H.
  destruct (bench_loop fuel B C _ _) as [s1|s1|e s1] eqn:E; try discriminate.
  destruct (c_max C =? 0)%nat eqn:M; [discriminate|]. apply Nat.eqb_neq in M. injection H as <-.
  split; [lia|]. destruct (loop_done _ _ _ _ _ _ T E) as (rs & cs & R & K & F & Rq & St & _).
  exists rs, cs. cbn in *. repeat split; try assumption. apply St. lia.
Qed.

(** All repetitions: one group of rows and one group of calls each. *)
Lemma reps_done : forall k fuel (B : bench) C (s s' : bstate), 0 <= c_time C -> bench_reps k fuel B C s = Done s' ->
  exists gs cgs, bs_rows s' = bs_rows s ++ concat gs /\ ghost_calls s' = ghost_calls s ++ concat cgs /\
    length gs = k /\ length cgs = k /\
    Forall2 (fun g cg => (if c_file C then Forall2 (row_of B) g cg else g = []) /\
                         requests (c_batch C) (c_batch C) (c_time C) cg /\ stops_at (c_max C) (map snd cg)) gs cgs.
Proof.
  induction k as [|k IH]; intros fuel B C s s' T H; cbn [bench_reps] in H.
  - injection H as <-. exists [], []. cbn. rewrite !app_nil_r. repeat split; constructor.
  - destruct (bench_rep fuel B C s) as [s1|s1|e s1] eqn:E; try discriminate.
    destruct (rep_done _ _ _ _ _ T E) as (_ & rs & cs & R & K & F & Rq & St).
    destruct (IH _ _ _ _ _ T H) as (gs & cgs & R2 & K2 & L1 & L2 & F2).
    exists (rs :: gs), (cs :: cgs). cbn. rewrite R2, R, K2, K, <- !app_assoc. repeat split; try lia.
    constructor; [repeat split; assumption | assumption].
Qed.

End World.
