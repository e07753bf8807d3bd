(** Whole evaluations and runs. *)
From Coq Require Import String List Bool Arith ZArith Lia QArith.
Import ListNotations.
From Verif Require Import Prelude.Py Prelude.QBase Prelude.QFacts Model.TableFormat Model.Benchmark Spec.BenchSpec
  Spec.BenchMethodSpec Proofs.BenchmarkProofs Proofs.BenchmarkTrace.
Open Scope list_scope.

Lemma Forall2_imp : forall (A B : Type) (P P' : A -> B -> Prop) l m, (forall a b, P a b -> P' a b) -> Forall2 P l m -> Forall2 P' l m.
Proof. intros A B P P' l m H F. induction F; constructor; auto. Qed.

Section World.
Context {W : Type}.
Notation bstate := (bstate W).
Notation bench := (bench W).

Definition seeded (B : bench) (C : config) (s : bstate) : bstate :=
  if (0 <=? c_seedv C)%Z then mkB (b_seed B (c_seedv C) (bs_w s)) (bs_len s) (bs_rows s) (ghost_calls s) else s.
Lemma evaluate_seeded : forall fuel (B : bench) C s, evaluate_method fuel B C s = bench_reps (c_reps C) fuel B C (seeded B C s).
Proof. reflexivity. Qed.
Lemma seeded_rows : forall (B : bench) C s, bs_rows (seeded B C s) = bs_rows s /\ ghost_calls (seeded B C s) = ghost_calls s.
Proof. intros. unfold seeded. destruct (0 <=? c_seedv C)%Z; now split. Qed.

Theorem evaluate_rows : forall fuel (B : bench) C s s', 0 <= c_time C -> c_file C = true ->
  evaluate_method fuel B C s = Done s' ->
  exists gs cgs, bs_rows s' = bs_rows s ++ concat gs /\ ghost_calls s' = ghost_calls s ++ concat cgs /\
    length gs = c_reps C /\ length cgs = c_reps C /\
    Forall2 (fun g cg => Forall2 (row_of B) g cg /\ requests (c_batch C) (c_batch C) (c_time C) cg /\
                         stops_at (c_max C) (map r_count g)) gs cgs.
Proof.
  intros fuel B C s s' T Fi H. rewrite evaluate_seeded in H.
  destruct (reps_done _ _ _ _ _ _ T H) as (gs & cgs & R & K & L1 & L2 & F).
  destruct (seeded_rows B C s) as (S1 & S2). rewrite S1 in R. rewrite S2 in K.
  exists gs, cgs. split; [exact R|]. split; [exact K|]. split; [exact L1|]. split; [exact L2|].
  eapply Forall2_imp; [|exact F]. rewrite Fi. intros g cg (A & Rq & St). split; [exact A|]. split; [exact Rq|].
  assert (E : map r_count g = map snd cg) by (clear -A; induction A as [|r c g cg (_ & X & _) A IH]; cbn; congruence).
  rewrite E. exact St.
Qed.

Theorem evaluate_growth : forall fuel (B : bench) C s s', 0 <= c_time C -> c_file C = true ->
  metrics_keep B -> reset_empties B -> calls_satisfy B (c_time C) keeps ->
  evaluate_method fuel B C s = Done s' ->
  exists gs, bs_rows s' = bs_rows s ++ concat gs /\ length gs = c_reps C /\
    Forall (fun g => nondecreasing (map r_count g)) gs.
Proof.
  intros fuel B C s s' T Fi M Re Ca H. rewrite evaluate_seeded in H.
  destruct (reps_linked _ _ _ _ _ _ _ M Re Ca T H) as (gs & cgs & R & K & L1 & L2 & F).
  destruct (seeded_rows B C s) as (S1 & S2). rewrite S1 in R.
  exists gs. split; [exact R|]. split; [exact L1|]. rewrite Fi in F. clear -F.
  induction F as [|g cg gs cgs (A & _ & _ & Lk) F IH]; [constructor|]. constructor; [|exact IH].
  assert (E : map r_count g = map snd cg) by (clear -A; induction A as [|r c g cg (_ & X & _) A IH]; cbn; congruence).
  rewrite E. eapply nondecreasing_tail. apply linked_nondecreasing. exact Lk.
Qed.

Theorem evaluate_exact : forall fuel (B : bench) C s s', 0 <= c_time C -> c_file C = true -> (1 <= c_batch C)%nat ->
  metrics_keep B -> reset_empties B -> calls_satisfy B (c_time C) delivers ->
  evaluate_method fuel B C s = Done s' ->
  exists gs, bs_rows s' = bs_rows s ++ concat gs /\ length gs = c_reps C /\
    Forall (fun g => map r_count g = map (fun i => S i * c_batch C)%nat (seq 0 (length g)) /\
                     (c_max C <= length g * c_batch C < c_max C + c_batch C)%nat) gs.
Proof.
  intros fuel B C s s' T Fi Hb M Re Ca H. rewrite evaluate_seeded in H.
  assert (Mx : c_reps C <> 0%nat -> (1 <= c_max C)%nat).
  { intros N. destruct (c_reps C) as [|k]; [contradiction|]. cbn [bench_reps] in H.
    destruct (bench_rep fuel B C (seeded B C s)) as [s1|s1|e s1] eqn:E; try discriminate.
    exact (proj1 (rep_done _ _ _ _ _ T E)). }
  destruct (reps_linked _ _ _ _ _ _ _ M Re Ca T H) as (gs & cgs & R & K & L1 & L2 & F).
  destruct (seeded_rows B C s) as (S1 & S2). rewrite S1 in R.
  exists gs. split; [exact R|]. split; [exact L1|]. rewrite Fi in F.
  assert (Mx' : gs <> [] -> (1 <= c_max C)%nat).
  { intros N. apply Mx. rewrite <- L1. destruct gs; [contradiction|discriminate]. }
  clear -F Mx' Hb.
  induction F as [|g cg gs cgs (A & Rq & St & Lk) F IH]; [constructor|].
  specialize (Mx' ltac:(discriminate)).
  constructor; [|apply IH; intros _; exact Mx'].
  assert (E : map r_count g = map snd cg) by (clear -A; induction A as [|r c g cg (_ & X & _) A IH]; cbn; congruence).
  assert (Ln : length g = length cg) by (clear -A; induction A; cbn; congruence).
  pose proof (exact_counts _ _ _ 0%nat _ Hb Rq eq_refl Lk) as X. cbn [Nat.add] in X.
  rewrite E, Ln. split; [exact X|].
  destruct (stops_length (c_max C) (c_batch C) (map snd cg) 0 (length cg) Hb ltac:(lia) X St) as (Y1 & Y2 & _). lia.
Qed.

Theorem evaluate_ends : forall fuel (B : bench) C s, metrics_keep B -> reset_empties B -> never_hangs B (c_time C) ->
  calls_satisfy B (c_time C) gains -> (1 <= c_batch C)%nat -> (c_max C <= fuel)%nat ->
  (forall s', evaluate_method fuel B C s <> Running s') /\
  (length (ghost_calls (out_state (evaluate_method fuel B C s))) <= length (ghost_calls s) + c_reps C * c_max C)%nat.
Proof.
  intros fuel B C s M Re N Ga Hb F. rewrite evaluate_seeded. destruct (seeded_rows B C s) as (_ & S2). rewrite <- S2.
  now apply reps_end.
Qed.

Theorem evaluate_zero : forall fuel (B : bench) C s, c_max C = 0%nat -> (1 <= c_reps C)%nat ->
  exists s', evaluate_method fuel B C s = Failed ZeroDivisionError s' /\ bs_rows s' = bs_rows s /\ ghost_calls s' = ghost_calls s.
Proof.
  intros fuel B C s Z R. rewrite evaluate_seeded. destruct (c_reps C) as [|k]; [lia|]. cbn [bench_reps].
  unfold bench_rep. cbv zeta. rewrite Z.
  assert (E : forall n x, bench_loop fuel B C n x = Done x).
  { intros n x. destruct fuel; cbn [bench_loop]; rewrite Z; reflexivity. }
  rewrite E. cbn. eexists. split; [reflexivity|]. exact (seeded_rows B C s).
Qed.

(** The rows of a whole run: one group per target/method pair and repetition. *)
Theorem run_rows : forall fuel ms time reps seed (js : list (job W)) s s', 0 <= time ->
  run_jobs fuel ms time reps seed js s = Done s' ->
  exists ggs, bs_rows s' = bs_rows s ++ concat (map (@concat row) ggs) /\
    Forall2 (fun j gs => length gs = reps /\
       Forall (fun g => stops_at (j_max j) (map r_count g) /\
                        Forall (fun r => r_dims r = b_dims (j_bench j) /\ r_method r = b_method (j_bench j) /\
                                         r_target r = b_target (j_bench j)) g) gs) js ggs.
Proof.
  intros fuel ms time reps seed. induction js as [|j js IH]; intros s s' T H; cbn [run_jobs] in H.
  - injection H as <-. exists []. cbn. rewrite app_nil_r. split; [reflexivity|constructor].
  - cbv zeta in H. set (s0 := mkB _ _ (bs_rows s) (ghost_calls s)) in H.
    destruct (evaluate_method fuel (j_bench j) (job_config ms time reps seed j) s0) as [s1|s1|e s1] eqn:E; try discriminate.
    destruct (evaluate_rows fuel (j_bench j) (job_config ms time reps seed j) s0 s1 T eq_refl E) as (gs & cgs & R & _ & L & _ & F).
    destruct (IH s1 s' T H) as (ggs & R2 & F2).
    exists (gs :: ggs). split.
    + cbn [map concat]. rewrite R2, R. cbn [bs_rows s0]. rewrite <- app_assoc. reflexivity.
    + constructor; [|exact F2]. split; [exact L|]. clear -F. cbn in F.
      induction F as [|g cg gs cgs (A & _ & St) F IH]; [constructor|]. constructor; [|exact IH]. split; [exact St|].
      clear -A. induction A as [|r c g cg (X1 & _ & X3 & X4) A IH]; constructor; [now repeat split | exact IH].
Qed.

End World.

(** With a reset that forgets the object's state, an evaluation with a seed forgets the history. *)
Theorem evaluate_forgets : forall (G S : Type) gen reset call len stats compute mname tname dims,
  (forall (g : G) (s s' : S), reset g s = reset g s') ->
  let B := object_bench gen reset call len stats compute mname tname dims in
  forall fuel C g s l g' s' l' rows calls, (0 <= c_seedv C)%Z -> (1 <= c_reps C)%nat ->
  evaluate_method fuel B C (mkB (g, s) l rows calls) = evaluate_method fuel B C (mkB (g', s') l' rows calls).
Proof.
  intros G S gen reset call len stats compute mname tname dims H B fuel C g s l g' s' l' rows calls Z R.
  rewrite !evaluate_seeded. unfold seeded. rewrite (proj2 (Z.leb_le _ _) Z).
  destruct (c_reps C) as [|k]; [lia|]. cbn [bench_reps].
  assert (E : bench_rep fuel B C (mkB (b_seed B (c_seedv C) (g, s)) l rows calls) =
              bench_rep fuel B C (mkB (b_seed B (c_seedv C) (g', s')) l' rows calls)).
  { unfold bench_rep. cbv zeta. cbn [bs_w bs_rows ghost_calls]. cbn [b_seed b_reset B object_bench fst snd].
    rewrite (H _ s s'). reflexivity. }
  cbn [bs_w bs_len bs_rows ghost_calls]. rewrite E. reflexivity.
Qed.
