(** Properties C56-C59: the benchmark runner. *)
From Coq Require Import String List Bool Arith NArith ZArith Lia QArith.
Import ListNotations.
From Verif Require Import Prelude.Py Prelude.QBase Model.Base Model.Rejection Model.MetropolisHastings Model.TableFormat
  Model.Benchmark Spec.BenchSpec Spec.BenchMethodSpec Spec.TableSpec Spec.BenchTableSpec
  Proofs.BenchmarkProofs Proofs.BenchmarkTrace Proofs.BenchmarkColumns Proofs.BenchmarkRuns Proofs.BenchmarkWitness.
Open Scope list_scope.

(** C56 (full statement: an evaluation ends at the latest when the sampling time exceeds the configured
    maximum or the configured number of samples is reached). Proved: it ends for every method whose
    calls end and that gains a sample whenever asked for more than it holds, with at most max_samples
    calls per repetition. *)
Theorem C56_evaluation_ends_partial : forall (W : Type) fuel (B : bench W) C s,
  metrics_keep B -> reset_empties B -> never_hangs B (c_time C) -> calls_satisfy B (c_time C) gains ->
  (1 <= c_batch C)%nat -> (c_max C <= fuel)%nat ->
  (forall s', evaluate_method fuel B C s <> Running s') /\
  (length (ghost_calls (out_state (evaluate_method fuel B C s))) <=
   length (ghost_calls s) + c_reps C * c_max C)%nat.
Proof. intros W. exact evaluate_ends. Qed.
Print Assumptions C56_evaluation_ends_partial.

Example C56_evaluation_ends_example :
  metrics_keep yB /\ reset_empties yB /\ never_hangs yB (c_time yC) /\ calls_satisfy yB (c_time yC) gains /\
  (1 <= c_batch yC)%nat.
Proof.
  destruct (rej_bench_ok zP ztarget yev) as (A & B & _); [intros; cbn; discriminate|].
  destruct y_delivers as (_ & G & N). repeat (split; [assumption|]). cbn. lia.
Qed.

(** C56 is false as stated: the time spent is never measured, so a rejection sampler whose calls exceed
    the time limit without accepting a point is called again and again, each time with the whole limit. *)
Theorem C56_time_limit_refuted : exists P target ev C w,
  (1 <= c_batch C)%nat /\ (forall g, Forall (fun r => c_time C < rr_clock r) (ev (S g))) /\
  forall fuel, exists s', evaluate_method fuel (rej_bench P target ev) C (mkB w 0 [] []) = Running s' /\
    length (ghost_calls s') = fuel /\ Forall (fun c => snd (fst c) = c_time C) (ghost_calls s').
Proof.
  exists zP, ztarget, zev, zC, zw. split; [cbn; lia|]. split.
  - intros g. constructor; [reflexivity|constructor].
  - exact z_forever.
Qed.
Print Assumptions C56_time_limit_refuted.

(** C57. Every evaluation that finishes writes, for each repetition, one row per call, with the target's
    dimension, the number of samples that call returned and the names; each request exceeds the previous
    result by batch_size; all counts but the last are below max_samples and the last one reaches it. *)
Theorem C57_rows : forall (W : Type) fuel (B : bench W) C s s',
  0 <= c_time C -> c_file C = true -> evaluate_method fuel B C s = Done s' ->
  exists gs cgs, bs_rows s' = bs_rows s ++ concat gs /\ ghost_calls s' = ghost_calls s ++ concat cgs /\
    length gs = c_reps C /\ length cgs = c_reps C /\
    Forall2 (fun g cg =>
      Forall2 (fun r c => r_dims r = b_dims B /\ r_count r = snd c /\ r_method r = b_method B /\ r_target r = b_target B) g cg /\
      requests (c_batch C) (c_batch C) (c_time C) cg /\ stops_at (c_max C) (map r_count g)) gs cgs.
Proof. intros W. exact evaluate_rows. Qed.
Print Assumptions C57_rows.

Definition ys : bstate (nat * core) := out_state (evaluate_method 2 yB yC (mkB zw 0 [] [])).
Example C57_rows_example : 0 <= c_time yC /\ c_file yC = true /\
  evaluate_method 2 yB yC (mkB zw 0 [] []) = Done ys /\ map r_count (bs_rows ys) = [1; 2; 1; 2]%nat.
Proof.
  split; [discriminate|]. split; [reflexivity|]. split; [vm_compute; reflexivity|]. vm_compute; reflexivity.
Qed.

(** C57. With a method that keeps its samples the counts never decrease within a repetition. *)
Theorem C57_counts_grow : forall (W : Type) fuel (B : bench W) C s s',
  0 <= c_time C -> c_file C = true -> metrics_keep B -> reset_empties B -> calls_satisfy B (c_time C) keeps ->
  evaluate_method fuel B C s = Done s' ->
  exists gs, bs_rows s' = bs_rows s ++ concat gs /\ length gs = c_reps C /\
    Forall (fun g => nondecreasing (map r_count g)) gs.
Proof. intros W. exact evaluate_growth. Qed.
Print Assumptions C57_counts_grow.

(** Instance: the rejection sampler keeps its samples, for all parameters and events. *)
Theorem C57_rejection_keeps : forall P target ev, (forall x, 0 <= rj_q P x * rj_scaling P) ->
  metrics_keep (rej_bench P target ev) /\ reset_empties (rej_bench P target ev) /\
  forall t, calls_satisfy (rej_bench P target ev) t keeps.
Proof. exact rej_bench_ok. Qed.
Print Assumptions C57_rejection_keeps.
Example C57_rejection_keeps_example : forall x, 0 <= rj_q zP x * rj_scaling zP.
Proof. intros. cbn. discriminate. Qed.

(** C57. With a method that delivers exactly what is missing, the counts of each repetition are the
    multiples of batch_size up to the first one that reaches max_samples. *)
Theorem C57_exact_counts : forall (W : Type) fuel (B : bench W) C s s',
  0 <= c_time C -> c_file C = true -> (1 <= c_batch C)%nat ->
  metrics_keep B -> reset_empties B -> calls_satisfy B (c_time C) delivers ->
  evaluate_method fuel B C s = Done s' ->
  exists gs, bs_rows s' = bs_rows s ++ concat gs /\ length gs = c_reps C /\
    Forall (fun g => map r_count g = map (fun i => S i * c_batch C)%nat (seq 0 (length g)) /\
                     (c_max C <= length g * c_batch C < c_max C + c_batch C)%nat) gs.
Proof. intros W. exact evaluate_exact. Qed.
Print Assumptions C57_exact_counts.
Example C57_exact_counts_example : calls_satisfy yB (c_time yC) delivers.
Proof. exact (proj1 y_delivers). Qed.

(** C57. max_samples = 0: nothing is written and the evaluation raises. *)
Theorem C57_zero_samples : forall (W : Type) fuel (B : bench W) C s, c_max C = 0%nat -> (1 <= c_reps C)%nat ->
  exists s', evaluate_method fuel B C s = Failed ZeroDivisionError s' /\
    bs_rows s' = bs_rows s /\ ghost_calls s' = ghost_calls s.
Proof. intros W. exact evaluate_zero. Qed.
Print Assumptions C57_zero_samples.
Example C57_zero_samples_example : exists C, c_max C = 0%nat /\ (1 <= c_reps C)%nat /\ c_file C = true.
Proof. exists (mkConfig 0 4 600 2 0 [] true). cbn. repeat split. lia. Qed.

(** C57 for a whole run: the rows come in one group per target/method pair and repetition, in order. *)
Theorem C57_run_rows : forall (W : Type) fuel ms time reps seed (js : list (job W)) s s', 0 <= time ->
  run_jobs fuel ms time reps seed js s = Done s' ->
  exists ggs, bs_rows s' = bs_rows s ++ concat (map (@concat row) ggs) /\
    Forall2 (fun j gs => length gs = reps /\
       Forall (fun g => stops_at (j_max j) (map r_count g) /\
                        Forall (fun r => r_dims r = b_dims (j_bench j) /\ r_method r = b_method (j_bench j) /\
                                         r_target r = b_target (j_bench j)) g) gs) js ggs.
Proof. intros W. exact run_rows. Qed.
Print Assumptions C57_run_rows.
Example C57_run_rows_example : exists s, run_jobs 1 ["JSD"]%string 600 2 0 [vjob "a" 1; vjob "b" 2]%string (mkB zw 0 [] []) = Done s /\
  map (fun r => (r_method r, r_count r)) (bs_rows s) = [("a", 1); ("a", 1); ("b", 2); ("b", 2)]%string%nat.
Proof. eexists. split; vm_compute; reflexivity. Qed.

(** C58 (full statement: for every metric list, names and values every line has as many fields as the
    header, each metric under its own column). Proved for metric lists without repetition made of the
    five implemented metrics, names that are single words, and NESS values from -999 to 9999 (or not
    finite): the file read as a table has the headings, and line by line shows the rows. *)
Theorem C58_table_partial : forall (W : Type) fuel ms time reps seed (js : list (job W)) w o text,
  run fuel ms time reps seed js w = (o, text) ->
  NoDup ms -> (forall m, In m ms -> In m known) ->
  (forall j, In j js -> word (b_method (j_bench j)) /\ word (b_target (j_bench j))) ->
  (forall r q, In r (bs_rows (out_state o)) -> r_ness r = Fin q -> -999 <= q /\ q <= 9999) ->
  exists lines, table text = headings ms :: lines /\ Forall2 (reads_as ms) (bs_rows (out_state o)) lines.
Proof. intros W. exact run_table. Qed.
Print Assumptions C58_table_partial.

Example C58_table_example : exists s text,
  vrun ["JSD"; "T"]%string "rejection" 1 = (Done s, text) /\
  NoDup ["JSD"; "T"]%string /\ (forall m, In m ["JSD"; "T"]%string -> In m known) /\
  word "rejection" /\ word "gmm" /\
  (forall r q, In r (bs_rows s) -> r_ness r = Fin q -> -999 <= q /\ q <= 9999) /\
  table text = [["dims"; "output_samples"; "JSD"; "T"; "NESS"; "method"; "target_d"; "accept_rate"; "proposal_samples"; "proposal_evals"; "target_evals"];
                ["01"; "0001"; "0.25000"; "0.25000"; "1.000"; "rejection"; "gmm"; "1.000"; "1"; "1"; "1"]]%string.
Proof.
  eexists _, _. split; [vm_compute; reflexivity|].
  split. { constructor; [intros [H|[]]; discriminate|]. constructor; [intros []|constructor]. }
  split. { intros m [<-|[<-|[]]]; cbn; auto. }
  split; [repeat split; discriminate|]. split; [repeat split; discriminate|].
  split. { intros r q [<-|[]] E. cbn in E. injection E as <-. split; discriminate. }
  vm_compute. reflexivity.
Qed.

(** C58 is false as stated. A run whose NESS value is wide: it fuses with the last metric. *)
Theorem C58_wide_ness_refuted : exists s text, vrun ["JSD"; "T"]%string "rejection" 3 = (Done s, text) /\
  map (@length string) (table text) = [11; 10]%nat.
Proof. eexists _, _. split; vm_compute; reflexivity. Qed.
Print Assumptions C58_wide_ness_refuted.

(** A configured metric that is not implemented, or NESS (the default list of evaluate_method has it):
    a heading without values. *)
Theorem C58_ness_metric_refuted : exists s text, vrun ["NESS"; "JSD"; "T"]%string "rejection" 1 = (Done s, text) /\
  map (@length string) (table text) = [12; 11]%nat /\
  exists line, nth_error (table text) 1 = Some line /\ nth_error line 2 = Some "0.25000"%string /\
    nth_error (hd [] (table text)) 2 = Some "NESS"%string.
Proof. eexists _, _. split; [vm_compute; reflexivity|]. split; [vm_compute; reflexivity|]. eexists.
  split; [vm_compute; reflexivity|]. split; vm_compute; reflexivity.
Qed.
Print Assumptions C58_ness_metric_refuted.

(** A repeated metric, or a name with a space. *)
Theorem C58_repeated_metric_refuted : exists s text, vrun ["JSD"; "JSD"]%string "rejection" 1 = (Done s, text) /\
  map (@length string) (table text) = [11; 10]%nat.
Proof. eexists _, _. split; vm_compute; reflexivity. Qed.
Print Assumptions C58_repeated_metric_refuted.
(** The value of a repeated metric is the one computed last: here each computation returns its position in the list plus 1/4. *)
Definition numbered : bench (nat * core) :=
  object_bench (fun _ => 0%nat) (fun g c => (g, core_reset c))
    (fun n t g c => on_object (S g) (rej_importance_sample zP (fun _ => 1) n t 0 [vround] (fun i => i) c))
    (fun c => length (samples c)) core_stats (fun i _ g _ => Ok (g, Fin (Qnat i + (1 # 4)))) "rejection" "gmm" 1.
Theorem C58_repeated_value_refuted : exists s text, run 1 ["JSD"; "JSD"]%string 600 1 0 [mkJob (fun w => w) numbered 1 1] zw = (Done s, text) /\
  map r_results (bs_rows s) = [[("JSD"%string, Fin (5 # 4))]] /\
  exists line, nth_error (table text) 1 = Some line /\ length line = 10%nat /\ nth_error line 2 = Some "1.25000"%string.
Proof.
  eexists _, _. split; [vm_compute; reflexivity|]. split; [vm_compute; reflexivity|]. eexists. split; [vm_compute; reflexivity|].
  split; vm_compute; reflexivity.
Qed.
Print Assumptions C58_repeated_value_refuted.
Theorem C58_spaced_name_refuted : exists s text, vrun ["JSD"; "T"]%string "my method" 1 = (Done s, text) /\
  map (@length string) (table text) = [11; 12]%nat.
Proof. eexists _, _. split; vm_compute; reflexivity. Qed.
Print Assumptions C58_spaced_name_refuted.

(** C59 (full statement: with a fixed seed the rows for a method/target pair do not depend on what was
    evaluated before with the same object). Proved for every sampler whose reset does not depend on the
    object's state, whatever the events of its calls. *)
Theorem C59_history_forgotten_partial : forall (G S : Type) gen reset call len stats compute mname tname dims,
  (forall (g : G) (s s' : S), reset g s = reset g s') ->
  let B := object_bench gen reset call len stats compute mname tname dims in
  forall fuel C g s l g' s' l' rows calls, (0 <= c_seedv C)%Z -> (1 <= c_reps C)%nat ->
  evaluate_method fuel B C (mkB (g, s) l rows calls) = evaluate_method fuel B C (mkB (g', s') l' rows calls).
Proof. exact evaluate_forgets. Qed.
Print Assumptions C59_history_forgotten_partial.

(** Instance: the rejection sampler, after any two histories. *)
Theorem C59_rejection_reproducible : forall P target ev fuel C g c g' c', (0 <= c_seedv C)%Z -> (1 <= c_reps C)%nat ->
  evaluate_method fuel (rej_bench P target ev) C (mkB (g, c) 0 [] []) =
  evaluate_method fuel (rej_bench P target ev) C (mkB (g', c') 0 [] []).
Proof.
  intros P target ev fuel C g c g' c' Z R. unfold rej_bench.
  refine (evaluate_forgets nat core _ (fun g0 c0 => (g0, core_reset c0)) _ _ _ _ _ _ _ _ fuel C g c 0 g' c' 0 [] [] Z R).
  reflexivity.
Qed.
Print Assumptions C59_rejection_reproducible.
Example C59_rejection_reproducible_example : (0 <= c_seedv yC)%Z /\ (1 <= c_reps yC)%nat /\
  bs_w ys <> zw /\ bs_rows (out_state (evaluate_method 2 yB yC (mkB (bs_w ys) 0 [] []))) = bs_rows ys.
Proof.
  split; [cbn; lia|]. split; [cbn; lia|]. split.
  { intros X. apply (f_equal fst) in X. vm_compute in X. discriminate X. }
  vm_compute. reflexivity.
Qed.

(** C59 is false for Metropolis-Hastings: reset keeps the chain position, and evaluating the same object
    a second time with the same seed gives other rows. *)
Theorem C59_mh_refuted : exists P lp ev C w s1 s2, (0 <= c_seedv C)%Z /\
  evaluate_method 1 (mh_bench P lp ev) C (mkB w 0 [] []) = Done s1 /\
  evaluate_method 1 (mh_bench P lp ev) C (mkB (bs_w s1) 0 [] []) = Done s2 /\
  bs_rows s1 <> bs_rows s2.
Proof.
  destruct x_differs as (s1 & s2 & A & B & D & E). exists xP, xlp, xev, xC, xw, s1, s2.
  split; [discriminate|]. split; [exact A|]. split; [exact B|].
  intros X. apply (f_equal (map r_pi)) in X. rewrite D, E in X. discriminate X.
Qed.
Print Assumptions C59_mh_refuted.
