(** Model of ais_benchmarks/benchmark/CBenchmark.py: evaluate_method (328-569) and the evaluation loop
    of run (151-233). The sampling method, the target, the metrics, the random generator and the
    clock are an arbitrary world [W] acted upon by the operations the runner calls.
    Left out: console output, plots and profiling (debug = False, profile = False), YAML loading. *)
From Coq Require Import List Bool Arith ZArith QArith String.
Import ListNotations.
From Verif Require Import Prelude.Py Prelude.QBase Model.TableFormat.

(** CBenchmark.py:403-415: the metric classes the runner knows. *)
Inductive kind := KLD | JSD | EVMSE | ELAPSED | MEMORY.

(** CBenchmark.py:403-415: the object built for a configured metric name; "NESS" and unknown names
    build nothing. *)
Definition kind_of (s : string) : option kind :=
  if String.eqb s "KLD" then Some KLD
  else if String.eqb s "JSD" then Some JSD
  else if String.eqb s "NESS" then None
  else if String.eqb s "EVMSE" then Some EVMSE
  else if String.eqb s "T" then Some ELAPSED
  else if String.eqb s "MEM" then Some MEMORY
  else None.

(** metrics/divergences.py:96, 159, metrics/statistics.py:13, metrics/performance.py:19, 58: the [name]
    attribute of each metric object. *)
Definition kind_name (k : kind) : string :=
  match k with
  | KLD => "KL" | JSD => "JSD" | EVMSE => "EVMSE" | ELAPSED => "time" | MEMORY => "memory"
  end.

(** CBenchmark.py:402-415: metrics_eval. *)
Fixpoint instances (ms : list string) : list kind :=
  match ms with
  | [] => []
  | m :: r => match kind_of m with Some k => k :: instances r | None => instances r end
  end.

(** CBenchmark.py:531-534: results[m.name] = val on an insertion ordered dictionary. *)
Fixpoint dict_put (k : string) (v : fl Q) (d : list (string * fl Q)) : list (string * fl Q) :=
  match d with
  | [] => [(k, v)]
  | (k', v') :: r => if String.eqb k k' then (k', v) :: r else (k', v') :: dict_put k v r
  end.

Section World.
Variable W : Type.

(** What evaluate_method calls. [b_call n t] is importance_sample(target, n, timeout = t); [b_len] is
    the length of the array it returns (every sampler returns its own array of samples, so this is a
    function of the state after the call). [b_stats] gives NESS, acceptance rate and the three
    counters read by write_results (324-325), which may raise. Metric operations get the position of
    the object in metrics_eval. *)
Record bench := mkBench {
  b_seed : Z -> W -> W;
  b_reset : W -> W;
  b_call : nat -> Q -> W -> outcome W;
  b_len : W -> nat;
  b_stats : W -> res (fl Q * fl Q * nat * nat * nat);
  b_mreset : nat -> kind -> W -> W;
  b_pre : nat -> kind -> W -> W;
  b_post : nat -> kind -> W -> W;
  b_compute : nat -> kind -> W -> res (W * fl Q);
  b_method : string;
  b_target : string;
  b_dims : nat }.

(** Arguments of evaluate_method (329-331). max_samples and batch_size are natural numbers;
    [c_file] tells whether a filename is given. *)
Record config := mkConfig {
  c_max : nat; c_batch : nat; c_time : Q; c_reps : nat; c_seedv : Z;
  c_metrics : list string; c_file : bool }.

(** The state: the world, len(samples_acc), the rows written so far, and, for specification purposes only, the calls of
    importance_sample made so far: (samples requested, timeout argument, length returned). *)
Record bstate := mkB { bs_w : W; bs_len : nat; bs_rows : list row; ghost_calls : list (nat * Q * nat) }.

(** [m.op() for m in metrics_eval] (CBenchmark.py:458, 480, 487). *)
Fixpoint each (op : nat -> kind -> W -> W) (i : nat) (ks : list kind) (w : W) : W :=
  match ks with
  | [] => w
  | k :: r => each op (S i) r (op i k w)
  end.

(** CBenchmark.py:530-534: the dictionary of results. *)
Fixpoint compute_all (B : bench) (i : nat) (ks : list kind) (w : W) (d : list (string * fl Q))
  : res (W * list (string * fl Q)) :=
  match ks with
  | [] => Ok (w, d)
  | k :: r =>
      match b_compute B i k w with
      | Raise e => Raise e
      | Ok (w', v) => compute_all B (S i) r w' (dict_put (kind_name k) v d)
      end
  end.

(** CBenchmark.py:319-326 write_results: the row, or the exception of get_NESS / get_acceptance_rate. *)
Definition make_row (B : bench) (d : list (string * fl Q)) (len : nat) (w : W) : res row :=
  match b_stats B w with
  | Raise e => Raise e
  | Ok (ness, acc, qs, qe, pi) => Ok (mkRow (b_dims B) len d ness (b_method B) (b_target B) acc qs qe pi)
  end.

(** CBenchmark.py:480-538: one turn of the loop with the request [n]; samples_acc is replaced at 483. An
    exception inside a metric or write_results leaves the world as it was before that statement. *)
Definition bench_turn (B : bench) (C : config) (n : nat) (s : bstate) : outcome bstate :=
  let ks := instances (c_metrics C) in
  let w1 := each (b_pre B) 0 ks (bs_w s) in
  match b_call B n (c_time C) w1 with
  | Running w2 => Running (mkB w2 (bs_len s) (bs_rows s) (ghost_calls s))
  | Failed e w2 => Failed e (mkB w2 (bs_len s) (bs_rows s) (ghost_calls s))
  | Done w2 =>
      let calls := (ghost_calls s ++ [(n, c_time C, b_len B w2)])%list in
      let w3 := each (b_post B) 0 ks w2 in
      match compute_all B 0 ks w3 [] with
      | Raise e => Failed e (mkB w3 (b_len B w2) (bs_rows s) calls)
      | Ok (w4, d) =>
          if c_file C then
            match make_row B d (b_len B w2) w4 with
            | Raise e => Failed e (mkB w4 (b_len B w2) (bs_rows s) calls)
            | Ok r => Done (mkB w4 (b_len B w2) (bs_rows s ++ [r])%list calls)
            end
          else Done (mkB w4 (b_len B w2) (bs_rows s) calls)
      end
  end.

(** CBenchmark.py:462-543: the while loop; [n] = n_samples. sampling_time is
    0 throughout (453; no statement changes it), so the timeout argument is max_sampling_time and the
    test at 541 is 0 > max_sampling_time. At most [fuel] turns are executed. *)
Fixpoint bench_loop (fuel : nat) (B : bench) (C : config) (n : nat) (s : bstate) : outcome bstate :=
  if (bs_len s <? c_max C)%nat then
    match fuel with
    | O => Running s
    | S f =>
        match bench_turn B C n s with
        | Done s' =>
            if Qltb (c_time C) 0 then Done s'
            else bench_loop f B C (bs_len s' + c_batch C) s'
        | o => o
        end
    end
  else Done s.

(** CBenchmark.py:450-556: one repetition. After the loop the statistics line divides by max_samples
    (554): ZeroDivisionError for max_samples = 0. *)
Definition bench_rep (fuel : nat) (B : bench) (C : config) (s : bstate) : outcome bstate :=
  let w1 := b_reset B (bs_w s) in
  let w2 := each (b_mreset B) 0 (instances (c_metrics C)) w1 in
  match bench_loop fuel B C (c_batch C) (mkB w2 0 (bs_rows s) (ghost_calls s)) with
  | Done s' => if (c_max C =? 0)%nat then Failed ZeroDivisionError s' else Done s'
  | o => o
  end.

(** CBenchmark.py:450: n_reps repetitions. *)
Fixpoint bench_reps (k fuel : nat) (B : bench) (C : config) (s : bstate) : outcome bstate :=
  match k with
  | O => Done s
  | S j =>
      match bench_rep fuel B C s with
      | Done s' => bench_reps j fuel B C s'
      | o => o
      end
  end.

(** CBenchmark.py:390-569 evaluate_method. The seed is set once, before the repetitions (391-392). *)
Definition evaluate_method (fuel : nat) (B : bench) (C : config) (s : bstate) : outcome bstate :=
  let s0 := if (0 <=? c_seedv C)%Z then mkB (b_seed B (c_seedv C) (bs_w s)) (bs_len s) (bs_rows s) (ghost_calls s)
            else s in
  bench_reps (c_reps C) fuel B C s0.

(** One pair of the double loop of run (CBenchmark.py:173-195): what happens to the world before the
    evaluation (load_methods for the first method of a target, sampling_method.reset()), then
    evaluate_method with the target's max_samples and batch_size. *)
Record job := mkJob { j_setup : W -> W; j_bench : bench; j_max : nat; j_batch : nat }.

(** CBenchmark.py:184-196: the arguments run passes: the filename is always given. *)
Definition job_config (ms : list string) (time : Q) (reps : nat) (seed : Z) (j : job) : config :=
  mkConfig (j_max j) (j_batch j) time reps seed ms true.

(** CBenchmark.py:173-217: the jobs in order. *)
Fixpoint run_jobs (fuel : nat) (ms : list string) (time : Q) (reps : nat) (seed : Z) (js : list job)
         (s : bstate) : outcome bstate :=
  match js with
  | [] => Done s
  | j :: r =>
      let s0 := mkB (j_setup j (bs_w s)) (bs_len s) (bs_rows s) (ghost_calls s) in
      match evaluate_method fuel (j_bench j) (job_config ms time reps seed j) s0 with
      | Done s' => run_jobs fuel ms time reps seed r s'
      | o => o
      end
  end.

(** CBenchmark.py:167-217: the file is truncated and gets the header, then the rows of the jobs; the
    result is the state and the text of the file. *)
Definition run (fuel : nat) (ms : list string) (time : Q) (reps : nat) (seed : Z) (js : list job) (w : W)
  : outcome bstate * string :=
  let o := run_jobs fuel ms time reps seed js (mkB w 0 [] []) in
  (o, file_text ms (bs_rows (out_state o))).

End World.

(** A benchmark over one sampler object: [G] is the state of numpy's global random generator (and
    whatever else the events of a call are a function of), [S] the sampler object. Metrics may use the
    generator and read the object. Seeding (CBenchmark.py:392) sets the generator only. Simplified: the
    clock readings are a function of the generator state too, so that two executions with the same
    seed see the same clock. *)
Definition object_bench {G S : Type} (gen : Z -> G) (reset : G -> S -> G * S)
  (call : nat -> Q -> G -> S -> outcome (G * S)) (len : S -> nat)
  (stats : S -> res (fl Q * fl Q * nat * nat * nat)) (compute : nat -> kind -> G -> S -> res (G * fl Q))
  (mname tname : string) (dims : nat) : bench (G * S) :=
  mkBench (G * S) (fun z w => (gen z, snd w)) (fun w => reset (fst w) (snd w))
    (fun n t w => call n t (fst w) (snd w)) (fun w => len (snd w)) (fun w => stats (snd w))
    (fun _ _ w => w) (fun _ _ w => w) (fun _ _ w => w)
    (fun i k w => match compute i k (fst w) (snd w) with
                  | Raise e => Raise e
                  | Ok (g, v) => Ok ((g, snd w), v)
                  end)
    mname tname dims.

Arguments mkBench {W}. Arguments b_seed {W}. Arguments b_reset {W}. Arguments b_call {W}.
Arguments b_len {W}. Arguments b_stats {W}. Arguments b_mreset {W}. Arguments b_pre {W}.
Arguments b_post {W}. Arguments b_compute {W}. Arguments b_method {W}. Arguments b_target {W}.
Arguments b_dims {W}. Arguments mkB {W}. Arguments bs_w {W}. Arguments bs_rows {W}.
Arguments ghost_calls {W}. Arguments each {W}. Arguments compute_all {W}. Arguments make_row {W}.
Arguments bench_turn {W}. Arguments bs_len {W}. Arguments bench_loop {W}. Arguments bench_rep {W}.
Arguments bench_reps {W}. Arguments evaluate_method {W}. Arguments mkJob {W}. Arguments j_setup {W}.
Arguments j_bench {W}. Arguments j_max {W}. Arguments j_batch {W}. Arguments job_config {W}.
Arguments run_jobs {W}. Arguments run {W}.
