(** Model of the loading part of ais_benchmarks/benchmark/CBenchmark.py: load_benchmark, load_methods and the order
    of the evaluations of run. *)
From Coq Require Import String.
From Coq Require Import List Bool Arith QArith Qabs.
Import ListNotations.
From Verif Require Import Prelude.Py Prelude.QBase.
Open Scope Q_scope.

(** A target distribution, as far as run looks at it. *)
Record tdist : Type := mkTdist { td_id : nat; td_dims : nat; td_lo : vec; td_hi : vec }.

(** One entry of the targets list of a benchmark file (CBenchmark.py:122-137). A missing key is None. [te_dist] is None
    when "type" or "params" is missing, else what evaluating the constructor call gives. *)
Record tentry : Type := mkTentry {
  te_nsamples : option nat; te_eval : option nat; te_batch : option nat;
  te_dist : option (res tdist); te_name : option string }.

(** A sampling method object: its entry's constructor applied to the box and the number of dimensions it was given. *)
Record meth : Type := mkMeth { me_id : nat; me_lo : vec; me_hi : vec; me_dims : nat; me_name : string; me_debug : bool }.

(** One entry of the methods list of a methods file (CBenchmark.py:62-80). [mn_build] is None when "params" or "type" is
    missing, else whether the constructor call with this box and dimension returns an object. *)
Record mentry : Type := mkMentry {
  mn_id : nat; mn_build : option (vec -> vec -> nat -> option exn); mn_name : option string; mn_debug : option bool }.

(** A file: its entries, or the exception of opening and parsing it. *)
Definition tfile : Type := res (list tentry).
Definition mfile : Type := res (list mentry).

(** CBenchmark.py:31-44: the lists of the benchmark object. *)
Record bench : Type := mkBench {
  b_targets : list (tdist * string); b_ndims : list nat; b_nsamples : list nat; b_eval : list nat; b_batch : list nat;
  b_methods : list meth }.
Definition bench_new : bench := mkBench [] [] [] [] [] [].

(** CBenchmark.py:123-137: one turn of the loop. *)
Definition add_target (e : tentry) (b : bench) : outcome bench :=
  match te_nsamples e with
  | None => Failed KeyError b
  | Some n =>
    let b1 := mkBench (b_targets b) (b_ndims b) (b_nsamples b ++ [n]) (b_eval b) (b_batch b) (b_methods b) in
    match te_eval e with
    | None => Failed KeyError b1
    | Some v =>
      let b2 := mkBench (b_targets b1) (b_ndims b1) (b_nsamples b1) (b_eval b1 ++ [v]) (b_batch b1) (b_methods b1) in
      match te_batch e with
      | None => Failed KeyError b2
      | Some s =>
        let b3 := mkBench (b_targets b2) (b_ndims b2) (b_nsamples b2) (b_eval b2) (b_batch b2 ++ [s]) (b_methods b2) in
        match te_dist e with
        | None => Failed KeyError b3
        | Some (Raise _) => Failed ValueError b3
        | Some (Ok t) =>
          match te_name e with
          | None => Failed KeyError b3
          | Some nm => Done (mkBench (b_targets b3 ++ [(t, nm)]) (b_ndims b3 ++ [td_dims t]) (b_nsamples b3) (b_eval b3)
                               (b_batch b3) (b_methods b3))
          end
        end
      end
    end
  end.
Fixpoint add_targets (es : list tentry) (b : bench) : outcome bench :=
  match es with
  | [] => Done b
  | e :: es' => match add_target e b with Done b' => add_targets es' b' | o => o end
  end.

(** CBenchmark.py:111-137 load_benchmark: the lists are emptied first, also when the file then cannot be read. *)
Definition load_benchmark (f : tfile) (b : bench) : outcome bench :=
  let b0 := mkBench [] [] [] [] [] (b_methods b) in
  match f with Raise e => Failed e b0 | Ok es => add_targets es b0 end.

(** CBenchmark.py:62-80: one turn of the loop; [text] is printing an array with array2string and evaluating the text. *)
Definition add_method (text : vec -> vec) (lo hi : vec) (d : nat) (m : mentry) (b : bench) : outcome bench :=
  match mn_build m with
  | None => Failed KeyError b
  | Some build =>
    match build (text lo) (text hi) d with
    | Some e => Failed e b
    | None =>
      match mn_name m, mn_debug m with
      | Some nm, Some dbg => Done (mkBench (b_targets b) (b_ndims b) (b_nsamples b) (b_eval b) (b_batch b)
                                     (b_methods b ++ [mkMeth (mn_id m) (text lo) (text hi) d nm dbg]))
      | _, _ => Failed KeyError b
      end
    end
  end.
Fixpoint add_methods (text : vec -> vec) (lo hi : vec) (d : nat) (ms : list mentry) (b : bench) : outcome bench :=
  match ms with
  | [] => Done b
  | m :: ms' => match add_method text lo hi d m b with Done b' => add_methods text lo hi d ms' b' | o => o end
  end.

(** CBenchmark.py:58-80 load_methods. *)
Definition load_methods (text : vec -> vec) (f : mfile) (lo hi : vec) (d : nat) (b : bench) : outcome bench :=
  let b0 := mkBench (b_targets b) (b_ndims b) (b_nsamples b) (b_eval b) (b_batch b) [] in
  match f with Raise e => Failed e b0 | Ok ms => add_methods text lo hi d ms b0 end.

(** The arguments of one call of evaluate_method (CBenchmark.py:184-196) that come from the files. *)
Record job : Type := mkJob { j_method : meth; j_target : tdist; j_tname : string; j_dims : nat; j_max : nat; j_eval : nat; j_batch : nat }.

Fixpoint zip5 (a : list (tdist * string)) (b c d e : list nat) : list (tdist * string * nat * nat * nat * nat) :=
  match a, b, c, d, e with
  | x :: a', y :: b', z :: c', u :: d', v :: e' => (x, y, z, u, v) :: zip5 a' b' c' d' e'
  | _, _, _, _, _ => []
  end.

(** CBenchmark.py:173-196: the double loop of run; the evaluations started, in order, and how it ended. Simplified: every
    evaluation returns (see C56-C58 for the evaluation itself). *)
Fixpoint run_targets (text : vec -> vec) (mf : mfile) (ts : list (tdist * string * nat * nat * nat * nat)) (b : bench) : list job * outcome bench :=
  match ts with
  | [] => ([], Done b)
  | (t, nm, nd, mx, ev, bs) :: ts' =>
      match load_methods text mf (td_lo t) (td_hi t) nd b with
      | Done b' =>
          let '(js, o) := run_targets text mf ts' b' in
          (map (fun m => mkJob m t nm nd mx ev bs) (b_methods b') ++ js, o)
      | o => ([], o)
      end
  end.

(** CBenchmark.py:150-217 run, without configuration, output and plots. *)
Definition run (text : vec -> vec) (bf : tfile) (mf : mfile) (b : bench) : list job * outcome bench :=
  match load_benchmark bf b with
  | Done b1 =>
      if (0 <? length (b_targets b1))%nat && (length (b_targets b1) =? length (b_ndims b1))%nat &&
         (length (b_ndims b1) =? length (b_nsamples b1))%nat
      then run_targets text mf (zip5 (b_targets b1) (b_ndims b1) (b_nsamples b1) (b_eval b1) (b_batch b1)) b1
      else ([], Failed AssertionError b1)
  | o => ([], o)
  end.

(** What a user can do with the object. *)
Inductive bop : Type := OpBenchmark (f : tfile) | OpMethods (f : mfile) (lo hi : vec) (d : nat) | OpRun (bf : tfile) (mf : mfile).
Definition bdo (text : vec -> vec) (b : bench) (o : bop) : bench :=
  match o with
  | OpBenchmark f => out_state (load_benchmark f b)
  | OpMethods f lo hi d => out_state (load_methods text f lo hi d b)
  | OpRun bf mf => out_state (snd (run text bf mf b))
  end.

(** numpy array2string with the default options (precision 8, maxprec, at most 1000 elements), used at CBenchmark.py:64-65,
    followed by reading the text back: the whole array is printed with 8 digits after the point, in scientific
    notation if an entry is >= 1e8, or a non-zero one is < 1e-4, or the quotient of two non-zero ones is > 1000. How exact
    ties are broken is left open. Binary rounding of the decimal text is not modelled. *)
Definition sci_needed (v : vec) : Prop :=
  (exists x, In x v /\ 100000000 <= Qabs x) \/
  (exists x, In x v /\ ~ x == 0 /\ Qabs x < 1 # 10000) \/
  (exists x y, In x v /\ In y v /\ ~ y == 0 /\ 1000 * Qabs y < Qabs x).
Definition printed_fixed (x w : Q) : Prop :=
  Qabs (x - w) <= 1 # 200000000 /\ exists z : Z, w == (z # 100000000).
Definition printed_sci (x w : Q) : Prop :=
  (x == 0 /\ w == 0) \/
  exists (p : Q) (z : Z), (exists k : Z, p == Qpower 10 k) /\ p <= Qabs x /\ Qabs x < 10 * p /\
    Qabs (x - w) <= p * (1 # 200000000) /\ w == p * (z # 100000000).
Definition printed (v w : vec) : Prop :=
  (sci_needed v /\ Forall2 printed_sci v w) \/ (~ sci_needed v /\ Forall2 printed_fixed v w).
