(** Model of the programs ais_benchmarks/benchmark/run_benchmark.py and run_plots.py, with the use of the file system by CBenchmark.run
    (CBenchmark.py:140-233) and CBenchmark.make_plots (235-272). *)
From Coq Require Import String.
From Coq Require Import List Bool Arith.
Import ListNotations.
From Verif Require Import Prelude.Py.
Open Scope string_scope.

(** An absolute path: the names from the root. *)
Definition path : Type := list string.
Definition path_eqb (p q : path) : bool := if list_eq_dec string_dec p q then true else false.
(** A path as written by a user or in a file, and its meaning in the working directory [cwd]. *)
Inductive ref := Abs (p : path) | Rel (p : path).
Definition resolve (cwd : path) (r : ref) : path := match r with Abs p => p | Rel p => (cwd ++ p)%list end.

(** A configuration file (CBenchmark.py:82-109), as far as paths and the header need it. *)
Record config := mkConfig { cf_metrics : list string; cf_debug_dir : ref; cf_plots_dir : ref }.
(** Contents of a file. A benchmark file is a list of targets (numbers; the construction of the targets: see Model/Loader.v); a methods
    file tells, for a target, the rows that the evaluation of all its methods appends to the results, and the exception that ends loading
    or evaluation, if any. Text is a list of lines. Anything else does not parse. *)
Inductive content :=
| CConfig (c : config)
| CTargets (l : list nat)
| CMethods (run : nat -> list string * option exn)
| CText (lines : list string)
| CJunk.

(** The file system. [fs_may] tells where the user may create directories. *)
Record fs := mkFs { fs_dir : path -> bool; fs_file : path -> option content; fs_may : path -> bool }.

(** CBenchmark.py:60, 83, 119, 252: opening a file for reading. FileNotFoundError (an OSError) is represented by PlainException. *)
Definition read (F : fs) (p : path) : res content := match fs_file F p with Some c => Ok c | None => Raise PlainException end.
Definition set_file (F : fs) (p : path) (c : content) : fs :=
  mkFs (fs_dir F) (fun q => if path_eqb q p then Some c else fs_file F q) (fs_may F).

(** All prefixes of a path, itself included. *)
Fixpoint prefixes (p : path) : list path := match p with [] => [[]] | a :: r => [] :: map (cons a) (prefixes r) end.
(** CBenchmark.py:139-149 _check_make_paths: os.makedirs creates the missing prefixes. It fails when one of them is a file or may not be
    created; the error is printed only. *)
Definition check_make_paths (p : path) (F : fs) : fs :=
  match fs_dir F p, fs_file F p with
  | true, _ | _, Some _ => F
  | false, None =>
      let missing := filter (fun q => negb (fs_dir F q)) (prefixes p) in
      if forallb (fun q => fs_may F q && match fs_file F q with None => true | Some _ => false end) missing
      then mkFs (fun q => fs_dir F q || existsb (path_eqb q) missing) (fs_file F) (fs_may F)
      else F
  end.

(** CBenchmark.py:169-170 open(..., 'w'): the directory must exist and the path not be one; the former contents are lost. *)
Definition parent (p : path) : path := removelast p.
Definition create (p : path) (lines : list string) (F : fs) : res fs :=
  if fs_dir F (parent p) && negb (fs_dir F p) then Ok (set_file F p (CText lines)) else Raise PlainException.
(** CBenchmark.py:319-326 write_results: rows are appended. *)
Definition append (p : path) (rows : list string) (F : fs) : fs :=
  set_file F p (CText (match fs_file F p with Some (CText l) => l | _ => [] end ++ rows)).

(** CBenchmark.py:167-168: the header line. *)
Definition header (c : config) : string :=
  "dims output_samples " ++ String.concat " " (cf_metrics c) ++ " NESS method target_d accept_rate proposal_samples proposal_evals target_evals".

(** CBenchmark.py:83-109, 111-137: loading; a file that does not parse, or lacks a key, raises (represented by KeyError). *)
Definition load_config (F : fs) (p : path) : res config :=
  match read F p with Ok (CConfig c) => Ok c | Ok _ => Raise KeyError | Raise e => Raise e end.
Definition load_targets (F : fs) (p : path) : res (list nat) :=
  match read F p with Ok (CTargets l) => Ok l | Ok _ => Raise KeyError | Raise e => Raise e end.

(** CBenchmark.py:173-225: the loop over the targets. The methods file is opened anew for each of them. *)
Fixpoint run_targets (m out : path) (ts : list nat) (F : fs) : outcome fs :=
  match ts with
  | [] => Done F
  | t :: r =>
      match read F m with
      | Raise e => Failed e F
      | Ok (CMethods f) =>
          let '(rows, err) := f t in
          match err with
          | Some e => Failed e (append out rows F)
          | None => run_targets m out r (append out rows F)
          end
      | Ok _ => Failed KeyError F
      end
  end.

(** CBenchmark.py:151-230 run. Simplified: the plots at the end and the debug pictures are left out, so the
    file system is the one without pictures. *)
Definition bench_run (cwd : path) (b m c out : ref) (F : fs) : outcome fs :=
  let o := resolve cwd out in
  match load_config F (resolve cwd c) with
  | Raise e => Failed e F
  | Ok cfg =>
      match load_targets F (resolve cwd b) with
      | Raise e => Failed e F
      | Ok [] => Failed AssertionError F
      | Ok ts =>
          let F1 := check_make_paths (resolve cwd (cf_debug_dir cfg)) F in
          let F2 := check_make_paths (resolve cwd (cf_plots_dir cfg)) F1 in
          let F3 := check_make_paths (parent o) F2 in
          match create o [header cfg] F3 with
          | Raise e => Failed e F3
          | Ok F4 => run_targets (resolve cwd m) o ts F4
          end
      end
  end.

(** run_benchmark.py:12-29. [home] is the directory of the program; [args] are the arguments after the program's name. *)
Definition run_benchmark (home cwd : path) (args : list ref) (F : fs) : outcome fs :=
  let def n := Abs (home ++ n)%list in
  match args with
  | [b; m; c; o] => bench_run cwd b m c o F
  | _ => bench_run cwd (def ["def_benchmark.yaml"]) (def ["def_methods.yaml"]) (def ["def_config.yaml"]) (def ["results"; "results.txt"]) F
  end.

(** CBenchmark.py:235-272 make_plots with the name of the results file; gives the tables plotted, one per target and metric. Saving the
    plots is left out. *)
Fixpoint load_all_methods (F : fs) (m : path) (ts : list nat) : res unit :=
  match ts with
  | [] => Ok tt
  | t :: r => match read F m with Ok (CMethods f) => load_all_methods F m r | Ok _ => Raise KeyError | Raise e => Raise e end
  end.
Definition make_plots (cwd : path) (b m c results : ref) (F : fs) : res (list content) :=
  match load_targets F (resolve cwd b) with
  | Raise e => Raise e
  | Ok ts =>
      match load_config F (resolve cwd c) with
      | Raise e => Raise e
      | Ok cfg =>
          match load_all_methods F (resolve cwd m) ts with
          | Raise e => Raise e
          | Ok _ =>
              match ts with
              | [] => Ok []
              | _ => match read F (resolve cwd results) with
                     | Raise e => Raise e
                     | Ok d => Ok (flat_map (fun _ => map (fun _ => d) (cf_metrics cfg)) ts)
                     end
              end
          end
      end
  end.

(** run_plots.py:8-24; CBenchmark.py:49: the results file of a new CBenchmark object is results.txt, and the program does not set another. *)
Definition run_plots (home cwd : path) (args : list ref) (F : fs) : res (list content) :=
  let def n := Abs (home ++ n)%list in
  match args with
  | [b; m; c] => make_plots cwd b m c (Rel ["results.txt"]) F
  | _ => make_plots cwd (def ["def_benchmark.yaml"]) (def ["def_methods.yaml"]) (def ["def_config.yaml"]) (Rel ["results.txt"]) F
  end.
