(** C120: the command line programs. *)
From Coq Require Import String.
From Coq Require Import List Bool Arith Lia.
Import ListNotations.
From Verif Require Import Prelude.Py Model.Programs Spec.ProgramSpec.
Open Scope string_scope.

Lemma path_eqb_true p q : path_eqb p q = true <-> p = q.
Proof. unfold path_eqb. destruct (list_eq_dec string_dec p q); split; auto; discriminate. Qed.
Lemma path_eqb_refl p : path_eqb p p = true.
Proof. now apply path_eqb_true. Qed.
Lemma path_eqb_neq p q : p <> q -> path_eqb p q = false.
Proof. intros H. destruct (path_eqb p q) eqn:E; auto. apply path_eqb_true in E. congruence. Qed.

Lemma make_files p F : fs_file (check_make_paths p F) = fs_file F.
Proof. unfold check_make_paths. destruct (fs_dir F p); auto. destruct (fs_file F p) eqn:E; auto. destruct (forallb _ _); reflexivity. Qed.

Lemma append_out p rows lines F : fs_file F p = Some (CText lines) -> fs_file (append p rows F) p = Some (CText (lines ++ rows)%list).
Proof. intros H. unfold append, set_file. simpl. now rewrite path_eqb_refl, H. Qed.
Lemma append_other p rows F q : q <> p -> fs_file (append p rows F) q = fs_file F q.
Proof. intros H. unfold append, set_file. simpl. now rewrite path_eqb_neq. Qed.

(** The loop over the targets: rows are only added, in the order of the targets; other files stay. *)
Lemma targets_run m out : m <> out -> forall ts F lines f, fs_file F out = Some (CText lines) -> fs_file F m = Some (CMethods f) ->
  let o := run_targets m out ts F in
  (forall q, q <> out -> fs_file (out_state o) q = fs_file F q) /\
  (exists rows, fs_file (out_state o) out = Some (CText (lines ++ rows)%list) /\ evaluated f ts rows (match o with Failed e _ => Some e | _ => None end)) /\
  (forall s, o <> Running s).
Proof.
  intros N. induction ts as [|t r IH]; intros F lines f E M; simpl.
  - split; auto. split; [|discriminate]. exists []. rewrite app_nil_r. split; auto. constructor.
  - unfold read. rewrite M. destruct (f t) as (rows, err) eqn:Ef. destruct err as [e|]; simpl.
    + split; [intros q Hq; now apply append_other|]. split; [|discriminate]. exists rows. split; [now apply append_out|]. econstructor; eauto.
    + destruct (IH (append out rows F) (lines ++ rows)%list f (append_out _ _ _ _ E)) as (A & (rs & B & C) & D).
      { rewrite append_other; auto. }
      split; [intros q Hq; rewrite A; auto; now apply append_other|]. split; auto. exists (rows ++ rs)%list. rewrite app_assoc. split; auto.
      eapply eval_next; eauto.
Qed.

Lemma targets_files m out ts : forall F q, q <> out -> fs_file (out_state (run_targets m out ts F)) q = fs_file F q.
Proof.
  induction ts as [|t r IH]; intros F q Hq; simpl; auto. destruct (read F m) as [[]|]; simpl; auto. destruct (run t) as (rows, [e|]); simpl; [now apply append_other|].
  rewrite IH by auto. now apply append_other.
Qed.

Lemma run_frame cwd b m c out F q : q <> resolve cwd out -> fs_file (out_state (bench_run cwd b m c out F)) q = fs_file F q.
Proof.
  intros Hq. unfold bench_run. destruct (load_config F (resolve cwd c)) as [cfg|e]; auto. destruct (load_targets F (resolve cwd b)) as [[|t ts]|e]; auto.
  cbv zeta. unfold create. destruct (fs_dir _ _ && _); [|simpl; now rewrite !make_files]. rewrite targets_files by auto. unfold set_file. cbn [fs_file].
  rewrite path_eqb_neq by auto. now rewrite !make_files.
Qed.

Lemma run_success cwd b m c out F F' : resolve cwd m <> resolve cwd out -> bench_run cwd b m c out F = Done F' ->
  exists cfg ts f rows, fs_file F (resolve cwd c) = Some (CConfig cfg) /\ fs_file F (resolve cwd b) = Some (CTargets ts) /\ ts <> [] /\
    fs_file F (resolve cwd m) = Some (CMethods f) /\ evaluated f ts rows None /\ fs_file F' (resolve cwd out) = Some (CText (header cfg :: rows)).
Proof.
  intros N E. unfold bench_run, load_config, load_targets, read in E.
  destruct (fs_file F (resolve cwd c)) as [[cfg| | | |]|] eqn:Ec; try discriminate. exists cfg.
  destruct (fs_file F (resolve cwd b)) as [[|ts| | |]|] eqn:Eb; try discriminate. exists ts. destruct ts as [|t ts]; [discriminate|].
  cbv zeta in E. unfold create in E. set (F3 := check_make_paths _ (check_make_paths _ (check_make_paths _ F))) in E.
  assert (S3 : fs_file F3 = fs_file F) by (unfold F3; now rewrite !make_files).
  destruct (fs_dir F3 _ && _); [|discriminate]. set (F4 := set_file F3 (resolve cwd out) (CText [header cfg])) in E.
  assert (O4 : fs_file F4 (resolve cwd out) = Some (CText [header cfg])) by (unfold F4, set_file; simpl; now rewrite path_eqb_refl).
  assert (M4 : fs_file F4 (resolve cwd m) = fs_file F (resolve cwd m)) by (unfold F4, set_file; simpl; rewrite path_eqb_neq, S3; auto).
  destruct (fs_file F (resolve cwd m)) as [x|] eqn:Em.
  - destruct x as [| |f| |]; try (simpl in E; unfold read in E; rewrite M4 in E; discriminate).
    destruct (targets_run _ _ N (t :: ts) F4 [header cfg] f O4 M4) as (_ & (rows & A & B) & _). rewrite E in A, B. simpl in A.
    exists f, rows. split; [reflexivity|]. split; [reflexivity|]. split; [discriminate|]. split; [reflexivity|]. split; auto.
  - simpl in E. unfold read in E. rewrite M4 in E. discriminate.
Qed.

Lemma run_failure cwd b m c out F F' f e : resolve cwd m <> resolve cwd out -> fs_file F (resolve cwd m) = Some (CMethods f) -> bench_run cwd b m c out F = Failed e F' ->
  fs_file F' = fs_file F \/
  exists cfg ts rows, fs_file F (resolve cwd c) = Some (CConfig cfg) /\ fs_file F (resolve cwd b) = Some (CTargets ts) /\
    evaluated f ts rows (Some e) /\ fs_file F' (resolve cwd out) = Some (CText (header cfg :: rows)).
Proof.
  intros N Em E. unfold bench_run, load_config, load_targets, read in E.
  destruct (fs_file F (resolve cwd c)) as [[cfg| | | |]|] eqn:Ec; try (injection E as _ <-; now left).
  destruct (fs_file F (resolve cwd b)) as [[|ts| | |]|] eqn:Eb; try (injection E as _ <-; now left). destruct ts as [|t ts]; [injection E as _ <-; now left|].
  cbv zeta in E. unfold create in E. set (F3 := check_make_paths _ (check_make_paths _ (check_make_paths _ F))) in E.
  assert (S3 : fs_file F3 = fs_file F) by (unfold F3; now rewrite !make_files).
  destruct (fs_dir F3 _ && _); [|injection E as _ <-; now left]. set (F4 := set_file F3 (resolve cwd out) (CText [header cfg])) in E.
  assert (O4 : fs_file F4 (resolve cwd out) = Some (CText [header cfg])) by (unfold F4, set_file; simpl; now rewrite path_eqb_refl).
  assert (M4 : fs_file F4 (resolve cwd m) = Some (CMethods f)) by (unfold F4, set_file; simpl; rewrite path_eqb_neq, S3; auto).
  destruct (targets_run _ _ N (t :: ts) F4 [header cfg] f O4 M4) as (_ & (rows & A & B) & _). rewrite E in A, B. simpl in A.
  right. exists cfg, (t :: ts), rows. auto.
Qed.

(** C120: with four arguments, a run that ends has read the three files named and written the file named: the header and then the rows of all
    targets, nothing of what was there before. It changes no other file, also when it fails; and when an evaluation fails, the rows of the targets
    before it, and those of its own that were written, are in the file. *)
Theorem C120_four_arguments_partial :
  forall home cwd b m c o F, resolve cwd m <> resolve cwd o ->
  let r := run_benchmark home cwd [b; m; c; o] F in
  (forall q, q <> resolve cwd o -> fs_file (out_state r) q = fs_file F q) /\
  (forall F', r = Done F' -> exists cfg ts f rows,
     fs_file F (resolve cwd c) = Some (CConfig cfg) /\ fs_file F (resolve cwd b) = Some (CTargets ts) /\ fs_file F (resolve cwd m) = Some (CMethods f) /\
     evaluated f ts rows None /\ fs_file F' (resolve cwd o) = Some (CText (header cfg :: rows))) /\
  (forall e F' f, r = Failed e F' -> fs_file F (resolve cwd m) = Some (CMethods f) -> fs_file F' = fs_file F \/ exists cfg ts rows,
     fs_file F (resolve cwd c) = Some (CConfig cfg) /\ fs_file F (resolve cwd b) = Some (CTargets ts) /\
     evaluated f ts rows (Some e) /\ fs_file F' (resolve cwd o) = Some (CText (header cfg :: rows))).
Proof.
  intros home cwd b m c o F N r. split; [intros q Hq; now apply run_frame|]. split; [|intros e F' f E M; exact (run_failure _ _ _ _ _ _ _ _ _ N M E)]. intros F' E.
  destruct (run_success _ _ _ _ _ _ _ N E) as (cfg & ts & f & rows & A & B & _ & C & D & G). exists cfg, ts, f, rows. auto.
Qed.
Print Assumptions C120_four_arguments_partial.

(** C120 (full statement: the files named on the command line are used) is false for the documented use with a benchmark, a methods and a
    configuration file: none of them is looked at, whatever it holds; the shipped benchmark is run instead and replaces its former results. *)
Theorem C120_documented_use_refuted :
  (forall home cwd b m c F, run_benchmark home cwd [b; m; c] F = run_benchmark home cwd [] F) /\
  exists home cwd b m c F F' old new,
    (exists cfg ts f, fs_file F (resolve cwd c) = Some (CConfig cfg) /\ fs_file F (resolve cwd b) = Some (CTargets ts) /\ fs_file F (resolve cwd m) = Some (CMethods f) /\
       forall t, f t = (["mine"], None)) /\
    run_benchmark home cwd [b; m; c] F = Done F' /\ let results := (home ++ ["results"; "results.txt"])%list in
    fs_file F results = Some (CText old) /\ fs_file F' results = Some (CText new) /\ (forall l, In l old -> ~ In l new) /\ ~ In "mine" new.
Proof.
  split; [reflexivity|].
  set (cfg := mkConfig ["JSD"] (Rel ["d"]) (Rel ["p"])).
  set (files := fun p : path =>
    if path_eqb p ["h"; "def_config.yaml"] then Some (CConfig cfg) else if path_eqb p ["h"; "def_benchmark.yaml"] then Some (CTargets [1; 2]) else
    if path_eqb p ["h"; "def_methods.yaml"] then Some (CMethods (fun _ => (["theirs"], None))) else
    if path_eqb p ["h"; "results"; "results.txt"] then Some (CText ["precious"]) else
    if path_eqb p ["w"; "c"] then Some (CConfig cfg) else if path_eqb p ["w"; "b"] then Some (CTargets [3]) else if path_eqb p ["w"; "m"] then Some (CMethods (fun _ => (["mine"], None))) else None).
  exists ["h"], ["w"], (Rel ["b"]), (Rel ["m"]), (Rel ["c"]), (mkFs (fun p => match p with [] | ["h"] | ["w"] | ["h"; "results"] => true | _ => false end) files (fun _ => true)).
  eexists _, _, _. split; [eexists cfg, [3], (fun _ => (["mine"], None)); repeat split|]. split; [reflexivity|]. cbv zeta.
  split; [reflexivity|]. split; [reflexivity|]. split.
  - intros l [<-|[]]. simpl. intros [H|[H|[H|[]]]]; discriminate.
  - simpl. intros [H|[H|[H|[]]]]; discriminate.
Qed.
Print Assumptions C120_documented_use_refuted.

(** C120: a run that fails while loading its configuration or its targets leaves the file system as it was. *)
Theorem C120_results_kept_partial :
  forall home cwd b m c o F, (forall cfg, fs_file F (resolve cwd c) <> Some (CConfig cfg)) \/ (forall t ts, fs_file F (resolve cwd b) <> Some (CTargets (t :: ts))) ->
  exists e, run_benchmark home cwd [b; m; c; o] F = Failed e F.
Proof.
  intros home cwd b m c o F H. simpl. unfold bench_run, load_config, load_targets, read.
  destruct (fs_file F (resolve cwd c)) as [[cfg| | | |]|] eqn:Ec; eauto.
  destruct H as [H|H]; [exfalso; apply (H cfg); auto|].
  destruct (fs_file F (resolve cwd b)) as [[|[|t ts]| | |]|] eqn:Eb; eauto. exfalso. apply (H t ts). auto.
Qed.
Print Assumptions C120_results_kept_partial.

(** C120 (full statement: a run that fails while loading leaves former results) is false when the methods file cannot be read: the file of
    results has already been emptied, in every such run whose directories exist. *)
Theorem C120_results_kept_refuted :
  (forall home cwd b m c o F cfg t ts, fs_file F (resolve cwd c) = Some (CConfig cfg) -> fs_file F (resolve cwd b) = Some (CTargets (t :: ts)) ->
     fs_file F (resolve cwd m) = None -> resolve cwd m <> resolve cwd o ->
     fs_dir F (resolve cwd (cf_debug_dir cfg)) = true -> fs_dir F (resolve cwd (cf_plots_dir cfg)) = true -> fs_dir F (parent (resolve cwd o)) = true -> fs_dir F (resolve cwd o) = false ->
     exists F', run_benchmark home cwd [b; m; c; o] F = Failed PlainException F' /\ fs_file F' (resolve cwd o) = Some (CText [header cfg])) /\
  exists F cfg old, fs_file F ["c"] = Some (CConfig cfg) /\ fs_file F ["b"] = Some (CTargets [1]) /\ fs_file F ["m"] = None /\
    fs_dir F (resolve [] (cf_debug_dir cfg)) = true /\ fs_dir F (resolve [] (cf_plots_dir cfg)) = true /\ fs_dir F [] = true /\ fs_dir F ["o"] = false /\ fs_file F ["o"] = Some (CText old) /\ old <> [].
Proof.
  split.
  - intros home cwd b m c o F cfg t ts Ec Eb Em N D1 D2 D No. simpl. unfold bench_run, load_config, load_targets, read. rewrite Ec, Eb. cbv zeta.
    assert (K : forall p, fs_dir F p = true -> check_make_paths p F = F) by (intros p Hp; unfold check_make_paths; now rewrite Hp).
    rewrite (K _ D1), (K _ D2), (K _ D). unfold create. rewrite D, No. simpl. unfold read, set_file at 1. simpl. rewrite path_eqb_neq by auto. rewrite Em.
    eexists. split; [reflexivity|]. unfold set_file. simpl. now rewrite path_eqb_refl.
  - exists (mkFs (fun p => match p with [] => true | _ => false end)
       (fun p => if path_eqb p ["c"] then Some (CConfig (mkConfig [] (Rel []) (Rel []))) else if path_eqb p ["b"] then Some (CTargets [1]) else if path_eqb p ["o"] then Some (CText ["row"]) else None)
       (fun _ => false)), (mkConfig [] (Rel []) (Rel [])), ["row"]. repeat split. discriminate.
Qed.
Print Assumptions C120_results_kept_refuted.

(** C120, plots: started in the directory of the default results, the plots program shows what the benchmark program wrote. *)
Theorem C120_plots_partial :
  forall home cwd F F', run_benchmark home cwd [] F = Done F' ->
  exists cfg ts rows, fs_file F (home ++ ["def_config.yaml"])%list = Some (CConfig cfg) /\ fs_file F (home ++ ["def_benchmark.yaml"])%list = Some (CTargets ts) /\
  run_plots home (home ++ ["results"])%list [] F' = Ok (repeat (CText (header cfg :: rows)) (List.length ts * List.length (cf_metrics cfg))).
Proof.
  intros home cwd F F' E. simpl in E.
  assert (N : forall x, (home ++ [x])%list <> (home ++ ["results"; "results.txt"])%list).
  { intros x H. apply app_inv_head in H. discriminate. }
  pose proof (fun H => run_success cwd _ _ _ _ F F' H E) as R0. specialize (R0 (N _)). destruct R0 as (cfg & ts & f & rows & Ec & Eb & Nt & Em & _ & Eo). simpl in Ec, Eb, Em, Eo.
  assert (Fr : forall x, fs_file F' (home ++ [x])%list = fs_file F (home ++ [x])%list).
  { intros x. pose proof (run_frame cwd (Abs (home ++ ["def_benchmark.yaml"])%list) (Abs (home ++ ["def_methods.yaml"])%list) (Abs (home ++ ["def_config.yaml"])%list)
      (Abs (home ++ ["results"; "results.txt"])%list) F (home ++ [x])%list (N x)) as R. rewrite E in R. exact R. }
  exists cfg, ts, rows. split; auto. split; auto. unfold run_plots, make_plots, load_targets, load_config, read. simpl resolve. rewrite !Fr, Ec, Eb.
  assert (Lm : load_all_methods F' (home ++ ["def_methods.yaml"])%list ts = Ok tt).
  { clear - Em Fr. induction ts as [|t ts IH]; simpl; auto. unfold read. rewrite Fr, Em. exact IH. }
  rewrite Lm. rewrite <- app_assoc. simpl app. rewrite Eo. destruct ts as [|t ts]; [congruence|]. f_equal. clear.
  induction (t :: ts) as [|a l IH]; simpl; auto. rewrite IH, repeat_app. f_equal. clear. induction (cf_metrics cfg); simpl; congruence.
Qed.
Print Assumptions C120_plots_partial.

(** C120: with three arguments, run_plots plots the results of the evaluation of the same three files when these were written to results.txt
    in the directory where the program is started. *)
Theorem C120_plots_of_arguments_partial :
  forall home cwd b m c o F F', resolve cwd o = (cwd ++ ["results.txt"])%list ->
  resolve cwd b <> resolve cwd o -> resolve cwd m <> resolve cwd o -> resolve cwd c <> resolve cwd o ->
  run_benchmark home cwd [b; m; c; o] F = Done F' ->
  exists cfg ts rows, fs_file F (resolve cwd c) = Some (CConfig cfg) /\ fs_file F (resolve cwd b) = Some (CTargets ts) /\
  fs_file F' (resolve cwd o) = Some (CText (header cfg :: rows)) /\
  run_plots home cwd [b; m; c] F' = Ok (repeat (CText (header cfg :: rows)) (List.length ts * List.length (cf_metrics cfg))).
Proof.
  intros home cwd b m c o F F' Ho Nb Nm Nc E. simpl in E.
  destruct (run_success cwd b m c o F F' Nm E) as (cfg & ts & f & rows & Ec & Eb & Nt & Em & _ & Eo).
  assert (Fr : forall q, q <> resolve cwd o -> fs_file F' q = fs_file F q).
  { intros q Hq. pose proof (run_frame cwd b m c o F q Hq) as R. rewrite E in R. exact R. }
  exists cfg, ts, rows. split; auto. split; auto. split; auto. unfold run_plots, make_plots, load_targets, load_config, read. rewrite !Fr, Ec, Eb by auto.
  assert (Lm : load_all_methods F' (resolve cwd m) ts = Ok tt).
  { clear - Em Fr Nm. induction ts as [|t ts IH]; simpl; auto. unfold read. rewrite Fr, Em by auto. exact IH. }
  rewrite Lm. cbn [resolve]. rewrite <- Ho, Eo. destruct ts as [|t ts]; [congruence|]. f_equal. clear.
  induction (t :: ts) as [|a l IH]; simpl; auto. rewrite IH, repeat_app. f_equal. clear. induction (cf_metrics cfg); simpl; congruence.
Qed.
Print Assumptions C120_plots_of_arguments_partial.

(** C120 (full statement: from any directory) is false: started anywhere else, the program looks for a file results.txt there. *)
Theorem C120_plots_refuted :
  (forall home cwd F F', run_benchmark home cwd [] F = Done F' -> cwd <> (home ++ ["results"])%list -> fs_file F (cwd ++ ["results.txt"])%list = None ->
     run_plots home cwd [] F' = Raise PlainException) /\
  exists home cwd F F', run_benchmark home cwd [] F = Done F' /\ cwd <> (home ++ ["results"])%list /\ fs_file F (cwd ++ ["results.txt"])%list = None.
Proof.
  split.
  - intros home cwd F F' E Nc Nf. simpl in E.
    assert (N : forall x, (home ++ [x])%list <> (home ++ ["results"; "results.txt"])%list).
    { intros x H. apply app_inv_head in H. discriminate. }
    pose proof (fun H => run_success cwd _ _ _ _ F F' H E) as R0. specialize (R0 (N _)). destruct R0 as (cfg & ts & f & rows & Ec & Eb & Nt & Em & _ & Eo). simpl in Ec, Eb, Em, Eo.
    assert (Fr : forall q, q <> (home ++ ["results"; "results.txt"])%list -> fs_file F' q = fs_file F q).
    { intros q Hq. pose proof (run_frame cwd (Abs (home ++ ["def_benchmark.yaml"])%list) (Abs (home ++ ["def_methods.yaml"])%list) (Abs (home ++ ["def_config.yaml"])%list)
        (Abs (home ++ ["results"; "results.txt"])%list) F q Hq) as R. rewrite E in R. exact R. }
    unfold run_plots, make_plots, load_targets, load_config, read. simpl resolve. rewrite !Fr, Ec, Eb by apply N.
    assert (Lm : load_all_methods F' (home ++ ["def_methods.yaml"])%list ts = Ok tt).
    { clear - Em Fr N. induction ts as [|t ts IH]; simpl; auto. unfold read. rewrite Fr, Em by apply N. exact IH. }
    rewrite Lm. destruct ts as [|t ts]; [congruence|]. rewrite Fr, Nf; auto.
    intros H. replace (home ++ ["results"; "results.txt"])%list with ((home ++ ["results"]) ++ ["results.txt"])%list in H by (now rewrite <- app_assoc).
    apply app_inj_tail in H. destruct H. congruence.
  - exists ["h"], ["w"], (mkFs (fun p => match p with [] | ["h"] | ["w"] => true | _ => false end)
      (fun p => if path_eqb p ["h"; "def_config.yaml"] then Some (CConfig (mkConfig ["JSD"] (Rel ["d"]) (Rel ["p"]))) else if path_eqb p ["h"; "def_benchmark.yaml"] then Some (CTargets [1]) else
        if path_eqb p ["h"; "def_methods.yaml"] then Some (CMethods (fun _ => (["r"], None))) else None) (fun _ => true)).
    eexists. split; [reflexivity|]. split; [discriminate|reflexivity].
Qed.
Print Assumptions C120_plots_refuted.

(** Examples. *)
Definition small_fs : fs := mkFs (fun p => match p with [] | ["w"] => true | _ => false end)
  (fun p => if path_eqb p ["w"; "c"] then Some (CConfig (mkConfig ["JSD"; "T"] (Rel ["d"]) (Rel ["p"]))) else if path_eqb p ["w"; "b"] then Some (CTargets [3; 4]) else
     if path_eqb p ["w"; "m"] then Some (CMethods (fun t => (if Nat.eqb t 3 then ["r1"; "r2"] else ["r3"], None))) else None) (fun _ => true).
Example C120_four_arguments_partial_example :
  resolve ["w"] (Rel ["m"]) <> resolve ["w"] (Rel ["new"; "o"]) /\
  exists F', run_benchmark ["h"] ["w"] [Rel ["b"]; Rel ["m"]; Rel ["c"]; Rel ["new"; "o"]] small_fs = Done F' /\
    fs_file F' ["w"; "new"; "o"] = Some (CText ["dims output_samples JSD T NESS method target_d accept_rate proposal_samples proposal_evals target_evals"; "r1"; "r2"; "r3"]).
Proof. split; [discriminate|]. eexists. split; reflexivity. Qed.
Example C120_results_kept_partial_example :
  (forall cfg, fs_file small_fs (resolve ["w"] (Rel ["b"])) <> Some (CConfig cfg)) /\ run_benchmark ["h"] ["w"] [Rel ["b"]; Rel ["m"]; Rel ["b"]; Rel ["o"]] small_fs = Failed KeyError small_fs.
Proof. split; [discriminate|reflexivity]. Qed.
Example C120_plots_partial_example : exists home cwd F F', run_benchmark home cwd [] F = Done F'.
Proof. destruct (proj2 C120_plots_refuted) as (home & cwd & F & F' & E & _). eauto. Qed.
Example C120_plots_of_arguments_partial_example :
  resolve ["w"] (Rel ["results.txt"]) = (["w"] ++ ["results.txt"])%list /\ resolve ["w"] (Rel ["b"]) <> resolve ["w"] (Rel ["results.txt"]) /\
  exists F', run_benchmark ["h"] ["w"] [Rel ["b"]; Rel ["m"]; Rel ["c"]; Rel ["results.txt"]] small_fs = Done F'.
Proof. split; [reflexivity|]. split; [discriminate|]. eexists. reflexivity. Qed.
