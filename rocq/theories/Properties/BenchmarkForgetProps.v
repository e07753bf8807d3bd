(** Property C59 for the samplers whose reset starts afresh: with a fixed seed the rows of an evaluation do not depend on what the
    same object did before. (Full statement, the general theorem, the rejection instance and the refutation for
    Metropolis-Hastings are in BenchmarkProps.) Each theorem quantifies over every two states of the object and of the generator,
    whatever the metrics and statistics read from the object. *)
From Coq Require Import String List Bool Arith ZArith Lia QArith.
Import ListNotations.
From Verif Require Import Prelude.Py Prelude.QBase Model.Nested Model.Mixture Model.Population Model.MPMC Model.Tree Model.TreeSampler
  Model.HiDaisee Model.TableFormat Model.Benchmark Model.BenchmarkSamplers Proofs.BenchmarkRuns Proofs.NestedWitness Proofs.PopulationWitness
  Proofs.MPMCWitness Properties.TreeSamplerProps Properties.HiDaiseeProps.
Open Scope list_scope.

(** Nested sampling. *)
Theorem C59_nested_reproducible : forall G gen turn P pi points tape pick len stats compute mname tname dims,
  let B := nested_bench G gen turn P pi points tape pick len stats compute mname tname dims in
  forall fuel C (g g' : G) (s s' : nst), (0 <= c_seedv C)%Z -> (1 <= c_reps C)%nat ->
  evaluate_method fuel B C (mkB (g, s) 0 [] []) = evaluate_method fuel B C (mkB (g', s') 0 [] []).
Proof.
  intros G gen turn P pi points tape pick len stats compute mname tname dims B fuel C g g' s s' Z R.
  unfold B, nested_bench. refine (evaluate_forgets _ _ _ _ _ _ _ _ _ _ _ _ fuel C g s 0 g' s' 0 [] [] Z R).
  intros g0 [] []. reflexivity.
Qed.
Print Assumptions C59_nested_reproducible.

Definition done_counts {W : Type} (o : outcome (bstate W)) : option (list nat) :=
  match o with Done s => Some (map r_count (bs_rows s)) | _ => None end.
Definition ex_stats {S : Type} (s : S) : res (fl Q * fl Q * nat * nat * nat) := Ok ((((Fin 1%Q, Fin 1%Q), 0%nat), 0%nat), 0%nat).
Definition ex_compute {S : Type} (i : nat) (k : kind) (g : Z) (s : S) : res (Z * fl Q) := Ok (g, Fin 0%Q).
Definition ex_C (n : nat) (t : Q) : config := mkConfig n n t 1 3 [] true.
Definition ex_nested := nested_bench Z (fun z => z) Z.succ nP npi (fun _ => nus) (fun _ => [rep1; rep2]) (fun _ i => i)
  (fun s => length (ns_samples s)) ex_stats ex_compute "nested" "target" 1.
Example C59_nested_reproducible_example : (0 <= c_seedv (ex_C 2 60))%Z /\ (1 <= c_reps (ex_C 2 60))%nat /\ ns1 <> ns_new nP nus /\
  done_counts (evaluate_method 1 ex_nested (ex_C 2 60) (mkB (5%Z, ns1) 0 [] [])) = Some [2%nat].
Proof. split; [cbn; lia|]. split; [cbn; lia|]. split; [intros X; apply (f_equal ns_samples) in X; vm_compute in X; discriminate X|vm_compute; reflexivity]. Qed.

(** Multi-nested sampling. *)
Theorem C59_multi_nested_reproducible : forall G gen turn P pi points oc tape pick len stats compute mname tname dims,
  let B := multi_bench G gen turn P pi points oc tape pick len stats compute mname tname dims in
  forall fuel C (g g' : G) (s s' : nst), (0 <= c_seedv C)%Z -> (1 <= c_reps C)%nat ->
  evaluate_method fuel B C (mkB (g, s) 0 [] []) = evaluate_method fuel B C (mkB (g', s') 0 [] []).
Proof.
  intros G gen turn P pi points oc tape pick len stats compute mname tname dims B fuel C g g' s s' Z R.
  unfold B, multi_bench. refine (evaluate_forgets _ _ _ _ _ _ _ _ _ _ _ _ fuel C g s 0 g' s' 0 [] [] Z R).
  intros g0 [] []. reflexivity.
Qed.
Print Assumptions C59_multi_nested_reproducible.

Definition ex_multi := multi_bench Z (fun z => z) Z.succ mP npi (fun _ => mus) (fun _ => moc) (fun _ => [mrep; mrep; mrep; mrep]) (fun _ i => i)
  (fun s => length (ns_samples s)) ex_stats ex_compute "multi" "target" 1.
Example C59_multi_nested_reproducible_example : (0 <= c_seedv (mkConfig 4 5 60 1 3 [] true))%Z /\ (1 <= c_reps (mkConfig 4 5 60 1 3 [] true))%nat /\ ms1 <> ns_new mP mus /\
  done_counts (evaluate_method 1 ex_multi (mkConfig 4 5 60 1 3 [] true) (mkB (5%Z, ms1) 0 [] [])) = Some [4%nat].
Proof. split; [cbn; lia|]. split; [cbn; lia|]. split; [intros X; apply (f_equal ns_samples) in X; vm_compute in X; discriminate X|vm_compute; reflexivity]. Qed.

(** Deterministic-mixture and layered adaptive importance sampling. *)
Theorem C59_population_reproducible : forall G gen turn k P pi means tape len stats compute mname tname dims,
  let B := pop_bench G gen turn k P pi means tape len stats compute mname tname dims in
  forall fuel C (g g' : G) (s s' : pop), (0 <= c_seedv C)%Z -> (1 <= c_reps C)%nat ->
  evaluate_method fuel B C (mkB (g, s) 0 [] []) = evaluate_method fuel B C (mkB (g', s') 0 [] []).
Proof.
  intros G gen turn k P pi means tape len stats compute mname tname dims B fuel C g g' s s' Z R.
  unfold B, pop_bench. refine (evaluate_forgets _ _ _ _ _ _ _ _ _ _ _ _ fuel C g s 0 g' s' 0 [] [] Z R).
  intros g0 [] []. reflexivity.
Qed.
Print Assumptions C59_population_reproducible.

Definition ex_pop (k : pop_kind) := pop_bench Z (fun z => z) Z.succ k wpop wpi (fun _ => wus) (fun _ => [wround])
  (fun s => length (pop_samples s)) ex_stats ex_compute "population" "target" 1.
Example C59_population_reproducible_example : (0 <= c_seedv (ex_C 4 1))%Z /\ (1 <= c_reps (ex_C 4 1))%nat /\ wdm <> pop_new wpop wus /\
  done_counts (evaluate_method 1 (ex_pop DM) (ex_C 4 1) (mkB (5%Z, wdm) 0 [] [])) = Some [4%nat] /\
  done_counts (evaluate_method 1 (ex_pop LAIS) (ex_C 4 1) (mkB (5%Z, wlais) 0 [] [])) = Some [4%nat].
Proof. split; [cbn; lia|]. split; [cbn; lia|]. split; [intros X; apply (f_equal pop_samples) in X; vm_compute in X; discriminate X|].
  split; vm_compute; reflexivity. Qed.

(** Mixture population Monte Carlo. *)
Theorem C59_mpmc_reproducible : forall G gen turn P pi means tape len stats compute mname tname dims,
  let B := mp_bench G gen turn P pi means tape len stats compute mname tname dims in
  forall fuel C (g g' : G) (s s' : mp), (0 <= c_seedv C)%Z -> (1 <= c_reps C)%nat ->
  evaluate_method fuel B C (mkB (g, s) 0 [] []) = evaluate_method fuel B C (mkB (g', s') 0 [] []).
Proof.
  intros G gen turn P pi means tape len stats compute mname tname dims B fuel C g g' s s' Z R.
  unfold B, mp_bench. refine (evaluate_forgets _ _ _ _ _ _ _ _ _ _ _ _ fuel C g s 0 g' s' 0 [] [] Z R).
  intros g0 [] []. reflexivity.
Qed.
Print Assumptions C59_mpmc_reproducible.

Definition ex_mp := mp_bench Z (fun z => z) Z.succ v1p vpi (fun _ => vus1) (fun _ => [vtwo; vtwo])
  (fun s => length (mp_samples s)) ex_stats ex_compute "mpmc" "target" 1.
Example C59_mpmc_reproducible_example : (0 <= c_seedv (ex_C 4 1))%Z /\ (1 <= c_reps (ex_C 4 1))%nat /\ v2 <> mp_new v1p vus1 /\
  done_counts (evaluate_method 1 ex_mp (ex_C 4 1) (mkB (5%Z, v2) 0 [] [])) = Some [4%nat].
Proof. split; [cbn; lia|]. split; [cbn; lia|]. split; [intros X; apply (f_equal mp_samples) in X; vm_compute in X; discriminate X|vm_compute; reflexivity]. Qed.

(** The tree-pyramid sampler. *)
Theorem C59_tree_reproducible : forall G gen turn P pi root tape len stats compute mname tname dims,
  let B := tp_bench G gen turn P pi root tape len stats compute mname tname dims in
  forall fuel C (g g' : G) (s s' : tp), (0 <= c_seedv C)%Z -> (1 <= c_reps C)%nat ->
  evaluate_method fuel B C (mkB (g, s) 0 [] []) = evaluate_method fuel B C (mkB (g', s') 0 [] []).
Proof.
  intros G gen turn P pi root tape len stats compute mname tname dims B fuel C g g' s s' Z R.
  unfold B, tp_bench. refine (evaluate_forgets _ _ _ _ _ _ _ _ _ _ _ _ fuel C g s 0 g' s' 0 [] [] Z R).
  intros g0 [] []. reflexivity.
Qed.
Print Assumptions C59_tree_reproducible.

Definition ex_tp := tp_bench Z (fun z => z) Z.succ (line Haar Simple true (Some 2) 1 1) (fun _ => 1%Q) (fun _ => [(1 # 2)%Q])
  (fun _ => [unit_round (1 # 2); unit_round (1 # 2)]) (fun s => length (t_leaves (s_tree s))) ex_stats ex_compute "tree" "target" 1.
Example C59_tree_reproducible_example : (0 <= c_seedv (ex_C 3 1))%Z /\ (1 <= c_reps (ex_C 3 1))%nat /\
  t_leaves (s_tree (tp_after line_call)) <> t_leaves (s_tree (tp_new (line Haar Simple true (Some 2) 1 1))) /\
  done_counts (evaluate_method 1 ex_tp (ex_C 3 1) (mkB (5%Z, tp_after line_call) 0 [] [])) = Some [3%nat].
Proof. split; [cbn; lia|]. split; [cbn; lia|]. split; [vm_compute; discriminate|vm_compute; reflexivity]. Qed.

(** HiDaisee. *)
Theorem C59_hidaisee_reproducible : forall G gen turn P pi rds len stats compute mname tname dims,
  let B := hd_bench G gen turn P pi rds len stats compute mname tname dims in
  forall fuel C (g g' : G) (s s' : hd), (0 <= c_seedv C)%Z -> (1 <= c_reps C)%nat ->
  evaluate_method fuel B C (mkB (g, s) 0 [] []) = evaluate_method fuel B C (mkB (g', s') 0 [] []).
Proof.
  intros G gen turn P pi rds len stats compute mname tname dims B fuel C g g' s s' Z R.
  unfold B, hd_bench. refine (evaluate_forgets _ _ _ _ _ _ _ _ _ _ _ _ fuel C g s 0 g' s' 0 [] [] Z R).
  intros g0 [] []. reflexivity.
Qed.
Print Assumptions C59_hidaisee_reproducible.

Definition ex_hd := hd_bench Z (fun z => z) Z.succ line_hd bump (fun _ => left_rounds) (fun s => length (hs_samples s)) ex_stats ex_compute
  "hidaisee" "target" 1.
Example C59_hidaisee_reproducible_example : (0 <= c_seedv (ex_C 2 1))%Z /\ (1 <= c_reps (ex_C 2 1))%nat /\
  hs_samples (line_after 2) <> hs_samples (hd_new line_hd) /\
  done_counts (evaluate_method 1 ex_hd (ex_C 2 1) (mkB (5%Z, line_after 2) 0 [] [])) = Some [2%nat].
Proof. split; [cbn; lia|]. split; [cbn; lia|]. split; [vm_compute; discriminate|vm_compute; reflexivity]. Qed.
