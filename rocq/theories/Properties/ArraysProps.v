(** C110: the arrays handed out by the samplers. *)
From Coq Require Import List Bool Arith Lia ZArith QArith.
Import ListNotations.
From Verif Require Import Prelude.Py Prelude.QBase Model.Population Model.Arrays Spec.ArraysSpec Proofs.ArraysKeep Proofs.ArraysTwo Proofs.ArraysNew.
Open Scope Q_scope.

(** Arrays obtained earlier are not changed by later calls. *)
Theorem C110_keeps :
  keeps rej_arr rej_made /\ (forall lo hi x0, keeps (mh_arr lo hi) (mh_made x0)) /\
  (forall kind lo hi centres, keeps (pop_arr kind lo hi) (pop_made centres)) /\
  (forall dims, keeps (tree_arr dims) (tree_made dims)) /\ keeps hd_arr hd_made.
Proof.
  split; [|split; [|split; [|split]]].
  - apply (grow_keeps _ ok_arr rej_ok put_ok). unfold rej_made, ok_arr, valid; simpl; lia.
  - intros lo hi x0. apply (grow_keeps _ ok_mh (mh_ok lo hi) put_ok_mh). unfold mh_made, ok_mh, ok_arr, valid; simpl; lia.
  - intros kind lo hi centres. apply (grow_keeps _ ok_pop (pop_ok kind lo hi) put_ok_pop). unfold pop_made. pose proof (fresh_arrays_grows []) as (G & A & B). destruct (fresh_arrays []) as [h1 own]. cbn [fst snd] in *.
    pose proof (fresh_rows_grows centres h1) as (G2 & F). destruct (fresh_rows h1 centres) as [h2 l]. cbn [fst snd] in *. split; [exact F|]. split; eapply grows_valid; eauto.
  - exact tree_keeps.
  - apply (grow_keeps _ ok_hd hd_ok); [intros h s r i v; apply put_ok|]. unfold hd_made, ok_hd, ok_arr, valid; simpl; lia.
Qed.
Print Assumptions C110_keeps.

(** Witnesses: a turn of a population sampler with one component, and a second one. *)
Definition turn1 := mkTurnA [(0%nat, [1])] [[2]] [0%nat] [[None]] (fun x => x).
Definition turn2 := mkTurnA [(0%nat, [5])] [[3]] [0%nat] [[None]] (fun x => x).
Example C110_keeps_example :
  let x := run (pop_arr DM [0] [9]) [Do (PCall [turn1; turn2] true)] (made (pop_made [[0]])) in
  let y := run (pop_arr DM [0] [9]) (map Do [PCall [turn2] true; PReset [[4]]; PCall [turn1] true]) x in
  map (read (h_heap x)) (h_outs x) = [[[1]; [6]]; [[2 # 5]; [3 # 5]]] /\
  map (read (h_heap y)) (h_outs y) = [[[1]; [6]]; [[2 # 5]; [3 # 5]]; [[1]; [6]; [11]]; [[2 # 8]; [3 # 8]; [3 # 8]]; [[5]]; [[2 # 2]]].
Proof. vm_compute. split; reflexivity. Qed.

(** Nested sampling: arrays with a number of rows other than one are left as they are. *)
Theorem C110_nested_partial : forall points ops es r, let x := run ns_arr ops (made (ns_made points)) in let y := run ns_arr (map Do es) x in
  In r (h_outs x) -> length (read (h_heap x) r) <> 1%nat -> read (h_heap y) r = read (h_heap x) r.
Proof. exact ns_keeps_most. Qed.
Print Assumptions C110_nested_partial.
Definition ask1 (v : Q) : ns_ev := NCall [(0%nat, fun _ => [v])] [[1]] true.
Definition ask2 : ns_ev := NCall [(0%nat, fun _ => [3]); (1%nat, fun _ => [5])] [[1]; [2]] true.
Example C110_nested_example : let x := run ns_arr [Do ask2] (made (ns_made [[1]; [2]])) in let y := run ns_arr (map Do [ask1 4]) x in
  map (read (h_heap x)) (h_outs x) = [[[3]; [2]]; [[1]; [2]]] /\ map (read (h_heap y)) (h_outs x) = [[[3]; [2]]; [[1]; [2]]].
Proof. vm_compute. split; reflexivity. Qed.
(** One sample: the array handed out is a live point, which a later call replaces. *)
Theorem C110_nested_refuted : exists points, ~ keeps ns_arr (ns_made points).
Proof. exists [[1]; [2]]. intros K. specialize (K [Do (ask1 3)] [ask1 4] (mkA 2 (Some 0%nat)) (or_introl eq_refl)). vm_compute in K. discriminate K. Qed.
Print Assumptions C110_nested_refuted.

(** What the caller assigns to arrays obtained from a tree sampler or from HiDaisee has no influence on later answers. *)
Theorem C110_own : (forall dims, unaffected (tree_arr dims) (tree_made dims)) /\ unaffected hd_arr hd_made.
Proof. split; [exact tree_unaffected|exact hd_unaffected]. Qed.
Print Assumptions C110_own.
Definition acts1 : list tree_act := [SetS 0 (fun _ _ => [5]); SetW 0 (fun _ _ => [1]); Grow 1; SetS 1 (fun s _ => [1 + nth 0 (nth 0 s []) 0]); SetW 1 (fun _ _ => [2])].
Definition acts2 : list tree_act := [Grow 1; SetS 2 (fun s _ => [1 + nth 0 (nth 0 s []) 0])].
Definition node1 (l : list (vec * vec)) : list (vec * vec) := ([1 + nth 0 (fst (nth 0 l ([], []))) 0], [1]) :: l.
Example C110_own_example :
  let ops := [Do (TCall acts1 [0%nat; 1%nat] true); Caller 0 0 [7]] in
  let x := run (tree_arr 1) ops (made (tree_made 1)) in
  map (read (h_heap x)) (h_outs x) = [[[7]; [6]]; [[1]; [2]]] /\
  answer (tree_arr 1) (TCall acts2 [0%nat; 1%nat; 2%nat] true) x = [[[5]; [6]; [6]]; [[1]; [2]; [0]]] /\
  answer hd_arr (HCall 2 node1 true) (run hd_arr [Do (HCall 1 node1 true); Caller 0 0 [7]] (made hd_made)) = [[[2]; [1]]; [[1]; [1]]].
Proof. vm_compute. repeat split. Qed.

(** The other samplers hand out their own arrays. *)
Definition wr : list (op rej_ev) := [Do (RCall [([[1]], [[1]])] true); Caller 0 0 [7]].
Definition wp : list (op pop_ev) := [Do (PCall [turn1] true); Caller 0 0 [7]].
Definition wm : list (op mh_ev) := [Do (MCall [[Some [1]]] true); Caller 0 0 [7]].
Definition wn : list (op ns_ev) := [Do (ask1 3); Caller 0 0 [7]].
Theorem C110_own_refuted :
  ~ unaffected rej_arr rej_made /\ (exists lo hi x0, ~ unaffected (mh_arr lo hi) (mh_made x0)) /\
  (forall kind, exists lo hi centres, ~ unaffected (pop_arr kind lo hi) (pop_made centres)) /\ (exists points, ~ unaffected ns_arr (ns_made points)).
Proof.
  split; [|split; [|split]].
  - intros K. specialize (K wr (RCall [([[2]], [[1]])] true)). vm_compute in K. discriminate K.
  - exists [0], [9], [0]. intros K. specialize (K wm (MCall [[Some [1]]] true)). vm_compute in K. discriminate K.
  - intros kind. exists [0], [9], [[0]]. intros K. specialize (K wp (PCall [turn2] true)). destruct kind; vm_compute in K; discriminate K.
  - exists [[1]; [2]]. intros K. specialize (K wn (ask1 4)). vm_compute in K. discriminate K.
Qed.
Print Assumptions C110_own_refuted.

(** Rejection sampling, LAIS and M-PMC: rows added later, and points drawn, do not depend on the assignments. *)
Theorem C110_new_rejection_partial : forall ops rounds,
  let x := run rej_arr ops (made rej_made) in let y := run rej_arr (erase ops) (made rej_made) in let n := length (read (h_heap x) (f_samples (h_self x))) in
  exists X X' W, answer rej_arr (RCall rounds true) x = [X; W] /\ answer rej_arr (RCall rounds true) y = [X'; W] /\ skipn n X = skipn n X'.
Proof. exact rej_alike. Qed.
Print Assumptions C110_new_rejection_partial.
Example C110_new_rejection_example : let e := RCall [([[2]], [[1]])] true in
  answer rej_arr e (run rej_arr wr (made rej_made)) = [[[7]; [2]]; [[1 # 2]; [1 # 2]]] /\ answer rej_arr e (run rej_arr (erase wr) (made rej_made)) = [[[1]; [2]]; [[1 # 2]; [1 # 2]]].
Proof. vm_compute. split; reflexivity. Qed.

Theorem C110_new_population_partial : forall kind lo hi centres ops, kind <> DM ->
  let x := run (pop_arr kind lo hi) ops (made (pop_made centres)) in let y := run (pop_arr kind lo hi) (erase ops) (made (pop_made centres)) in
  let n := length (read (h_heap x) (f_samples (q_own (h_self x)))) in let m := length (read (h_heap x) (f_weights (q_own (h_self x)))) in
  (forall draws, answer (pop_arr kind lo hi) (PSample draws) x = answer (pop_arr kind lo hi) (PSample draws) y) /\
  (forall turns, exists X W X' W', answer (pop_arr kind lo hi) (PCall turns true) x = [X; W] /\ answer (pop_arr kind lo hi) (PCall turns true) y = [X'; W'] /\
     skipn n X = skipn n X' /\ skipn m W = skipn m W' /\ (kind = LAIS -> W = W')).
Proof.
  intros kind lo hi centres ops Hk x y n m. split.
  - intros draws. exact (pop_alike kind lo hi Hk centres ops (PSample draws)).
  - intros turns. pose proof (pop_alike kind lo hi Hk centres ops (PCall turns true)) as A. fold x y n m in A.
    assert (L : forall z, length (answer (pop_arr kind lo hi) (PCall turns true) z) = 2%nat). { intros z. unfold answer. cbn [pop_arr]. destruct (fold_left _ turns _) as [h1 s1]. destruct (match kind with MPMC => _ | _ => _ end) as [h2 w]. reflexivity. }
    pose proof (L x) as Lx. pose proof (L y) as Ly. unfold alike in A.
    destruct (answer _ _ x) as [|X [|W [|]]]; try discriminate Lx. destruct (answer _ _ y) as [|X' [|W' [|]]]; try discriminate Ly. exists X, W, X', W'. auto.
Qed.
Print Assumptions C110_new_population_partial.
Example C110_new_population_example :
  let ans k ops := answer (pop_arr k [0] [9]) (PCall [turn2] true) (run (pop_arr k [0] [9]) ops (made (pop_made [[0]]))) in
  ans LAIS wp = [[[7]; [5]]; [[2 # 5]; [3 # 5]]] /\ ans LAIS (erase wp) = [[[1]; [5]]; [[2 # 5]; [3 # 5]]] /\
  ans MPMC wp = [[[7]; [6]]; [[2]; [3]]] /\ ans MPMC (erase wp) = [[[1]; [6]]; [[2]; [3]]].
Proof. vm_compute. repeat split. Qed.

(** DM-PMC, Metropolis-Hastings and nested sampling: assigning to the array of the last call moves the sampler. *)
Theorem C110_new_refuted :
  (exists lo hi centres ops draws, answer (pop_arr DM lo hi) (PSample draws) (run (pop_arr DM lo hi) ops (made (pop_made centres))) <>
    answer (pop_arr DM lo hi) (PSample draws) (run (pop_arr DM lo hi) (erase ops) (made (pop_made centres)))) /\
  (exists lo hi x0 ops runs, answer (mh_arr lo hi) (MSample runs) (run (mh_arr lo hi) ops (made (mh_made x0))) <>
    answer (mh_arr lo hi) (MSample runs) (run (mh_arr lo hi) (erase ops) (made (mh_made x0)))) /\
  (exists points ops, read (h_heap (run ns_arr ops (made (ns_made points)))) (n_live (h_self (run ns_arr ops (made (ns_made points))))) <>
    read (h_heap (run ns_arr (erase ops) (made (ns_made points)))) (n_live (h_self (run ns_arr (erase ops) (made (ns_made points)))))).
Proof.
  split; [|split].
  - exists [0], [9], [[0]], wp, [(0%nat, [1])]. vm_compute. discriminate.
  - exists [0], [9], [0], wm, [[[Some [1]]]]. vm_compute. discriminate.
  - exists [[1]; [2]], wn. vm_compute. discriminate.
Qed.
Print Assumptions C110_new_refuted.
