(** Properties C52-C55: the tree, the samples and the values of HiDaisee. *)
From Coq Require Import List Bool Arith Lia QArith Lqa Permutation.
Import ListNotations.
From Verif Require Import Prelude.Py Prelude.QBase Prelude.QFacts Prelude.ListFacts Model.Uniform Model.HiDaisee Spec.UniformSpec Spec.SplitSpec
  Proofs.UniformProofs Proofs.HiDaiseeBox Proofs.HiDaiseeProofs Proofs.HiDaiseeHistory Proofs.HiDaiseeValues Proofs.HiDaiseeGeneric.
Open Scope Q_scope.

(** A one-dimensional object and its target for the examples: four times as high between 1/5 and 2/5. *)
Definition line_hd : hd_params := mkHP [0] [1] (fun t N => if (t =? 1)%nat then 0 else 1 / Qnat N) 2 (9 # 10).
Definition bump (x : vec) : Q := match x with [a] => if Qltb (1 # 5) a && Qltb a (2 # 5) then 4 else 1 | _ => 0 end.
(** Always the left child; the draws 3/4, 1/3, 1/8, 1/2 in the chosen leaf. *)
Definition left_rounds (t : nat) : hround := mkHR (fun _ => 0) (fun _ => nth t [3 # 4; 1 # 3; 1 # 8; 1 # 2] (1 # 3)) 0.
Definition line_after (n : nat) : hd := out_state (hd_call line_hd bump n left_rounds (hd_new line_hd)).
Lemma line_corners : corners [0] [1].
Proof. repeat constructor. Qed.
Lemma line_reachable n : (n <= 4)%nat -> hd_reachable line_hd [(HdCall bump n left_rounds, true)] (line_after n).
Proof.
  intros H. assert (E : hd_call line_hd bump n left_rounds (hd_new line_hd) = Done (line_after n)).
  { unfold line_after. destruct n as [|[|[|[|[|n]]]]]; try lia; vm_compute; reflexivity. }
  apply (hd_done _ [] (hd_new line_hd)); [constructor|exact E].
Qed.

(** C52. In every history, failed calls included, the leaf boxes cut up the space box: every point of it lies in exactly one leaf,
    the boxes have positive sides and their volumes add up; leaf list and node list agree. *)
Theorem C52_partition :
  forall P ops s, corners (hp_lo P) (hp_hi P) -> hd_reachable P ops s -> dims_ok (length (hp_lo P)) ops ->
  cuts_up (ht_leaves (hs_tree s))
          (fun i => match nth_error (ht_nodes (hs_tree s)) i with
                    | Some n => (map2 Qminus (h_center n) (h_radius n), map2 Qplus (h_center n) (h_radius n)) | None => ([], []) end)
          (hp_lo P, hp_hi P) /\
  forall i, In i (ht_leaves (hs_tree s)) -> exists n, nth_error (ht_nodes (hs_tree s)) i = Some n /\
    length (h_center n) = length (hp_lo P) /\ length (h_radius n) = length (hp_lo P) /\ Forall (fun r => 0 < r) (h_radius n).
Proof.
  intros P ops s C R D. pose proof (reach_inv P C ops s R D) as I. split; [exact (hi_cut _ _ _ _ I)|].
  intros i Hi. pose proof (hi_leaf _ _ _ _ I i Hi) as L. destruct (nth_error (ht_nodes (hs_tree s)) i) as [n|] eqn:E; [|apply nth_error_None in E; lia].
  exists n. split; auto. destruct (hi_node _ _ _ _ I i n E) as (Dn & Rn). split; auto. rewrite <- (radii_length _ _ Rn). split; auto.
  clear - Rn. revert Rn. generalize (h_center n). induction (h_radius n) as [|r rs IH]; intros c Rn; constructor; destruct c; simpl in Rn; try contradiction; destruct Rn; eauto.
Qed.
Print Assumptions C52_partition.
Example C52_partition_example :
  hd_reachable line_hd [(HdCall bump 4 left_rounds, true)] (line_after 4) /\ ht_leaves (hs_tree (line_after 4)) = [2; 3; 4]%nat.
Proof. split; [apply line_reachable; lia|vm_compute; reflexivity]. Qed.

(** C53 (full statement: a call ends holding exactly max(n, held before) samples; splits lose and duplicate none; every sample is in the leaf
    box that contains it, weighted with target density times leaf volume). True as long as no call failed since the last reset; the weight
    belongs to the target of one of the calls made. *)
Theorem C53_keeps_samples_partial :
  forall P ops s pi n rds s', corners (hp_lo P) (hp_hi P) -> hd_reachable P ops s -> dims_ok (length (hp_lo P)) ops -> intact ops ->
  dim_ok (length (hp_lo P)) rds -> hd_call P pi n rds s = Done s' ->
  length (hs_samples s') = Nat.max n (length (hs_samples s)) /\
  (exists new, Permutation (map fst (hs_samples s')) (new ++ map fst (hs_samples s))) /\
  Permutation (hs_samples s') (flat_map (fun i => match nth_error (ht_nodes (hs_tree s')) i with Some n => h_rows n | None => [] end) (ht_leaves (hs_tree s'))) /\
  forall i m x w, In i (ht_leaves (hs_tree s')) -> nth_error (ht_nodes (hs_tree s')) i = Some m -> In (x, w) (h_rows m) ->
    inside (map2 Qminus (h_center m) (h_radius m), map2 Qplus (h_center m) (h_radius m)) x /\
    exists pi', (pi' = pi \/ called_with ops pi') /\ w == pi' x * box_volume (map2 Qminus (h_center m) (h_radius m), map2 Qplus (h_center m) (h_radius m)).
Proof.
  intros P ops s pi n rds s' C R D F Hd E. pose proof (reach_samples P ops s R F) as Sm. pose proof (reach_inv P C ops s R D) as I.
  set (pis := fun f => f = pi \/ called_with ops f). assert (I0 : hinv (length (hp_lo P)) (hp_lo P, hp_hi P) pis (hs_tree s)) by (eapply hinv_weaken; [|exact I]; intros f Hf; right; exact Hf).
  unfold hd_call in E.
  destruct (turns_spec P pi rds pis (or_introl eq_refl) Hd (n - length (hs_samples s)) (length (hs_samples s)) s I0) as [(s1 & xs & E1 & I1 & _ & _ & Lx & Pm)|(e & s1 & xs & E1 & _)]; rewrite E1 in E; [|discriminate].
  inversion E; subst s'. simpl. clear E. rewrite <- Sm in Pm. split; [|split; [|split]].
  - apply Permutation_length in Pm. rewrite app_length, !map_length in Pm. lia.
  - eauto.
  - rewrite hd_rows_at. reflexivity.
  - intros i m x w Hi Em Hx. destruct (hi_rows _ _ _ _ I1 i m x w Hi Em Hx) as (A & f & B & W). split; [exact A|]. exists f. auto.
Qed.
Print Assumptions C53_keeps_samples_partial.
Example C53_keeps_samples_example :
  hd_reachable line_hd [(HdCall bump 2 left_rounds, true)] (line_after 2) /\ intact [(HdCall bump 2 left_rounds, true)] /\
  exists s', hd_call line_hd bump 4 left_rounds (line_after 2) = Done s' /\ length (hs_samples s') = 4%nat /\ length (hs_samples (line_after 2)) = 2%nat.
Proof. split; [apply line_reachable; lia|]. split; [simpl; auto|]. eexists. split; [vm_compute; reflexivity|]. split; vm_compute; reflexivity. Qed.

(** After a call that failed, the samples it drew stay in the tree but are not counted: the next call returns too many. *)
Definition zero_second (t : nat) : hround := mkHR (fun _ => 0) (fun _ => nth t [1 # 3] 0) 0.
Theorem C53_after_failure_refuted :
  exists P ops s pi n rds s', corners (hp_lo P) (hp_hi P) /\ hd_reachable P ops s /\ dims_ok (length (hp_lo P)) ops /\ dim_ok (length (hp_lo P)) rds /\
    hd_call P pi n rds s = Done s' /\ length (hs_samples s) = 0%nat /\ n = 1%nat /\ length (hs_samples s') = 2%nat.
Proof.
  set (s := out_state (hd_call line_hd bump 2 zero_second (hd_new line_hd))).
  assert (E : hd_call line_hd bump 2 zero_second (hd_new line_hd) = Failed AssertionError s) by (vm_compute; reflexivity).
  assert (E' : hd_call line_hd bump 1 zero_second s = Done (out_state (hd_call line_hd bump 1 zero_second s))) by (vm_compute; reflexivity).
  exists line_hd, [(HdCall bump 2 zero_second, false)], s, bump, 1%nat, zero_second, (out_state (hd_call line_hd bump 1 zero_second s)).
  split; [apply line_corners|]. split; [eapply hd_failed; [constructor|exact E]|].
  split; [intros ? ? ? ? [H|[]]; inversion H; subst; intros t; simpl; lia|]. split; [intros t; simpl; lia|].
  split; [exact E'|]. split; [vm_compute; reflexivity|]. split; [reflexivity|vm_compute; reflexivity].
Qed.
Print Assumptions C53_after_failure_refuted.

(** C54 (full statement: after every draw the value of every inner node is the sum of its children's values). Part 1: in every history, whatever was
    drawn, it holds for the root (unless it is a leaf). *)
Theorem C54_root_partial :
  forall P ops s, corners (hp_lo P) (hp_hi P) -> hd_reachable P ops s -> dims_ok (length (hp_lo P)) ops ->
  In 0%nat (ht_leaves (hs_tree s)) \/
  exists n a b na nb, nth_error (ht_nodes (hs_tree s)) 0 = Some n /\ h_kids n = Some (a, b) /\ nth_error (ht_nodes (hs_tree s)) a = Some na /\
    nth_error (ht_nodes (hs_tree s)) b = Some nb /\ feq (h_q n) (faddQ (h_q na) (h_q nb)).
Proof.
  intros P ops s C R D. destruct (reach_root P C ops s R D) as [H|(n & a & b & na & nb & H1 & H2 & H3 & H4 & _ & _ & H5)]; [auto|]. right. exists n, a, b, na, nb. csplit; auto.
Qed.
Print Assumptions C54_root_partial.
Example C54_root_example :
  hd_reachable line_hd [(HdCall bump 4 left_rounds, true)] (line_after 4) /\ ~ In 0%nat (ht_leaves (hs_tree (line_after 4))).
Proof. split; [apply line_reachable; lia|]. vm_compute. intros [H|[H|[H|[]]]]; discriminate. Qed.

(** Part 2: after a turn it holds, exactly, for every node the turn passed except the last, the leaf's parent; that one keeps the value it had
    while the leaf's value is replaced. *)
Theorem C54_path_partial :
  forall P ops s pi t rd path i, corners (hp_lo P) (hp_hi P) -> hd_reachable P ops s -> dims_ok (length (hp_lo P)) ops -> (hr_dim rd < length (hp_lo P))%nat ->
  (forall j, 0 < hr_draw rd j < 1) -> descend (length (ht_nodes (hs_tree s))) (hs_tree s) (hr_pick rd) 0 0 = Some (path, i) ->
  let t' := hs_tree (out_state (hd_turn P pi t rd s)) in
  (forall a, In a (removelast path) -> exists n la lb na nb, nth_error (ht_nodes t') a = Some n /\ h_kids n = Some (la, lb) /\ nth_error (ht_nodes t') la = Some na /\
     nth_error (ht_nodes t') lb = Some nb /\ h_q n = faddQ (h_q na) (h_q nb)) /\
  (forall l a, path = l ++ [a] -> l <> [] -> nth_error (ht_nodes t') a = nth_error (ht_nodes (hs_tree s)) a).
Proof.
  intros P ops s pi t rd path i C R D Hk U Ed. cbv zeta. pose proof (reach_inv P C ops s R D) as I.
  assert (I0 : hinv (length (hp_lo P)) (hp_lo P, hp_hi P) (fun _ => True) (hs_tree s)) by (eapply hinv_weaken; [|exact I]; auto).
  destruct (turn_spec _ _ _ P pi t rd s I0 Hk Logic.I) as (path' & i' & n & Ed' & Hi & En & _). assert (path' = path /\ i' = i) as (-> & ->) by (rewrite Ed in Ed'; inversion Ed'; auto).
  destruct (hi_node _ _ _ _ I0 i n En) as (_ & Rn). pose proof (draw_inside n (hr_draw rd) Rn U) as Hin.
  destruct (turn_values _ _ _ P pi t rd s path i n I0 Hk Logic.I Ed En Hin) as (V1 & V2 & _). split; auto.
  intros a Ha. destruct (V1 a (or_introl Ha)) as (m & la & lb & na & nb & H1 & H2 & H3 & H4 & _ & _ & H5). exists m, la, lb, na, nb. csplit; auto.
Qed.
Print Assumptions C54_path_partial.
Example C54_path_example :
  hd_reachable line_hd [(HdCall bump 3 left_rounds, true)] (line_after 3) /\
  descend (length (ht_nodes (hs_tree (line_after 3)))) (hs_tree (line_after 3)) (hr_pick (left_rounds 3)) 0 0 = Some ([0; 1]%nat, 3%nat).
Proof. split; [apply line_reachable; lia|vm_compute; reflexivity]. Qed.

(** In a tree of depth two the parent's value is not the sum after a draw. (The boost of the witness is rational; by the theorem before, the
    parent's value is kept for any.) *)
Theorem C54_parent_refuted :
  exists P ops s a n la lb na nb, corners (hp_lo P) (hp_hi P) /\ hd_reachable P ops s /\ dims_ok (length (hp_lo P)) ops /\ intact ops /\
    nth_error (ht_nodes (hs_tree s)) a = Some n /\ h_kids n = Some (la, lb) /\ nth_error (ht_nodes (hs_tree s)) la = Some na /\
    nth_error (ht_nodes (hs_tree s)) lb = Some nb /\ ~ feq (h_q n) (faddQ (h_q na) (h_q nb)).
Proof.
  exists line_hd, [(HdCall bump 4 left_rounds, true)], (line_after 4), 1%nat.
  set (nd i := nth i (ht_nodes (hs_tree (line_after 4))) (hnode_new [] [] NaN)).
  exists (nd 1%nat), 3%nat, 4%nat, (nd 3%nat), (nd 4%nat). split; [apply line_corners|]. split; [apply line_reachable; lia|].
  split; [intros ? ? ? ? [H|[]]; inversion H; subst; intros t; simpl; lia|]. split; [simpl; auto|].
  split; [vm_compute; reflexivity|]. split; [vm_compute; reflexivity|]. split; [vm_compute; reflexivity|]. split; [vm_compute; reflexivity|]. vm_compute. discriminate.
Qed.
Print Assumptions C54_parent_refuted.

(** C55 (full statement: with draws in [0,1) neither sampling nor splitting fails). Part 1: what can happen. A call returns, or fails in the assertion,
    which takes a draw that is exactly 0, or with a ValueError, when a sample lies on the plane at which its leaf is split. *)
Theorem C55_failures_partial :
  forall P ops s pi t rd, corners (hp_lo P) (hp_hi P) -> hd_reachable P ops s -> dims_ok (length (hp_lo P)) ops -> (hr_dim rd < length (hp_lo P))%nat ->
  (forall j, 0 <= hr_draw rd j < 1) ->
  ((exists j, (j < length (hp_lo P))%nat /\ hr_draw rd j == 0) /\ exists s', hd_turn P pi t rd s = Failed AssertionError s' /\ hs_tree s' = hs_tree s) \/
  ((forall j, (j < length (hp_lo P))%nat -> 0 < hr_draw rd j) /\
   ((exists s', hd_turn P pi t rd s = Done s') \/
    (exists s' i m y, hd_turn P pi t rd s = Failed ValueError s' /\ In i (ht_leaves (hs_tree s)) /\ nth_error (ht_nodes (hs_tree s)) i = Some m /\
       (y = node_draw m (hr_draw rd) \/ exists w, In (y, w) (h_rows m)) /\ nth (hr_dim rd) y 0 == nth (hr_dim rd) (h_center m) 0))).
Proof.
  intros P ops s pi t rd C R D Hk U. pose proof (reach_inv P C ops s R D) as I.
  assert (I0 : hinv (length (hp_lo P)) (hp_lo P, hp_hi P) (fun _ => True) (hs_tree s)) by (eapply hinv_weaken; [|exact I]; auto).
  destruct (turn_spec _ _ _ P pi t rd s I0 Hk Logic.I) as (path & i & n & Ed & Hi & En & T). destruct (hi_node _ _ _ _ I0 i n En) as (Dn & Rn).
  pose proof (draw_refused n (hr_draw rd) Rn U) as Dr. rewrite Dn in Dr.
  destruct T as [(Hout & s' & E & Et & _)|(Hin & s' & _ & _ & _ & _ & T)].
  - left. split; [apply Dr; auto|]. eauto.
  - right. split.
    + intros j Hj. destruct (Qlt_le_dec 0 (hr_draw rd j)) as [H|H]; auto. exfalso. assert (X : exists j, (j < length (hp_lo P))%nat /\ hr_draw rd j == 0) by (exists j; split; auto; pose proof (U j); lra).
      apply Dr in X. auto.
    + destruct T as [(E & _)|(E & _ & y & Hy & Ey)]; [left; eauto|]. right. exists s', i, n, y. csplit; auto.
Qed.
Print Assumptions C55_failures_partial.
Example C55_failures_example :
  hd_reachable line_hd [(HdCall bump 3 left_rounds, true)] (line_after 3) /\ (forall j, 0 <= hr_draw (left_rounds 3) j < 1) /\
  exists s', hd_turn line_hd bump 3 (left_rounds 3) (line_after 3) = Done s'.
Proof. split; [apply line_reachable; lia|]. split; [intros j; simpl; lra|]. eexists. vm_compute. reflexivity. Qed.

(** A call returns or fails with one of these two exceptions: it never hangs, and nothing else is raised. *)
Theorem C55_call_ends :
  forall P ops s pi n rds, corners (hp_lo P) (hp_hi P) -> hd_reachable P ops s -> dims_ok (length (hp_lo P)) ops -> dim_ok (length (hp_lo P)) rds ->
  (exists s', hd_call P pi n rds s = Done s') \/ (exists s', hd_call P pi n rds s = Failed AssertionError s') \/ (exists s', hd_call P pi n rds s = Failed ValueError s').
Proof.
  intros P ops s pi n rds C R D Hd. pose proof (reach_inv P C ops s R D) as I.
  assert (I0 : hinv (length (hp_lo P)) (hp_lo P, hp_hi P) (fun _ => True) (hs_tree s)) by (eapply hinv_weaken; [|exact I]; auto).
  unfold hd_call. generalize (length (hs_samples s)) at 1 3 5. generalize (n - length (hs_samples s))%nat. clear - I0 Hd. intros k. revert s I0.
  induction k as [|k IH]; intros s I0 t; simpl; [eauto|].
  destruct (turn_spec _ _ _ P pi t (rds t) s I0 (Hd t) Logic.I) as (path & i & m & _ & _ & _ & [(_ & s1 & E & _)|(_ & s1 & I1 & _ & _ & _ & [(E & _)|(E & _)])]); rewrite E; eauto.
Qed.
Print Assumptions C55_call_ends.
Example C55_call_ends_example :
  hd_reachable line_hd [(HdCall bump 3 left_rounds, true)] (line_after 3) /\ dim_ok (length (hp_lo line_hd)) left_rounds.
Proof. split; [apply line_reachable; lia|]. intros t. simpl. lia. Qed.

(** Part 2: when no draw is 0 and none is a dyadic rational, no call of any history fails: split planes lie at dyadic fractions of the box. (Machine
    numbers are dyadic; the theorem says that the failures are confined to a countable set of draws.) *)
Theorem C55_fine_draws_partial :
  forall P ops s pi n rds, corners (hp_lo P) (hp_hi P) -> hd_reachable P ops s -> dims_ok (length (hp_lo P)) ops -> dim_ok (length (hp_lo P)) rds ->
  (forall pi' n' rds' b, In (HdCall pi' n' rds', b) ((HdCall pi n rds, true) :: ops) -> forall t j, 0 < hr_draw (rds' t) j < 1 /\ ~ dyadic (hr_draw (rds' t) j)) ->
  exists s', hd_call P pi n rds s = Done s'.
Proof.
  intros P ops s pi n rds C R D Hd U. apply (fine_call P C ops s pi n rds R D); auto.
  - intros pi' n' rds' b H. apply (U pi' n' rds' b). right. auto.
  - apply (U pi n rds true). left. auto.
Qed.
Print Assumptions C55_fine_draws_partial.
Lemma third_not_dyadic : ~ dyadic (1 # 3).
Proof.
  intros (m & e & H). unfold Qeq, Qmult, inject_Z in H. cbn [Qnum Qden] in H. rewrite Z.mul_1_l, Z.mul_1_r in H. change (Z.pos (3 * 1)) with 3%Z in H.
  assert (X : (2 ^ Z.of_nat e mod 3 <> 0)%Z).
  { clear. induction e as [|e IH]; [discriminate|]. rewrite Nat2Z.inj_succ, Z.pow_succ_r by lia. intros H. apply IH. apply Z.mod_divide in H; [|lia]. apply Z.mod_divide; [lia|].
    apply Z.gauss with 2%Z; auto. }
  apply X. rewrite H. apply Z.mod_mul. lia.
Qed.
Example C55_fine_draws_example :
  hd_reachable line_hd [(HdReset, true)] (hd_new line_hd) /\ forall t j, 0 < hr_draw (mkHR (fun _ => 0) (fun _ => 1 # 3) 0) j < 1 /\ ~ dyadic (hr_draw ((fun _ : nat => mkHR (fun _ => 0) (fun _ => 1 # 3) 0) t) j).
Proof. split; [apply (hd_reset _ [] (hd_new line_hd)); constructor|]. intros t j. simpl. split; [lra|apply third_not_dyadic]. Qed.

(** The lower end of the range is refused by the leaf that produced it. *)
Theorem C55_zero_draw_refuted :
  exists P pi n rds s', corners (hp_lo P) (hp_hi P) /\ dim_ok (length (hp_lo P)) rds /\ (forall t j, 0 <= hr_draw (rds t) j < 1) /\ (forall x, 0 < pi x) /\
    hd_call P pi n rds (hd_new P) = Failed AssertionError s'.
Proof.
  exists line_hd, (fun _ => 1), 1%nat, (fun _ => mkHR (fun _ => 0) (fun _ => 0) 0). eexists. split; [apply line_corners|]. split; [intros t; simpl; lia|].
  split; [intros t j; simpl; lra|]. split; [intros; lra|]. vm_compute. reflexivity.
Qed.
Print Assumptions C55_zero_draw_refuted.
(** A sample in the middle of its leaf is refused by both halves. *)
Theorem C55_split_plane_refuted :
  exists P pi n rds s', corners (hp_lo P) (hp_hi P) /\ dim_ok (length (hp_lo P)) rds /\ (forall t j, 0 < hr_draw (rds t) j < 1) /\ (forall x, 0 <= pi x) /\
    hd_call P pi n rds (hd_new P) = Failed ValueError s'.
Proof.
  exists line_hd, bump, 2%nat, (fun t => mkHR (fun _ => 0) (fun _ => nth t [1 # 2; 1 # 3] (1 # 3)) 0). eexists. split; [apply line_corners|]. split; [intros t; simpl; lia|].
  split; [intros [|[|[|t]]] j; simpl; lra|]. split; [intros [|a [|b x]]; simpl; try lra; destruct (_ && _); lra|]. vm_compute. reflexivity.
Qed.
Print Assumptions C55_split_plane_refuted.
