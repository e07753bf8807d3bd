(** C130 for HiDaisee. *)
From Coq Require Import List Bool Arith Lia QArith Lqa Permutation.
Import ListNotations.
From Verif Require Import Prelude.Py Prelude.QBase Prelude.ListFacts Model.Uniform Model.HiDaisee Spec.UniformSpec Spec.SplitSpec Proofs.HiDaiseeBox Proofs.HiDaiseeProofs Proofs.HiDaiseeHistory.
From Verif Require Import Prelude.QFacts Properties.HiDaiseeProps Properties.SupportTreeProps Properties.BlackBoxProps.
Open Scope Q_scope.

Lemma push_local pi pi' k : forall rows l r, agree_on (map fst rows) pi pi' -> push pi' k rows l r = push pi k rows l r.
Proof.
  induction rows as [|(x, w) rows IH]; intros l r A; simpl; auto.
  assert (X : pi x = pi' x) by (apply A; now left). assert (A' : agree_on (map fst rows) pi pi') by (intros y Hy; apply A; now right).
  destruct (Qltb _ _); (destruct (Qle_bool _ 0); [reflexivity|]); rewrite <- X; now apply IH.
Qed.
Lemma turn_local P (d : nat) whole pi pi' t rd s s1 : hinv d whole (fun _ => True) (hs_tree s) -> (hr_dim rd < d)%nat -> hd_turn P pi t rd s = Done s1 ->
  agree_on (map fst (hd_rows (hs_tree s1))) pi pi' -> hd_turn P pi' t rd s = Done s1.
Proof.
  intros I Hk E A. destruct (turn_spec d whole (fun _ => True) P pi t rd s I Hk Logic.I) as (path & i & n & Ed & Hi & En & T). cbv zeta in T.
  destruct T as [(_ & s' & E' & _)|(_ & s' & _ & _ & _ & _ & [(E' & Pm)|(E' & _)])]; rewrite E in E'; try discriminate. injection E' as <-.
  set (x := node_draw n (hr_draw rd)) in *.
  assert (Ax : pi x = pi' x) by (apply A; apply (Permutation_in _ (Permutation_sym Pm)); now left).
  assert (An : agree_on (map fst (h_rows n)) pi pi').
  { intros y Hy. apply A. apply (Permutation_in _ (Permutation_sym Pm)). right. rewrite hd_rows_at. apply in_map_iff in Hy. destruct Hy as (row & <- & Hy). apply in_map.
    apply in_flat_map. exists i. split; auto. unfold rows_at. now rewrite En. }
  revert E. unfold hd_turn. rewrite Ed, En. cbv zeta. fold x. rewrite <- Ax. destruct (Qle_bool _ 0); auto.
  set (n1 := add_row n x (pi x / node_prob n x)). set (v := fdivflQ _ _).
  set (nodes2 := fold_left refresh_q (refreshed_path path) _).
  destruct (_ && _); auto.
  assert (Li : (i < length (ht_nodes (hs_tree s)))%nat) by (apply (hi_leaf d whole _ _ I); auto).
  assert (S2 : sim nodes2 (upd (ht_nodes (hs_tree s)) i n1)).
  { unfold nodes2. eapply sim_trans; [apply refreshes_sim|]. simpl. eapply sim_upd; [apply upd_nth_error_eq; auto|]. reflexivity. }
  assert (E1 : nth_error (upd (ht_nodes (hs_tree s)) i n1) i = Some n1) by (apply upd_nth_error_eq; auto).
  destruct (sim_nth _ _ _ _ (sim_sym _ _ S2) E1) as (n3 & E3 & St). destruct (strip_fields _ _ St) as (_ & _ & _ & W3).
  replace (split pi' i (hr_dim rd) (mkHT nodes2 (ht_leaves (hs_tree s)))) with (split pi i (hr_dim rd) (mkHT nodes2 (ht_leaves (hs_tree s)))); auto.
  unfold split. cbn [ht_nodes]. rewrite E3. cbv zeta. rewrite (push_local pi pi'); auto.
  rewrite W3. unfold n1. simpl. rewrite map_app. intros y Hy. apply in_app_or in Hy. destruct Hy as [Hy|[<-|[]]]; auto.
Qed.
Lemma turns_local P pi pi' rds (C : corners (hp_lo P) (hp_hi P)) : dim_ok (length (hp_lo P)) rds -> forall k t s s1, hinv (length (hp_lo P)) (hp_lo P, hp_hi P) (fun _ => True) (hs_tree s) ->
  hd_turns P pi rds t k s = Done s1 -> agree_on (map fst (hd_rows (hs_tree s1))) pi pi' -> hd_turns P pi' rds t k s = Done s1.
Proof.
  intros Hd. induction k as [|k IH]; intros t s s1 I E A; simpl in *; auto.
  destruct (hd_turn P pi t (rds t) s) as [s2|s2|e s2] eqn:E2; try discriminate.
  destruct (turn_spec _ _ (fun _ => True) P pi t (rds t) s I (Hd t) Logic.I) as (path & i & n & _ & _ & _ & T). cbv zeta in T.
  destruct T as [(_ & s' & E' & _)|(_ & s' & I2 & _ & _ & _ & [(E' & _)|(E' & _)])]; rewrite E2 in E'; try discriminate. injection E' as <-.
  rewrite (turn_local P _ _ pi pi' t (rds t) s s2 I (Hd t) E2); [now apply IH|].
  destruct (turns_spec P pi rds (fun _ => True) Logic.I Hd k (S t) s2 I2) as [(s' & xs & E3 & _ & _ & _ & _ & Pm)|(e & s' & xs & E3 & _)]; rewrite E in E3; [|discriminate]. injection E3 as <-.
  intros x Hx. apply A. apply (Permutation_in _ (Permutation_sym Pm)). apply in_or_app. now right.
Qed.

(** C130. HiDaisee: in every history, a call that returns depends on the values of the target at the returned samples only, although every
    split evaluates the target again at samples of earlier turns and calls. *)
Theorem C130_hidaisee :
  forall P ops s pi pi' n rds s', corners (hp_lo P) (hp_hi P) -> hd_reachable P ops s -> dims_ok (length (hp_lo P)) ops -> dim_ok (length (hp_lo P)) rds ->
  hd_call P pi n rds s = Done s' -> agree_on (map fst (hs_samples s')) pi pi' -> hd_call P pi' n rds s = Done s'.
Proof.
  intros P ops s pi pi' n rds s' C R D Hd E A. assert (I : hinv (length (hp_lo P)) (hp_lo P, hp_hi P) (fun _ => True) (hs_tree s)) by (eapply hinv_weaken; [|exact (reach_inv P C ops s R D)]; auto).
  unfold hd_call in *. cbv zeta in *. destruct (hd_turns P pi rds _ _ s) as [s1|s1|e s1] eqn:E1; try discriminate.
  rewrite (turns_local P pi pi' rds C Hd _ _ s s1 I E1); auto. injection E as <-. exact A.
Qed.
Print Assumptions C130_hidaisee.
Example C130_hidaisee_example :
  hd_reachable line_hd [(HdCall bump 2 left_rounds, true)] (line_after 2) /\
  exists s', hd_call line_hd bump 4 left_rounds (line_after 2) = Done s' /\ length (hs_samples s') = 4%nat /\
    agree_on (map fst (hs_samples s')) bump (fun x => if Qeq_bool (nth 0 x 0) (77 # 100) then 5 else bump x).
Proof.
  split; [apply line_reachable; lia|]. eexists. split; [vm_compute; reflexivity|]. split; [vm_compute; reflexivity|].
  intros x Hx. vm_compute in Hx. repeat (destruct Hx as [<-|Hx]; [reflexivity|]). destruct Hx.
Qed.
