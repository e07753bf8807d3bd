(** Property C98 for the tree pyramid. *)
From Coq Require Import List Bool Arith Lia QArith Lqa.
Import ListNotations.
From Verif Require Import Prelude.Py Prelude.QBase Prelude.QFacts Model.Mixture Model.Tree Model.TreeSampler Spec.TimeSpec.
Open Scope Q_scope.

(** Number of samples the loop tests. *)
Definition tp_held (P : tp_params) (s : tp) : nat := match get_samples P (s_tree s) with Ok l => length l | Raise _ => 0%nat end.
Lemma mixture_nodes_runs P pi r refs : forall s s', mixture_nodes P pi r refs s <> Running s'.
Proof.
  induction refs as [|ref rest IH]; intros s s'; cbn [mixture_nodes]; [discriminate|].
  destruct (nth_error _ _); destruct (model_sample _ _ _ _ _) as [[|x [|y l]]|e]; try discriminate. cbv zeta.
  destruct (tp_prob _ _ _ _); [apply IH|discriminate].
Qed.
Lemma tp_turn_runs P pi need r s s' : turn P pi need r s <> Running s'.
Proof.
  unfold turn. destruct (p_flow P).
  - unfold simple_turn. destruct (expand_nodes _ _ _ _ _) as [t [l|e]]; discriminate.
  - unfold mixture_turn. destruct (model_sample _ _ _ _ _); [|discriminate]. destruct (find_unique _ _ _ _); [|discriminate].
    destruct (expand_nodes _ _ _ _ _) as [t [l|e]]; [|discriminate].
    match goal with |- context [mixture_nodes ?a ?b ?c ?d ?e] => pose proof (mixture_nodes_runs a b c d e) as N; destruct (mixture_nodes a b c d e) eqn:E end; try discriminate.
    exfalso. exact (N _ eq_refl).
Qed.
Lemma tp_late P pi n limit r after : limit <= rd_clock r -> forall before e s,
  tp_loop P pi n limit (before ++ r :: after) e s = tp_loop P pi n limit (before ++ [r]) e s /\
  forall s', tp_loop P pi n limit (before ++ [r]) e s <> Running s'.
Proof.
  intros H. assert (Z : Qltb (rd_clock r) limit = false) by (apply Qltb_false; exact H).
  induction before as [|b t IH]; intros e s; cbn [app tp_loop].
  - destruct (get_samples P (s_tree s)) as [l|x]; [|split; [reflexivity|discriminate]].
    destruct ((length l <? n)%nat && Qltb e limit); [|split; [reflexivity|discriminate]].
    destruct (turn P pi (n - length l) r s) as [s1|s1|x s1] eqn:E; [|destruct (tp_turn_runs _ _ _ _ _ _ E)|split; [reflexivity|discriminate]].
    destruct after; cbn [tp_loop]; (destruct (get_samples P (s_tree s1)); [|split; [reflexivity|discriminate]]); rewrite Z, andb_false_r; split; try reflexivity; discriminate.
  - destruct (get_samples P (s_tree s)) as [l|x]; [|split; [reflexivity|discriminate]].
    destruct ((length l <? n)%nat && Qltb e limit); [|split; [reflexivity|discriminate]].
    destruct (turn P pi (n - length l) b s) as [s1|s1|x s1] eqn:E; [apply IH|destruct (tp_turn_runs _ _ _ _ _ _ E)|split; [reflexivity|discriminate]].
Qed.
(** The number of samples is the one the loop tests, before the weights are normalised at the end. *)
Theorem C98_tree :
  forall P pi n u s, let call limit tape := tp_call P pi n limit u tape s in
  no_late_work rd_clock call /\
  forall limit tape s', call limit tape = Done s' ->
    exists s1, s' = update_model s1 /\ ((n <= tp_held P s1)%nat \/ limit <= 0 \/ exists r, In r tape /\ limit <= rd_clock r).
Proof.
  intros P pi n u s call. split.
  - intros limit before r after H. apply tp_late. exact H.
  - intros limit tape. unfold call, tp_call.
    assert (G : forall e s s', tp_loop P pi n limit tape e s = Done s' -> exists s1, s' = update_model s1 /\ ((n <= tp_held P s1)%nat \/ limit <= e \/ exists r, In r tape /\ limit <= rd_clock r)); [|apply G].
    clear. induction tape as [|r t IH]; intros e s s' H; cbn [tp_loop] in H; destruct (get_samples P (s_tree s)) as [l|x] eqn:El; try discriminate;
      destruct ((length l <? n)%nat && Qltb e limit) eqn:E; try discriminate.
    + injection H as <-. exists s. split; [reflexivity|]. unfold tp_held. rewrite El. apply andb_false_iff in E. destruct E as [E|E]; [left; now apply Nat.ltb_ge|right; left; now apply Qltb_false].
    + destruct (turn P pi (n - length l) r s) as [s2|s2|x s2] eqn:T; try discriminate.
      destruct (IH _ _ _ H) as (s1 & A & [B|[B|(q & B & C)]]); exists s1; (split; [exact A|]); auto.
      * right. right. exists r. simpl. auto.
      * right. right. exists q. simpl. auto.
    + injection H as <-. exists s. split; [reflexivity|]. unfold tp_held. rewrite El. apply andb_false_iff in E. destruct E as [E|E]; [left; now apply Nat.ltb_ge|right; left; now apply Qltb_false].
Qed.
Print Assumptions C98_tree.
Example C98_tree_example :
  let P := mkTP [0] [1] Haar Simple true (Some 2) 1 1 (fun _ _ _ => 1) 10 in
  let r t := mkR (fun _ => 0) (fun _ => [1 # 2]) (fun _ => [1 # 2]) t (fun _ _ => 0) (fun _ _ => [1 # 2]) (fun _ _ => 0) (fun _ _ => [1 # 2]) in
  exists s, tp_call P (fun _ => 1) 5 5 [1 # 2] [r 7; r 9] (tp_new P) = Done s /\ (tp_held P s < 5)%nat /\ 5 <= rd_clock (r 7).
Proof. cbv zeta. eexists. split; [vm_compute; reflexivity|split; vm_compute; [repeat constructor|discriminate]]. Qed.
