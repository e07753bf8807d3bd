(** C126 for rejection sampling, HiDaisee and the tree sampler. *)
From Coq Require Import List Bool Arith Lia QArith Lqa Permutation.
Import ListNotations.
From Verif Require Import Prelude.Py Prelude.QBase Prelude.QFacts Model.Base Model.Uniform Model.Rejection Model.HiDaisee Model.Tree Model.TreeSampler
  Spec.UniformSpec Spec.SplitSpec Proofs.RejectionWitness Proofs.UniformProofs Proofs.HiDaiseeBox Proofs.HiDaiseeProofs Proofs.HiDaiseeHistory Proofs.HiDaiseeDensity
  Proofs.TreeProofs Proofs.TreeSamplerTree Proofs.TreeSamplerInv Proofs.TreeSamplerLeaves
  Properties.HiDaiseeProps Properties.TreeSamplerProps Properties.TreeSamplerProps4.
Open Scope Q_scope.

Lemma accepted_positive P pi u x : 0 <= rj_q P x * rj_scaling P -> 0 <= pi x -> 0 <= u -> fgtQ (rej_ratio P pi x) u = true -> 0 < pi x.
Proof.
  intros Q N U. unfold rej_ratio, fdivQ. destruct (Qeq_bool_spec (rj_q P x * rj_scaling P) 0) as [E|E].
  - destruct (Qeq_bool_spec (pi x) 0) as [Z|Z]; [discriminate|]. intros _. destruct (Qlt_le_dec 0 (pi x)) as [|L]; auto. destruct Z. lra.
  - simpl. rewrite Qltb_true. intros H. destruct (Qlt_le_dec 0 (pi x)) as [|L]; auto. exfalso. assert (Z : pi x == 0) by lra. rewrite Z in H. unfold Qdiv in H. rewrite Qmult_0_l in H. lra.
Qed.
Lemma iter_positive P pi n c r : (forall x, 0 <= rj_q P x * rj_scaling P) -> (forall x, 0 <= pi x) -> (forall i, 0 <= rr_u r i) ->
  exists new, samples (rej_iter P pi n c r) = samples c ++ new /\ Forall (fun x => 0 < pi x) new.
Proof.
  intros Q N U. eexists. split; [reflexivity|]. unfold rej_accepted. rewrite Forall_map. apply Forall_forall. intros i Hi. apply filter_In in Hi.
  eapply accepted_positive; [apply Q|apply N|apply U|apply Hi].
Qed.
Lemma loop_positive P pi n timeout tape : (forall x, 0 <= rj_q P x * rj_scaling P) -> (forall x, 0 <= pi x) -> (forall r i, In r tape -> 0 <= rr_u r i) ->
  forall e c, exists new, samples (out_state (rej_loop P pi n timeout tape e c)) = samples c ++ new /\ Forall (fun x => 0 < pi x) new.
Proof.
  intros Q N. induction tape as [|r t IH]; intros U e c; cbn [rej_loop]; destruct (Qltb e timeout && _); try (exists []; rewrite app_nil_r; split; auto; fail).
  destruct (iter_positive P pi n c r Q N) as (a & A & Fa); [intros i; apply U; left; auto|].
  destruct (IH (fun r i H => U r i (or_intror H)) (rr_clock r) (rej_iter P pi n c r)) as (b & B & Fb).
  exists (a ++ b). rewrite B, A, app_assoc. split; auto. apply Forall_app. auto.
Qed.

(** C126. Rejection sampling: however a call ends, the samples it added lie where its target is positive. *)
Theorem C126_rejection :
  forall P pi n timeout e0 tape pick c, (forall x, 0 <= rj_q P x * rj_scaling P) -> (forall x, 0 <= pi x) -> (forall r i, In r tape -> 0 <= rr_u r i) ->
  exists new, samples (out_state (rej_importance_sample P pi n timeout e0 tape pick c)) = samples c ++ new /\ Forall (fun x => 0 < pi x) new.
Proof.
  intros P pi n timeout e0 tape pick c Q N U. destruct (loop_positive P pi n timeout tape Q N U e0 c) as (new & A & F). exists new. split; auto.
  unfold rej_importance_sample. destruct (rej_loop P pi n timeout tape e0 c) as [c1|c1|e c1]; auto. unfold rej_finish. destruct (Base.update_model _ _ _); exact A.
Qed.
Print Assumptions C126_rejection.
Example C126_rejection_example :
  (forall x, 0 <= rj_q exP x * rj_scaling exP) /\ (forall r i, In r [ex_r1; ex_r2] -> 0 <= rr_u r i) /\
  rej_importance_sample exP ex_target 2 60 0 [ex_r1; ex_r2] (fun i => i) core_init = Done ex_c1 /\ length (samples ex_c1) = 2%nat.
Proof.
  split; [exact exP_env|]. split; [|split; [exact ex_c1_run|reflexivity]]. intros r i [<-|[<-|[]]]; vm_compute; discriminate.
Qed.

(** C126. HiDaisee, one target throughout: after every call that returned, a sample has a positive weight exactly where the target is positive. *)
Theorem C126_hidaisee :
  forall P ops s pi n rds s', corners (hp_lo P) (hp_hi P) -> hd_reachable P ops s -> dims_ok (length (hp_lo P)) ops -> dim_ok (length (hp_lo P)) rds ->
  (forall f, called_with ops f -> f = pi) -> hd_call P pi n rds s = Done s' ->
  forall x w, In (x, w) (hs_samples s') -> (0 < w <-> 0 < pi x) /\ (w == 0 <-> pi x == 0).
Proof.
  intros P ops s pi n rds s' C R D Hd One E x w Hx. pose proof (reach_inv P C ops s R D) as I.
  set (pis := fun f => f = pi). assert (I0 : hinv (length (hp_lo P)) (hp_lo P, hp_hi P) pis (hs_tree s)) by (eapply hinv_weaken; [|exact I]; intros f Hf; apply One; exact Hf).
  unfold hd_call in E.
  destruct (turns_spec P pi rds pis eq_refl Hd (n - length (hs_samples s)) (length (hs_samples s)) s I0) as [(s1 & xs & E1 & I1 & _)|(e & s1 & xs & E1 & _)]; rewrite E1 in E; [|discriminate].
  injection E as <-. cbn [hs_samples] in Hx. rewrite hd_rows_at in Hx. apply in_flat_map in Hx. destruct Hx as (i & Hi & Hx).
  unfold rows_at in Hx. destruct (nth_error (ht_nodes (hs_tree s1)) i) as [m|] eqn:Em; [|destruct Hx].
  destruct (hi_rows _ _ _ _ I1 i m x w Hi Em Hx) as (_ & f & Hf & W). rewrite Hf in W. destruct (hi_node _ _ _ _ I1 i m Em) as (_ & Rm).
  pose proof (vol_positive _ _ Rm) as V. fold (nbox m) in V. rewrite W. clearbody pis. split; split; intros H.
  - destruct (Qlt_le_dec 0 (pi x)) as [|L]; auto. exfalso. nra.
  - nra.
  - destruct (Qeq_dec (pi x) 0) as [|Z]; auto. exfalso. apply Z. apply (Qmult_inj_r _ _ (box_volume (nbox m))); [lra|]. rewrite H. ring.
  - rewrite H. ring.
Qed.
Print Assumptions C126_hidaisee.
Example C126_hidaisee_example :
  hd_reachable line_hd [(HdCall bump 2 left_rounds, true)] (line_after 2) /\ (forall f, called_with [(HdCall bump 2 left_rounds, true)] f -> f = bump) /\
  exists s', hd_call line_hd bump 4 left_rounds (line_after 2) = Done s' /\ length (hs_samples s') = 4%nat.
Proof.
  split; [apply line_reachable; lia|]. split; [intros f (n & r & b & [H|[]]); congruence|]. eexists. split; [vm_compute; reflexivity|]. vm_compute; reflexivity.
Qed.

(** C126. The tree sampler without resampling, first call: a returned sample has a positive weight exactly where the target is positive. *)
Theorem C126_tree_partial :
  forall P pi e n timeout u tape s, proper (p_lo P) (p_hi P) -> positive_kernel P -> p_flow P = Simple -> p_leaf_resampling P = false ->
  p_ess P = Some e -> 1 < e -> (p_nmin P <= 1)%nat -> nonneg pi -> unit_open P u -> Forall (fun r => forall i, unit_open P (rd_draw r i)) tape ->
  tp_call P pi n timeout u tape (tp_new P) = Done s ->
  exists l, get_samples P (s_tree s) = Ok l /\ Forall (fun xw => exists v, snd xw = Fin v /\ (0 < v <-> 0 < pi (fst xw))) l.
Proof.
  intros P pi e n timeout u tape s B K F NR Ee Le Ln N Hu Ft E.
  destruct (C75_first_call_partial P pi e n timeout u tape s B K F NR Ee Le Ln N Hu Ft E) as (c & l & refs & Cp & G & _ & F2). exists l. split; auto.
  clear -F2 Cp N. induction F2 as [|i xw refs l (nd & q & v & h & _ & _ & _ & Q & S & V & Eq) _ IH]; constructor; auto. exists v. split; auto.
  pose proof (N (fst xw)) as Nx. split; intros H.
  - destruct (Qlt_le_dec 0 (pi (fst xw))) as [|L]; auto. exfalso. nra.
  - destruct (Qlt_le_dec 0 v) as [|L]; auto. exfalso. nra.
Qed.
Print Assumptions C126_tree_partial.
Example C126_tree_example :
  proper (p_lo plain) (p_hi plain) /\ unit_open plain [1 # 2] /\ exists s l, tp_call plain (fun _ => 2) 2 1 [1 # 2] [unit_round (1 # 2)] (tp_new plain) = Done s /\
    get_samples plain (s_tree s) = Ok l /\ length l = 2%nat.
Proof. split; [apply line_proper|]. apply C75_first_call_example. Qed.
