(** C124: what the density model of the sample-based methods is on average. *)
From Coq Require Import List Bool Arith Lia QArith Reals Qreals Lqa Lra.
Import ListNotations.
From Verif Require Import Prelude.Py Prelude.QBase Prelude.RBase Model.Base Model.Mixture Model.Rejection Model.MetropolisHastings.
From Verif Require Import Model.Nested.
From Verif Require Import Spec.DensitySpec Spec.ChoiceSpec Spec.EstimateSpec.
From Verif Require Import Proofs.RejectionProofs Proofs.RejectionWitness Proofs.MHBook Proofs.MHWitness Proofs.NestedHistory Proofs.NestedWitness Proofs.KdeAverage.
Open Scope R_scope.

(** Whatever the random generator returns, the call ends with the model of one of the choices of [k] sample numbers below [n] and with [same]
    results otherwise; and every choice is what the generator returning exactly these numbers gives. *)
Definition random_model {S : Type} (run : (nat -> nat) -> outcome S) (get : S -> option (list vec)) (same : S -> Prop) (n k : nat)
    (model_of : list nat -> list vec) : Prop :=
  (forall pick, exists idx s, In idx (all_choices n k) /\ run pick = Done s /\ get s = Some (model_of idx) /\ same s) /\
  (forall idx, In idx (all_choices n k) -> exists s, run (fun i => nth i idx O) = Done s /\ get s = Some (model_of idx) /\ same s).

Lemma random_of {S : Type} (run : (nat -> nat) -> outcome S) get same ss k :
  (0 < k)%nat -> ss <> [] ->
  (forall pick, match update_model k pick ss with Ok md => exists s, run pick = Done s /\ get s = Some md /\ same s | Raise _ => False end) ->
  random_model run get same (length ss) k (centres ss).
Proof.
  intros Hk NE H. split.
  - intros pick. specialize (H pick). destruct (update_model k pick ss) as [md|e] eqn:E; [|contradiction]. destruct H as (s & A & B & C).
    destruct (pick_choice k pick ss md E) as (idx & I & ->). eauto 10.
  - intros idx I. specialize (H (fun i => nth i idx O)). rewrite (choice_pick k ss idx Hk NE I) in H. exact H.
Qed.
Lemma update_ok k pick ss md : update_model k pick ss = Ok md -> (0 < k)%nat /\ ss <> [] /\ forall p, exists m, update_model k p ss = Ok m.
Proof.
  unfold update_model. destruct k as [|k]; [discriminate|]. destruct ss as [|x ss]; [discriminate|]. intros _.
  split; [lia|]. split; [discriminate|]. intros p. eexists. reflexivity.
Qed.

(** C124. Rejection sampling: averaged over the random choice of the centres, the density of the model is the kernel density estimate of the
    returned samples with their returned weights. *)
Theorem C124_rejection :
  forall P t n timeout e0 tape pick c c' (K : vec -> fl R), (forall x, (0 <= rj_q P x * rj_scaling P)%Q) -> rej_reachable P c ->
  rej_importance_sample P t n timeout e0 tape pick c = Done c' -> (forall m, log_value (K m)) ->
  exists model_of dens,
    random_model (fun p => rej_importance_sample P t n timeout e0 tape p c) model (fun d => samples d = samples c' /\ weights d = weights c')
      (length (samples c')) (rj_kde P) model_of /\
    (forall idx, In idx (all_choices (length (samples c')) (rj_kde P)) -> mixture_prob (map K (model_of idx)) (kde_weights (rj_kde P)) = Fin (dens idx)) /\
    plain_average (map dens (all_choices (length (samples c')) (rj_kde P))) = weighted_sum (weights c') (map (fun m => density_of (K m)) (samples c')).
Proof.
  intros P t n timeout e0 tape pick c c' K HP R E V. destruct (rej_request P t n timeout e0 tape pick c c' HP R E) as (_ & _ & _ & W & _).
  unfold rej_importance_sample in *. destruct (rej_loop P t n timeout tape e0 c) as [c1|c1|e c1]; try discriminate.
  unfold rej_finish in E. cbn [samples] in E. destruct (update_model (rj_kde P) pick (samples c1)) as [md|e] eqn:U; [|discriminate]. injection E as <-.
  cbn [samples weights] in *. destruct (update_ok _ _ _ _ U) as (Hk & NE & AL).
  destruct (kde_average (rj_kde P) (samples c1) K Hk NE V) as (dens & D1 & D2). exists (centres (samples c1)), dens. split; [|split; auto].
  - apply random_of; auto. intros p. unfold rej_finish. cbn [samples]. destruct (AL p) as (m & ->). eexists. split; [reflexivity|]. cbn. auto.
  - rewrite D2, W. reflexivity.
Qed.
Print Assumptions C124_rejection.

(** C124. The same for Metropolis-Hastings. *)
Theorem C124_mh :
  forall P lp n timeout tape pick s s' (K : vec -> fl R), mh_importance_sample P lp n timeout tape pick s = Done s' -> (forall m, log_value (K m)) ->
  exists model_of dens,
    random_model (fun p => mh_importance_sample P lp n timeout tape p s) (fun d => model (mh_core d))
      (fun d => samples (mh_core d) = samples (mh_core s') /\ weights (mh_core d) = weights (mh_core s')) (length (samples (mh_core s'))) (mh_kde P) model_of /\
    (forall idx, In idx (all_choices (length (samples (mh_core s'))) (mh_kde P)) ->
       mixture_prob (map K (model_of idx)) (kde_weights (mh_kde P)) = Fin (dens idx)) /\
    plain_average (map dens (all_choices (length (samples (mh_core s'))) (mh_kde P))) =
      weighted_sum (weights (mh_core s')) (map (fun m => density_of (K m)) (samples (mh_core s'))).
Proof.
  intros P lp n timeout tape pick s s' K E V. destruct (is_request P lp n timeout tape pick s s' E) as (_ & _ & _ & W & _).
  unfold mh_importance_sample in *. destruct (mh_is_loop P lp timeout n tape 0 s) as [s1|s1|e s1]; try discriminate. cbv zeta in *.
  destruct (update_model (mh_kde P) pick (samples (mh_core s1))) as [md|e] eqn:U; [|discriminate]. injection E as <-.
  cbn [samples weights mh_core] in *. destruct (update_ok _ _ _ _ U) as (Hk & NE & AL).
  destruct (kde_average (mh_kde P) (samples (mh_core s1)) K Hk NE V) as (dens & D1 & D2). exists (centres (samples (mh_core s1))), dens. split; [|split; auto].
  apply random_of; auto. intros p. destruct (AL p) as (m & ->). eexists. split; [reflexivity|]. cbn. auto.
Qed.
Print Assumptions C124_mh.

(** C124, what holds of nested sampling: the average model gives every sample the same weight, whatever the weights. *)
Theorem C124_nested_partial :
  forall P pi n timeout tape pick s s' (K : vec -> fl R), nested_call P pi n timeout tape pick s = Done s' -> (forall m, log_value (K m)) ->
  exists model_of dens,
    random_model (fun p => nested_call P pi n timeout tape p s) ns_model
      (fun d => ns_samples d = ns_samples s' /\ ns_L d = ns_L s') (length (ns_samples s')) (ns_kde P) model_of /\
    (forall idx, In idx (all_choices (length (ns_samples s')) (ns_kde P)) -> mixture_prob (map K (model_of idx)) (kde_weights (ns_kde P)) = Fin (dens idx)) /\
    plain_average (map dens (all_choices (length (ns_samples s')) (ns_kde P))) =
      weighted_sum (repeat (1 / Qnat (length (ns_samples s')))%Q (length (ns_samples s'))) (map (fun m => density_of (K m)) (ns_samples s')).
Proof.
  intros P pi n timeout tape pick s s' K E V. unfold nested_call in *. cbv zeta in *.
  destruct (ns_for P pi timeout (seq 0 (length (ns_live s))) nested_cand true (n - length (ns_samples s)) tape (ns_begin s) (map pi (ns_live s))) as ((o & v) & r).
  destruct o as [s1|s1|e s1]; try discriminate. unfold ns_finish in *. destruct (ns_samples s1) as [|x xs] eqn:ES; [discriminate|].
  destruct (update_model (ns_kde P) pick (x :: xs)) as [md|e] eqn:U; [|discriminate]. injection E as <-.
  assert (SS : forall m, ns_samples (mkNst (ns_live s1) (ns_view s1) (ns_rows s1) (ns_L s1) (ns_q_samples s1) (ns_pi_evals s1) (Some m) (ns_seen s1)) = x :: xs).
  { intros m. rewrite <- ES. reflexivity. }
  rewrite SS. cbn [ns_L]. destruct (update_ok _ _ _ _ U) as (Hk & NE & AL).
  destruct (kde_average (ns_kde P) (x :: xs) K Hk NE V) as (dens & D1 & D2). exists (centres (x :: xs)), dens. split; [|split; auto].
  apply random_of; auto. intros p. destruct (AL p) as (m & ->). eexists. split; [reflexivity|]. rewrite SS. cbn. auto.
Qed.
Print Assumptions C124_nested_partial.
(** C124, the same for multi-nested sampling. *)
Theorem C124_multi_partial :
  forall P oc pi n timeout tape pick s s' (K : vec -> fl R), multi_call P oc pi n timeout tape pick s = Done s' -> (forall m, log_value (K m)) ->
  exists model_of dens,
    random_model (fun p => multi_call P oc pi n timeout tape p s) ns_model
      (fun d => ns_samples d = ns_samples s' /\ ns_L d = ns_L s') (length (ns_samples s')) (ns_kde P) model_of /\
    (forall idx, In idx (all_choices (length (ns_samples s')) (ns_kde P)) -> mixture_prob (map K (model_of idx)) (kde_weights (ns_kde P)) = Fin (dens idx)) /\
    plain_average (map dens (all_choices (length (ns_samples s')) (ns_kde P))) =
      weighted_sum (repeat (1 / Qnat (length (ns_samples s')))%Q (length (ns_samples s'))) (map (fun m => density_of (K m)) (ns_samples s')).
Proof.
  intros P oc pi n timeout tape pick s s' K E V. unfold multi_call in *. cbv zeta in *.
  destruct (cluster_all (S (length (ns_live s))) (length (ns_live s)) (length (ns_lo P)) oc (4 # 5) (1 # 5)) as [[gs|e]|]; try discriminate.
  destruct (multi_groups P pi timeout (Nat.max ((n - length (ns_samples s)) / length gs) 1) gs tape (ns_begin s) (map pi (ns_live s))) as [s1|s1|e s1]; try discriminate.
  unfold ns_finish in *. destruct (ns_samples s1) as [|x xs] eqn:ES; [discriminate|].
  destruct (update_model (ns_kde P) pick (x :: xs)) as [md|e] eqn:U; [|discriminate]. injection E as <-.
  assert (SS : forall m, ns_samples (mkNst (ns_live s1) (ns_view s1) (ns_rows s1) (ns_L s1) (ns_q_samples s1) (ns_pi_evals s1) (Some m) (ns_seen s1)) = x :: xs).
  { intros m. rewrite <- ES. reflexivity. }
  rewrite SS. cbn [ns_L]. destruct (update_ok _ _ _ _ U) as (Hk & NE & AL).
  destruct (kde_average (ns_kde P) (x :: xs) K Hk NE V) as (dens & D1 & D2). exists (centres (x :: xs)), dens. split; [|split; auto].
  apply random_of; auto. intros p. destruct (AL p) as (m & ->). eexists. split; [reflexivity|]. rewrite SS. cbn. auto.
Qed.
Print Assumptions C124_multi_partial.
Example C124_multi_example : multi_run mP mcall (ns_new mP mus) = Done ms1 /\ (2 <= length (ns_samples ms1))%nat /\ (forall m : vec, log_value ((fun _ => Fin 0) m)).
Proof. split; [exact m_run|]. split; [vm_compute; lia|]. intros m. exact I. Qed.

Definition nk_P : ns_params := mkNsP [0%Q] [1%Q] 1 2 0.
Definition nk_us : list vec := [[0]; [1 # 2]]%Q.
Definition nk_pi (x : vec) : Q := nth 0 x 0%Q.
Definition nk_tape : list repl := [mkRepl 0 [3 # 4]%Q []; mkRepl 1 [1 # 4]%Q []].
Definition nk_run (pick : nat -> nat) : outcome nst := nested_call nk_P nk_pi 2 1 nk_tape pick (ns_new nk_P nk_us).
Definition nk_s : nst := Eval vm_compute in out_state (nk_run (fun _ => O)).
Lemma nk_start : start_ok nk_P nk_us.
Proof. repeat split; simpl; auto. repeat constructor; simpl; Lqa.lra. Qed.
Lemma nk_done : nk_run (fun _ => O) = Done nk_s.
Proof. vm_compute. reflexivity. Qed.
Lemma Q2R_half : Q2R (1 # 2) = / 2.
Proof. unfold Q2R. simpl. lra. Qed.
Lemma nk_weights : nested_weights 2 (map Q2R (ns_L nk_s)) = [Fin 0; Fin 1].
Proof.
  change (ns_L nk_s) with [0; 1 # 2]%Q. cbn [map]. replace (Q2R 0) with 0 by (unfold Q2R; simpl; lra). rewrite Q2R_half.
  unfold nested_weights, shells, shrink. cbn [length Nat.sub seq map map2 Rsum fold_right].
  assert (LT : exp (- INR 1 / INR 2) < 1). { rewrite <- exp_0. apply exp_increasing. simpl. lra. }
  replace (exp (- INR 0 / INR 2)) with 1 by (simpl; replace (-0 / (1 + 1)) with 0 by field; symmetry; apply exp_0).
  assert (NZ : 0 * 1 + (/ 2 * (1 - exp (- INR 1 / INR 2)) + 0) <> 0) by lra.
  unfold fdivR. destruct (Reqb _ 0) eqn:EE; [exfalso; apply NZ; revert EE; unfold Reqb; destruct (Req_EM_T _ 0); [auto|discriminate]|].
  f_equal; [f_equal; field; lra|]. f_equal. f_equal. field. lra.
Qed.

(** C124 (full statement: also for nested sampling the average model is the kernel density estimate with the returned weights) is false. With
    the target x on [0, 1] and two samples, the first of them has the weight zero and the second the weight one, but the average model gives
    both the weight 1/2: for every kernel that tells the two samples apart the densities differ. *)
Theorem C124_nested_refuted :
  exists P us pi n timeout tape pick s' x1 x2, start_ok P us /\ ns_op_ok P (NsCall pi n timeout tape pick) /\
    nested_call P pi n timeout tape pick (ns_new P us) = Done s' /\ ns_samples s' = [x1; x2] /\ x1 <> x2 /\
    nested_weights (ns_N P) (map Q2R (ns_L s')) = [Fin 0; Fin 1] /\
    forall (K : vec -> fl R) model_of dens, (forall m, log_value (K m)) -> density_of (K x1) <> density_of (K x2) ->
      random_model (fun p => nested_call P pi n timeout tape p (ns_new P us)) ns_model (fun d => ns_samples d = ns_samples s' /\ ns_L d = ns_L s') 2 (ns_kde P) model_of ->
      (forall idx, In idx (all_choices 2 (ns_kde P)) -> mixture_prob (map K (model_of idx)) (kde_weights (ns_kde P)) = Fin (dens idx)) ->
      plain_average (map dens (all_choices 2 (ns_kde P))) <> weighted_mean (fun m => density_of (K m)) [0; 1] (ns_samples s').
Proof.
  exists nk_P, nk_us, nk_pi, 2%nat, 1%Q, nk_tape, (fun _ => O), nk_s, [3 # 4]%Q, [1 # 2]%Q.
  split; [apply nk_start|]. split; [repeat constructor|]. split; [apply nk_done|]. split; [reflexivity|]. split; [discriminate|]. split; [apply nk_weights|].
  intros K model_of dens V NE (_ & RM) D. change (ns_kde nk_P) with 1%nat in *. change (all_choices 2 1) with [[O]; [1%nat]] in *.
  change (ns_samples nk_s) with [[3 # 4]; [1 # 2]]%Q.
  assert (M0 : model_of [O] = [[3 # 4]]%Q).
  { destruct (RM [O] ltac:(simpl; auto)) as (s & A & B & _). 
    assert (X : ns_model (out_state (nk_run (fun i => nth i [O] O))) = Some [[3 # 4]]%Q) by (vm_compute; reflexivity).
    unfold nk_run in X. rewrite A in X. simpl in X. congruence. }
  assert (M1 : model_of [1%nat] = [[1 # 2]]%Q).
  { destruct (RM [1%nat] ltac:(simpl; auto)) as (s & A & B & _). 
    assert (X : ns_model (out_state (nk_run (fun i => nth i [1%nat] O))) = Some [[1 # 2]]%Q) by (vm_compute; reflexivity).
    unfold nk_run in X. rewrite A in X. simpl in X. congruence. }
  pose proof (D [O] ltac:(simpl; auto)) as D0. pose proof (D [1%nat] ltac:(simpl; auto)) as D1. rewrite M0 in D0. rewrite M1 in D1.
  rewrite (kde_prob 1) in D0 by auto. rewrite (kde_prob 1) in D1 by auto. injection D0 as D0. injection D1 as D1.
  cbn [map fold_right] in D0, D1. cbn [map weighted_mean]. unfold plain_average. cbn [length fold_right]. rewrite <- D0, <- D1. simpl. intros X. apply NE. lra.
Qed.
Print Assumptions C124_nested_refuted.

Definition point_kernel (m : vec) : fl R := match m with [q] => if Qeq_bool q (1 # 2) then Fin 0 else NInf | _ => NInf end.
Example C124_rejection_example :
  (forall x, (0 <= rj_q exP x * rj_scaling exP)%Q) /\ rej_reachable exP core_init /\
  rej_importance_sample exP ex_target 2 60 0 [ex_r1; ex_r2] (fun i => i) core_init = Done ex_c1 /\ length (samples ex_c1) = 2%nat /\ (forall m, log_value (point_kernel m)).
Proof.
  split; [exact exP_env|]. split; [constructor|]. split; [exact ex_c1_run|]. split; [reflexivity|].
  intros [|q [|r m]]; simpl; auto. destruct (Qeq_bool q (1 # 2)); simpl; auto.
Qed.
Example C124_mh_example :
  exists lp n timeout tape pick, mh_importance_sample wP lp n timeout tape pick (mh_new wx0) = Done ws1 /\ (1 < length (samples (mh_core ws1)))%nat.
Proof. exists wlp, 2%nat, 60%Q, [mkIs wsteps1 1; mkIs wsteps2 2], (fun i => i). split; [vm_compute; reflexivity|]. simpl. lia. Qed.
Example C124_nested_example :
  nested_call nk_P nk_pi 2 1 nk_tape (fun _ => O) (ns_new nk_P nk_us) = Done nk_s /\ length (ns_samples nk_s) = 2%nat /\
  density_of (point_kernel [3 # 4]%Q) <> density_of (point_kernel [1 # 2]%Q).
Proof. split; [apply nk_done|]. split; [reflexivity|]. simpl. pose proof (exp_pos 0). lra. Qed.
