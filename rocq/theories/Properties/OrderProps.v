(** C111: order of points, samples and components. *)
From Coq Require Import List Bool Arith Permutation Reals Lra QArith Qreals.
Import ListNotations.
From Verif Require Import Prelude.Py Prelude.QBase Prelude.RBase Spec.FloatSpec Model.Base Model.Statistics Model.Divergence Model.Mixture Proofs.OrderR Proofs.OrderQ.

(** The divergence metrics do not depend on the order of the evaluation points. *)
Theorem C111_divergences : forall (X : Type) (p q : X -> fl R) (s s' : list X), Permutation s s' ->
  kl_compute p q s = kl_compute p q s' /\ js_compute p q s = js_compute p q s'.
Proof. intros X p q s s' P. split; [now apply kl_order|now apply js_order]. Qed.
Print Assumptions C111_divergences.
Example C111_divergences_example : Permutation [1%nat; 2%nat; 3%nat] [3%nat; 1%nat; 2%nat] /\
  js_compute (fun n : nat => Fin (INR n)) (fun n => Fin (INR n)) [1%nat; 2%nat; 3%nat] = js_compute (fun n : nat => Fin (INR n)) (fun n => Fin (INR n)) [3%nat; 1%nat; 2%nat].
Proof.
  assert (P : Permutation [1%nat; 2%nat; 3%nat] [3%nat; 1%nat; 2%nat]) by (eapply perm_trans; [apply perm_skip; apply perm_swap|apply perm_swap]). split; [exact P|]. now apply js_order.
Qed.

(** Nor does the expected value error, with samples and densities reordered together, nor the effective sample size
    computed from the weights. *)
Theorem C111_statistics : forall d (l l' : list (vec * Q * Q)) n, Permutation l l' ->
  let xs r := map (fun x : vec * Q * Q => fst (fst x)) r in let p r := map (fun x : vec * Q * Q => snd (fst x)) r in let q r := map (@snd (vec * Q) Q) r in
  feqQ (evmse d (xs l) (p l) (q l)) (evmse d (xs l') (p l') (q l')) /\ feqQ (get_approx_NESS (p l) n) (get_approx_NESS (p l') n).
Proof. intros d l l' n P xs p q. split; [now apply ev_order|apply ness_order, Permutation_map, P]. Qed.
Print Assumptions C111_statistics.
Example C111_statistics_example : let l := [([1%Q], 1%Q, 2%Q); ([3%Q], 2%Q, 1%Q)] in
  evmse 1 (map (fun x => fst (fst x)) l) (map (fun x => snd (fst x)) l) (map snd l) = Fin (2916 # 6561) /\ get_approx_NESS (map (fun x => snd (fst x)) l) 2 = Fin (81 # 90).
Proof. vm_compute. split; reflexivity. Qed.

(** The effective sample size from autocorrelations does depend on the order of the samples. *)
Theorem C111_autocorrelation_refuted : exists x x' : list vec, Permutation x x' /\ ~ feqQ (get_NESS x) (get_NESS x').
Proof.
  exists [[0%Q]; [1%Q]; [2%Q]], [[0%Q]; [2%Q]; [1%Q]]. split; [apply perm_skip, perm_swap|]. vm_compute. tauto.
Qed.
Print Assumptions C111_autocorrelation_refuted.

(** A mixture built from its components and weights in another order has the same density and log density everywhere. *)
Theorem C111_mixture : forall (X : Type) (cs cs' : list ((X -> fl R) * fl Q)) ws, Permutation cs cs' ->
  set_weights (length cs) (map snd cs) = Ok (map Fin ws) ->
  exists ws', set_weights (length cs') (map snd cs') = Ok (map Fin ws') /\
    forall rows, mixture_prob_batch (map fst cs) ws rows = mixture_prob_batch (map fst cs') ws' rows /\
                 mixture_log_prob_batch (map fst cs) ws rows = mixture_log_prob_batch (map fst cs') ws' rows.
Proof.
  intros X cs cs' ws P H. destruct (mixture_stored cs cs' ws P H) as (ws' & ps & H' & L & Pp & F & Fq). exists ws'. split; [exact H'|]. intros rows.
  assert (K : forall x, mixture_prob (map (fun m => m x) (map fst cs)) ws = mixture_prob (map (fun m => m x) (map fst cs')) ws' /\ logsumexp (map (fun m => m x) (map fst cs)) ws = logsumexp (map (fun m => m x) (map fst cs')) ws').
  { intros x. set (g := fun c : (X -> fl R) * Q => (fst c x, snd c)). assert (Pg := Permutation_map g Pp).
    assert (A : map fst (map g (combine (map fst cs) ws)) = map (fun m => m x) (map fst cs)). { rewrite map_map. unfold g; simpl. clear -L. revert ws L. induction cs; intros [|w ws] L; try discriminate; simpl; auto. f_equal. apply IHcs. now injection L. }
    assert (B : map snd (map g (combine (map fst cs) ws)) = ws). { rewrite map_map. unfold g; simpl. clear -L. revert ws L. induction cs; intros [|w ws] L; try discriminate; simpl; auto. f_equal. apply IHcs. now injection L. }
    assert (A' : map fst (map g ps) = map (fun m => m x) (map fst cs')) by (rewrite <- F, !map_map; reflexivity). assert (B' : map snd (map g ps) = map snd ps) by (rewrite map_map; reflexivity).
    destruct (prob_qeq (map (fun m => m x) (map fst cs')) _ _ Fq) as (E1 & E2).
    pose proof (prob_order _ _ Pg) as O1. pose proof (logsumexp_order _ _ Pg) as O2. rewrite A, B, A', B' in O1, O2. split; congruence. }
  split; apply map_ext; intros x; [apply (proj1 (K x))|apply (proj2 (K x))].
Qed.
Print Assumptions C111_mixture.
Example C111_mixture_example : let cs := [(fun x : R => Fin x, Fin 1%Q); (fun x => Fin (2 * x)%R, NaN); (fun x => Fin (3 * x)%R, Fin 3%Q)] in
  set_weights (length cs) (map snd cs) = Ok (map Fin [1 # 4; 0 # 4; 3 # 4])%Q /\ Permutation cs (rev cs) /\ set_weights (length (rev cs)) (map snd (rev cs)) = Ok (map Fin [3 # 4; 0 # 4; 1 # 4])%Q.
Proof. split; [vm_compute; reflexivity|]. split; [apply Permutation_rev|vm_compute; reflexivity]. Qed.
