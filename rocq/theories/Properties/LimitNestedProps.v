(** C129 for nested sampling. *)
From Coq Require Import List Bool Arith Lia QArith Lqa.
Import ListNotations.
From Verif Require Import Prelude.Py Prelude.QBase Model.Base.
From Verif Require Import Model.Nested.
From Verif Require Import Proofs.NestedProofs Proofs.NestedHistory Proofs.NestedWitness Properties.LimitMonotoneProps.
Open Scope Q_scope.

Lemma for_add P pi timeout g cand big : forall m d tape s values,
  ns_for P pi timeout g cand big (m + d) tape s values =
  match ns_for P pi timeout g cand big m tape s values with
  | (Done s', v', t') => ns_for P pi timeout g cand big d t' s' v'
  | x => x
  end.
Proof.
  induction m as [|m IH]; intros d tape s values; cbn [Nat.add ns_for]; auto. destruct tape as [|ev t]; auto.
  destruct (ns_iter P pi timeout g cand big ev s values) as [[s1|s1|e s1] v1]; auto.
Qed.
Lemma many_L P pi timeout tape G n s s' : many (one P pi timeout tape G) n s s' -> extends (ns_L s) (ns_L s').
Proof.
  induction 1 as [|n a b c O M IH]; [apply extends_refl|]. eapply extends_trans; [|exact IH].
  destruct O as (ev & g & cd & bg & k & y & seen & _ & _ & _ & SF). rewrite (sf_L _ _ _ _ _ _ _ _ _ _ _ _ SF). eexists. reflexivity.
Qed.

(** C129. Nested sampling: for the same object, target, time limit and draws, a call for more samples that returns gives the samples and
    likelihoods of a call for fewer, with further ones after them; and when the call for more returns, so does the one for fewer as soon as
    it holds a sample. *)
Theorem C129_nested :
  forall P pi n n' timeout tape pick pick' s s', ns_live s <> [] -> (n <= n')%nat -> nested_call P pi n' timeout tape pick' s = Done s' ->
  (0 < Nat.max n (length (ns_samples s)))%nat ->
  exists s1, nested_call P pi n timeout tape pick s = Done s1 /\ length (ns_samples s1) = Nat.max n (length (ns_samples s)) /\
    extends (ns_samples s1) (ns_samples s') /\ extends (ns_L s1) (ns_L s').
Proof.
  intros P pi n n' timeout tape pick pick' s s' NE N E NZ. unfold nested_call in *. set (k := length (ns_samples s)) in *.
  replace (n' - k)%nat with ((n - k) + (n' - k - (n - k)))%nat in E by lia. cbv zeta in *. rewrite for_add in E.
  destruct (ns_for P pi timeout (seq 0 (length (ns_live s))) nested_cand true (n - k) tape (ns_begin s) (map pi (ns_live s))) as [[[a|a|x a] v] t] eqn:F; try discriminate.
  assert (G : seq 0 (length (ns_live s)) <> []) by (destruct (ns_live s); [congruence|discriminate]).
  destruct (for_done P pi timeout _ nested_cand true G _ _ _ _ _ _ _ (all_live_ok s) eq_refl F) as (V & LL & _ & M1).
  destruct (ns_for P pi timeout (seq 0 (length (ns_live s))) nested_cand true (n' - k - (n - k)) t a v) as [[[b|b|x b] v2] t2] eqn:F2; try discriminate.
  assert (LV : Forall (fun i => (i < length (ns_live a))%nat) (seq 0 (length (ns_live s)))) by (rewrite LL; exact (all_live_ok s)).
  destruct (for_done P pi timeout _ nested_cand true G _ _ _ _ _ _ _ LV V F2) as (_ & _ & _ & M2).
  destruct (many_samples _ _ _ M1) as (x1 & S1 & L1). destruct (many_samples _ _ _ M2) as (x2 & S2 & L2). rewrite begin_samples in S1.
  pose proof (many_L _ _ _ _ _ _ _ _ M2) as LE.
  destruct (finish_cases P pick' b _ eq_refl) as [(e & X)|(m & X & NB & UM)]; rewrite X in E; [discriminate|]. injection E as <-.
  assert (NA : ns_samples a <> []). { intros Z. rewrite Z in S1. apply (f_equal (@length vec)) in S1. rewrite app_length, L1 in S1. fold k in S1. simpl in S1. lia. }
  destruct (finish_cases P pick a _ eq_refl) as [(e & Y)|(m1 & Y & _ & _)].
  - exfalso. unfold ns_finish in Y. destruct (ns_samples a) as [|z l]; [congruence|]. unfold update_model in Y, UM. destruct (ns_kde P); [discriminate|]. discriminate.
  - assert (LA : length (ns_samples a) = Nat.max n k) by (rewrite S1, app_length, L1; fold k; lia).
    rewrite Y. eexists. split; [reflexivity|]. split; [exact LA|]. split; [exists x2; exact S2|exact LE].
Qed.
Print Assumptions C129_nested.
Example C129_nested_example :
  ns_live (ns_new nP nus) <> [] /\ nested_call nP npi 2 60 [rep1; rep2] (fun i => i) (ns_new nP nus) = Done ns1 /\ length (ns_samples ns1) = 2%nat.
Proof. split; [discriminate|]. split; [exact n_run|reflexivity]. Qed.
