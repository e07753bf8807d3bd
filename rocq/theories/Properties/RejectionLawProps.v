(** Property C87: rejection sampling is exact. *)
From Coq Require Import List Bool Arith Lia QArith Lqa.
Import ListNotations.
From Verif Require Import Prelude.Py Prelude.QBase Prelude.QFacts Model.Base Model.Rejection Spec.RejectionSpec Spec.RejectionLawSpec Proofs.RejectionProofs
  Proofs.RejectionWitness Proofs.RejectionLaw.
Open Scope Q_scope.

(** C87. What a call adds, in time, are the first accepted points, in order, of the stream of all points offered: no other point, none left out, none
    offered twice, however the rounds cut the stream and whatever would have been offered later. *)
Theorem C87_first_accepted :
  forall P target n timeout e0 tape pick c c',
  (forall x, 0 <= rj_q P x * rj_scaling P) -> rej_importance_sample P target n timeout e0 tape pick c = Done c' ->
  (length (samples c) <= n)%nat -> e0 < timeout -> (forall r, In r tape -> rr_clock r < timeout) ->
  exists used rest, tape = used ++ rest /\ forall later,
    samples c' = samples c ++ firstn (n - length (samples c)) (map fst (filter (fun xu => keepsb target (fun x => rj_q P x * rj_scaling P) (fst xu) (snd xu))
      (offered target (fun x => rj_q P x * rj_scaling P) n (samples c) (map (fun r => (rr_draw r, rr_u r)) used) ++ later))).
Proof. exact first_accepted. Qed.
Print Assumptions C87_first_accepted.
Example C87_first_accepted_example :
  (forall x, 0 <= rj_q exP x * rj_scaling exP) /\ rej_importance_sample exP ex_target 2 60 0 [ex_r1; ex_r2] (fun i => i) core_init = Done ex_c1 /\
  (forall r, In r [ex_r1; ex_r2] -> rr_clock r < 60) /\ length (samples ex_c1) = 2%nat.
Proof.
  split; [intros x; simpl; lra|]. split; [vm_compute; reflexivity|]. split; [|vm_compute; reflexivity].
  intros r [<-|[<-|[]]]; simpl; lra.
Qed.

(** C87. For every finite proposal and every target below scaling times the proposal density, a point is accepted exactly when its unit number is
    below the ratio (an event of that probability), and for every number of offers N and all sets B_1..B_n: the probability that the first n accepted
    points of N independent offers fall into B_1, ..., B_n one after the other, given that there are n, is the product of the target masses of the
    sets: the samples are independent draws from the normalised target. *)
Theorem C87_exact :
  forall (X : Type) (q target : X -> Q) scaling v om, 0 < v -> 0 < scaling ->
  (forall m x, In (m, x) om -> 0 < q x /\ m == q x * v /\ 0 <= target x <= q x * scaling) ->
  fold_right (fun mx s => fst mx + s) 0 om == 1 ->
  let acc x := target x / (q x * scaling) in
  (forall m x, In (m, x) om -> 0 <= acc x <= 1 /\ forall u, 0 <= u < 1 -> (keepsb target (fun x => q x * scaling) x u = true <-> u < acc x)) /\
  forall N sets,
    expect om acc N (fun l => falls_into sets (accepted l)) * Qpow (mass_in om target (fun _ => true)) (length sets) ==
    product (map (mass_in om target) sets) * expect om acc N (fun l => falls_into (map (fun _ => fun _ => true) sets) (accepted l)).
Proof.
  intros X q target scaling v om Hv Hs Hom Ht acc. split.
  - exact (chance X q target scaling v om Hs Hom).
  - exact (exact X q target scaling v om Hs Hom Ht).
Qed.
Print Assumptions C87_exact.

(** C87. One sample is accepted within N offers with probability 1 - (1 - a)^N, where a, the acceptance rate, is the mass of the target over the scaling. *)
Theorem C87_waiting :
  forall (X : Type) (q target : X -> Q) scaling v om, 0 < v -> 0 < scaling ->
  (forall m x, In (m, x) om -> 0 < q x /\ m == q x * v /\ 0 <= target x <= q x * scaling) ->
  fold_right (fun mx s => fst mx + s) 0 om == 1 ->
  forall N, expect om (fun x => target x / (q x * scaling)) N (fun l => falls_into [fun _ => true] (accepted l)) ==
            1 - Qpow (1 - mass_in om target (fun _ => true) * v / scaling) N.
Proof.
  intros X q target scaling v om Hv Hs Hom Ht N. rewrite (waiting X q target scaling v om Hs Hom Ht).
  assert (E : 1 - mass_in om target (fun _ => true) * (v / scaling) == 1 - mass_in om target (fun _ => true) * v / scaling) by (field; lra).
  assert (Y : forall a b n, a == b -> Qpow a n == Qpow b n) by (intros a b n H; induction n as [|n IH]; cbn [Qpow]; [reflexivity|rewrite IH, H; reflexivity]).
  rewrite (Y _ _ N E). reflexivity.
Qed.
Print Assumptions C87_waiting.
(** Three points, the proposal uniform with cells of width 1/2, a target with masses 1/2, 1/4, 1/4. *)
Definition three : list (Q * nat) := [(1 # 3, 0%nat); (1 # 3, 1%nat); (1 # 3, 2%nat)].
Definition three_target (k : nat) : Q := match k with O => 1 | _ => 1 # 2 end.
Example C87_exact_example :
  (forall m x, In (m, x) three -> 0 < 2 # 3 /\ m == (2 # 3) * (1 # 2) /\ 0 <= three_target x <= (2 # 3) * 2) /\
  fold_right (fun mx s => fst mx + s) 0 three == 1 /\
  expect three (fun x => three_target x / ((2 # 3) * 2)) 2 (fun l => falls_into [Nat.eqb 0; Nat.eqb 1] (accepted l)) == 1 # 32 /\
  expect three (fun x => three_target x / ((2 # 3) * 2)) 2 (fun l => falls_into [fun _ => true; fun _ => true] (accepted l)) == 1 # 4.
Proof.
  split; [|split; [vm_compute; reflexivity|split; vm_compute; reflexivity]].
  intros m x [H|[H|[H|[]]]]; injection H as <- <-; simpl; (split; [lra|]; split; [vm_compute; reflexivity|split; vm_compute; discriminate]).
Qed.

(** The constructor takes any scaling. With a target above the envelope at a point the samples do not have the target's law. *)
Theorem C87_low_envelope :
  exists (q target : nat -> Q) scaling v om acc B N, 0 < v /\ 0 < scaling /\
  (forall m x, In (m, x) om -> 0 < q x /\ m == q x * v /\ 0 <= target x) /\ fold_right (fun mx s => fst mx + s) 0 om == 1 /\
  mass_in om target (fun _ => true) * v == 1 /\
  (forall m x, In (m, x) om -> 0 <= acc x <= 1 /\ forall u, 0 <= u < 1 -> (keepsb target (fun x => q x * scaling) x u = true <-> u < acc x)) /\
  ~ expect om acc N (fun l => falls_into [B] (accepted l)) * mass_in om target (fun _ => true) ==
    mass_in om target B * expect om acc N (fun l => falls_into [fun _ => true] (accepted l)).
Proof.
  exists (fun _ => 1 # 2), (fun k => match k with O => 3 # 4 | _ => 1 # 4 end), 1, 1, [(1 # 2, 0%nat); (1 # 2, 1%nat)],
         (fun k => match k with O => 1 | _ => 1 # 2 end), (Nat.eqb 0), 1%nat.
  split; [lra|]. split; [lra|]. split.
  { intros m x [H|[H|[]]]; injection H as <- <-; simpl; (split; [lra|]; split; [vm_compute; reflexivity|lra]). }
  split; [vm_compute; reflexivity|]. split; [vm_compute; reflexivity|]. split; [|vm_compute; discriminate].
  intros m x [H|[H|[]]]; injection H as <- <-; cbn -[Qle_bool Qmult Qdiv]; (split; [split; lra|]); intros u Hu;
    unfold keepsb; rewrite negb_true_iff, <- not_true_iff_false, Qle_bool_iff; split; intros A; try lra; try (intros C; lra).
Qed.
Print Assumptions C87_low_envelope.
