(** C14: Monte-Carlo integral of the base class. *)
From Coq Require Import List Bool Arith Lia QArith Lqa.
Import ListNotations.
From Verif Require Import Prelude.Py Prelude.QBase Prelude.QFacts Model.DistBase Spec.Box Spec.UniformSpec.
Open Scope Q_scope.

Lemma np_max_spec l : l <> [] -> exists h, np_max l = Ok h /\ In h l /\ forall x, In x l -> x <= h.
Proof.
  destruct l as [|x l]; [congruence|]. intros _. exists (fold_left qmax l x). split; [reflexivity|].
  revert x. induction l as [|y l IH]; intros x; simpl.
  - split; [now left|]. intros z [->|[]]. apply Qle_refl.
  - destruct (IH (qmax x y)) as [I M]. split.
    + destruct I as [E|I]; [|now right; right]. rewrite <- E. unfold qmax. destruct (Qle_bool x y); auto.
    + intros z Z. assert (B : qmax x y <= fold_left qmax l (qmax x y)) by (apply M; now left).
      unfold qmax in B at 1. destruct (Qle_bool_spec x y) as [L|L]; destruct Z as [->|[->|Z]]; try lra; apply M; now right.
Qed.

Lemma volume_sides a b : is_box a b -> Qprod (map2 Qminus b a) == volume a b /\ 0 <= volume a b.
Proof.
  revert b. induction a as [|x a IH]; intros [|y b] H; simpl in *; try tauto; try (split; lra).
  destruct H as [L H]. destruct (IH b H) as [E N]. rewrite E. split; [ring|]. apply Qmult_le_0_compat; lra.
Qed.

Lemma filter_len {A : Type} (p : A -> bool) l : (length (filter p l) <= length l)%nat.
Proof. induction l; simpl; [lia|]. destruct (p a); simpl; lia. Qed.

(** Whatever the sampled points and heights: the estimate exists, is not negative and is at most the
    volume of the box times any bound of the density at the sampled points. *)
Theorem C14_estimate_bounded : forall prob a b xs us M,
  is_box a b -> xs <> [] -> (forall x, In x xs -> 0 <= prob x <= M) ->
  exists r, mc_integral prob a b xs us = Ok r /\ 0 <= r /\ r <= volume a b * M.
Proof.
  intros prob a b xs us M B N P. destruct (np_max_spec (map prob xs)) as (h & E & I & _).
  { destruct xs; [congruence|discriminate]. }
  unfold mc_integral. rewrite E. cbn [bind]. eexists. split; [reflexivity|].
  apply in_map_iff in I. destruct I as (x & EX & I). specialize (P x I). rewrite EX in P.
  destruct (volume_sides a b B) as [V VN]. rewrite V.
  set (hits := length _). assert (H : (hits <= length xs)%nat).
  { unfold hits. eapply Nat.le_trans; [apply filter_len|]. rewrite combine_length, !map_length, seq_length. lia. }
  clearbody hits. assert (LP : (0 < length xs)%nat) by (destruct xs; [congruence|simpl; lia]).
  apply Qnat_pos in LP. apply Qnat_le in H. pose proof (Qnat_nonneg hits) as HN.
  set (n := Qnat (length xs)) in *. set (k := Qnat hits) in *. clearbody n k. set (v := volume a b) in *. clearbody v.
  assert (F : 0 <= k / n <= 1).
  { split; [apply Qle_shift_div_l; lra|apply Qle_shift_div_r; lra]. }
  set (f := k / n) in *. clearbody f. assert (0 <= v * h) by (apply Qmult_le_0_compat; lra). split; nra.
Qed.

(** A density constant on the box is integrated exactly, for every random outcome. *)
Theorem C14_constant_exact : forall prob a b xs us c,
  is_box a b -> xs <> [] -> 0 <= c -> (forall x, In x xs -> prob x == c) -> (forall i, 0 <= us i < 1) ->
  exists r, mc_integral prob a b xs us = Ok r /\ r == volume a b * c.
Proof.
  intros prob a b xs us c B N C P U. destruct (np_max_spec (map prob xs)) as (h & E & I & _).
  { destruct xs; [congruence|discriminate]. }
  unfold mc_integral. rewrite E. cbn [bind]. eexists. split; [reflexivity|].
  apply in_map_iff in I. destruct I as (x & EX & I). pose proof (P x I) as PX. rewrite EX in PX.
  destruct (volume_sides a b B) as [V VN]. rewrite V.
  assert (A : forall l k, (forall y, In y l -> prob y == c) ->
    length (filter (fun pu => Qle_bool (h * snd pu) (fst pu)) (combine (map prob l) (map us (seq k (length l))))) = length l).
  { induction l as [|y l IH]; intros k Y; [reflexivity|]. simpl. destruct (Qle_bool_spec (h * us k) (prob y)) as [L|L].
    - simpl. rewrite IH; [reflexivity|]. intros. apply Y. now right.
    - exfalso. apply L. rewrite (Y y) by now left. rewrite PX. pose proof (U k). nra. }
  rewrite A by exact P. rewrite PX.
  assert (LP : (0 < length xs)%nat) by (destruct xs; [congruence|simpl; lia]). apply Qnat_pos in LP.
  field. lra.
Qed.

Example C14_example : is_box [0; 0] [2; 3] /\ [[1; 1]; [0; 2]] <> (@nil vec) /\ (forall x : vec, In x [[1; 1]; [0; 2]] -> 0 <= nth 0 x 0 <= 1) /\
  (forall x : vec, In x [[1; 1]; [0; 2]] -> 1#3 == 1#3) /\ (forall i : nat, 0 <= 1#2 < 1).
Proof.
  split; [simpl; lra|]. split; [discriminate|]. split; [|split; intros; lra].
  intros x [<-|[<-|[]]]; simpl; lra.
Qed.

Print Assumptions C14_estimate_bounded.
Print Assumptions C14_constant_exact.
