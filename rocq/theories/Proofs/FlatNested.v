(** Nested sampling, rejection and the chains of layered AIS on a constant target. *)
From Coq Require Import List Bool Arith Lia QArith Lqa.
Import ListNotations.
From Verif Require Import Prelude.Py Prelude.QBase Prelude.QFacts Model.Base Model.Nested Spec.Box Spec.FlatSpec Proofs.MHProofs Proofs.NestedProofs.
From Verif Require Import Proofs.NestedHistory.
Open Scope Q_scope.

Lemma argmin_flat c : forall l best i j, best == c -> Forall (fun v => v == c) l -> argmin_from l best i j = i.
Proof.
  induction l as [|x l IH]; intros best i j B F; simpl; auto. inversion F as [|? ? F1 F2]; subst.
  destruct (Qltb_spec x best); [lra|]. apply IH; auto.
Qed.
Lemma argminQ_flat c l : Forall (fun v => v == c) l -> argminQ l = 0%nat.
Proof. destruct l as [|x l]; auto. intros F. inversion F; subst. apply (argmin_flat c); auto. Qed.
Lemma map_nth_seq (l : list Q) : map (fun i => nth i l 0) (seq 0 (length l)) = l.
Proof. induction l as [|x l IH]; simpl; auto. rewrite <- seq_shift, map_map. simpl. now rewrite IH. Qed.

Lemma clip1_forced a b l h : l <= h -> a == b -> forced l h a (clip1 b l h).
Proof.
  intros B E. unfold forced, clip1, qmin, qmax. destruct (Qle_bool b l) eqn:E1; [apply Qle_bool_iff in E1|apply Qle_bool_false in E1];
    match goal with |- context [Qle_bool ?u ?v] => destruct (Qle_bool u v) eqn:E2; [apply Qle_bool_iff in E2|apply Qle_bool_false in E2] end; repeat split; intros; lra.
Qed.
Lemma clip_moved : forall lo hi x e z, is_box lo hi -> length x = length lo -> length e = length lo -> length z = length lo ->
  (forall i, nth i z 0 == nth i x 0 + nth i e 0) -> moved lo hi x e (vclip z lo hi).
Proof.
  induction lo as [|l lo IH]; intros [|h hi] [|a x] [|e0 e] [|b z]; simpl; try tauto; try discriminate.
  intros (B1 & B2) E1 E2 E3 H. split; [apply clip1_forced; auto; symmetry; apply (H 0%nat)|]. apply IH; auto. intros i. apply (H (S i)).
Qed.
Lemma vadd_nth : forall x e, length x = length e -> forall i, nth i (vadd x e) 0 == nth i x 0 + nth i e 0.
Proof.
  unfold vadd. induction x as [|a x IH]; intros [|e0 e]; simpl; try discriminate; intros L [|i]; simpl; try lra. apply IH. auto.
Qed.
Lemma moved_in lo : forall hi x e y, is_box lo hi -> moved lo hi x e y -> in_box lo hi y.
Proof.
  induction lo as [|l lo IH]; intros [|h hi] [|a x] [|e0 e] [|b y]; simpl; try tauto. intros (B1 & B2) ((F1 & F2 & F3) & M).
  split; [|split; [|eapply IH; eauto]]; (destruct (Qlt_le_dec (a + e0) l) as [A|A]; [rewrite (F1 A); lra|destruct (Qlt_le_dec h (a + e0)) as [C|C]; [rewrite (F2 C); lra|rewrite (F3 A C); lra]]).
Qed.

Section Flat.
Variable P : ns_params.
Hypothesis BX : is_box (ns_lo P) (ns_hi P).
Variable N : nat.
Let inb := in_box (ns_lo P) (ns_hi P).

Definition settled (s : nst) : Prop := Forall inb (ns_live s) /\ length (ns_live s) = S N.

(** One turn: the first candidate replaces live point 0. *)
Lemma flat_turn (pi : vec -> Q) c timeout ev s values : flat (ns_lo P) (ns_hi P) c pi -> repl_ok (length (ns_lo P)) ev -> settled s ->
  length values = S N -> Forall (fun v => v == c) values ->
  exists s' y, ns_iter P pi timeout (seq 0 (S N)) nested_cand true ev s values = (Done s', upd values 0 (pi y)) /\ inb y /\
    ns_live s' = y :: tl (ns_live s) /\ ns_q_samples s' = S (ns_q_samples s) /\ ns_pi_evals s' = S (ns_pi_evals s) /\
    moved (ns_lo P) (ns_hi P) (nth (rp_pick ev mod S N) (ns_live s) []) (rp_first ev) y /\
    length (ns_samples s') = S (length (ns_samples s)).
Proof.
  intros F (R1 & _) (L & LN) V FV.
  assert (E1 : map (fun i => nth i values 0) (seq 0 (S N)) = values) by (rewrite <- V; apply map_nth_seq).
  set (y := vclip (nested_cand s ev (rp_first ev)) (ns_lo P) (ns_hi P)).
  assert (Pk : length (nth (rp_pick ev mod S N) (ns_live s) []) = length (ns_lo P)) by (rewrite <- LN; apply nth_live_length; auto; lia).
  assert (Y : inb y).
  { apply vclip_in_box; auto. unfold nested_cand. rewrite LN. rewrite NestedHistory.vadd_length; lia. }
  unfold ns_iter. change (seq 0 (S N)) with (0%nat :: seq 1 N). cbv iota beta zeta. change (0%nat :: seq 1 N) with (seq 0 (S N)).
  rewrite E1, (argminQ_flat c values FV). change (nth 0 (seq 0 (S N)) 0%nat) with 0%nat. fold y.
  assert (NV : nth 0 values 0 == c). { destruct values as [|v vs]; [discriminate|]. inversion FV; auto. }
  assert (SR : ns_search pi (nested_cand s ev) (nth 0 values 0) timeout true (rp_redraws ev) y 0 = (Some y, [])).
  { destruct (rp_redraws ev) as [|(dd, t) r]; cbn [ns_search]; (destruct (Qltb_spec (pi y) (nth 0 values 0)) as [A|A]; [pose proof (F y Y); lra|reflexivity]). }
  rewrite SR.
  assert (AP : ns_live (ns_append 0 (nth 0 values 0) s) = ns_live s /\ ns_q_samples (ns_append 0 (nth 0 values 0) s) = ns_q_samples s /\
     ns_pi_evals (ns_append 0 (nth 0 values 0) s) = ns_pi_evals s).
  { unfold ns_append. destruct (ns_samples s); auto. }
  destruct AP as (A1 & A2 & A3).
  eexists _, y. split; [reflexivity|]. simpl. rewrite A1, A2, A3.
  split; auto. split; [destruct (ns_live s); [discriminate|reflexivity]|]. split; [lia|]. split; [lia|]. split.
  - unfold y, nested_cand. rewrite LN. apply clip_moved; auto.
    + rewrite NestedHistory.vadd_length; lia.
    + intros i. rewrite vadd_nth by lia. apply Qplus_comm.
  - unfold ns_append, ns_samples at 1. destruct (ns_samples s) as [|r0 rs] eqn:SS; simpl; [|rewrite app_length]; simpl; lia.
Qed.

Lemma upd0 {A} (l : list A) y k : length l = S k -> upd l 0 y = y :: tl l.
Proof. destruct l; [discriminate|reflexivity]. Qed.

Lemma flat_for (pi : vec -> Q) c timeout : flat (ns_lo P) (ns_hi P) c pi -> forall m tape s values, Forall (repl_ok (length (ns_lo P))) tape -> settled s ->
  length values = S N -> Forall (fun v => v == c) values ->
  exists o v t, ns_for P pi timeout (seq 0 (S N)) nested_cand true m tape s values = (o, v, t) /\ (forall e s', o <> Failed e s') /\
    settled (out_state o) /\ tl (ns_live (out_state o)) = tl (ns_live s) /\
    (forall s', o = Done s' -> ns_q_samples s' = (ns_q_samples s + m)%nat /\ ns_pi_evals s' = (ns_pi_evals s + m)%nat) /\
    ((m <= length tape)%nat -> exists s', o = Done s').
Proof.
  intros F. induction m as [|m IH]; intros tape s values R Hs V FV.
  - exists (Done s), values, tape. cbn [ns_for out_state]. split; [reflexivity|]. split; [discriminate|]. split; auto. split; auto. split; [|eauto].
    intros s' E. inversion E; subst. lia.
  - destruct tape as [|ev t].
    + exists (Running s), values, []. cbn [ns_for out_state]. split; [reflexivity|]. split; [discriminate|]. split; auto. split; auto. split; [discriminate|]. simpl; lia.
    + inversion R as [|? ? R1 R2]; subst. destruct (flat_turn pi c timeout ev s values F R1 Hs V FV) as (s1 & y & E & Y & L & Q1 & Q2 & _).
      cbn [ns_for]. rewrite E.
      destruct (IH t s1 (upd values 0 (pi y)) R2) as (o & v & t' & E' & NF & S' & T' & D & C).
      * destruct Hs as (H1 & H2). split; rewrite L; [|simpl; destruct (ns_live s); [discriminate|simpl in *; lia]].
        constructor; auto. destruct (ns_live s); [constructor|]. now inversion H1.
      * rewrite upd_length. auto.
      * apply forall_upd; auto.
      * exists o, v, t'. split; [exact E'|]. split; auto. split; auto. rewrite L in T'. simpl in T'. split; auto. split; [|simpl; intros; apply C; lia].
        intros s' Eo. destruct (D s' Eo). lia.
Qed.

(** A call. *)
Lemma flat_call (pi : vec -> Q) c n timeout tape pick s : flat (ns_lo P) (ns_hi P) c pi -> Forall (repl_ok (length (ns_lo P))) tape -> settled s ->
  let o := nested_call P pi n timeout tape pick s in
  settled (out_state o) /\ tl (ns_live (out_state o)) = tl (ns_live s) /\
  (forall s', (o = Done s' \/ exists e, o = Failed e s') -> ns_q_samples s' = (ns_q_samples s + (n - length (ns_samples s)))%nat /\
     ns_pi_evals s' = (ns_pi_evals s + length (ns_live s) + (n - length (ns_samples s)))%nat) /\
  ((n - length (ns_samples s) <= length tape)%nat -> forall s', o <> Running s').
Proof.
  intros F R Hs. unfold nested_call. rewrite (proj2 Hs).
  destruct (flat_for pi c timeout F (n - length (ns_samples s)) tape (ns_begin s) (map pi (ns_live s)) R) as (o & v & t & E & NF & S' & T' & D & C).
  - exact Hs.
  - rewrite map_length. apply Hs.
  - rewrite Forall_map. eapply Forall_impl; [|apply Hs]. intros x Hx. apply F, Hx.
  - cbv zeta. rewrite E. destruct o as [s1|s1|e s1].
    + destruct (D s1 eq_refl) as (D1 & D2). simpl in S', T', D1, D2. rewrite (proj2 Hs) in D2.
      assert (G : same_core s1 (out_state (ns_finish P pick s1)) /\ ns_q_samples (out_state (ns_finish P pick s1)) = ns_q_samples s1 /\ (forall s', ns_finish P pick s1 <> Running s')).
      { unfold ns_finish. destruct (ns_samples s1); [|destruct (update_model _ _ _)]; (split; [repeat split|split; [reflexivity|discriminate]]). }
      destruct G as ((G1 & _ & _ & _ & G5 & _) & G2 & G3). split; [unfold settled; rewrite G1; exact S'|]. split; [rewrite G1; exact T'|]. split; [|intros _; exact G3].
      intros s' [X|(e & X)]; rewrite X in G2, G5; simpl in G2, G5; lia.
    + split; auto. split; auto. split; [intros s' [X|(e & X)]; discriminate|]. intros H. destruct (C H) as (s' & X). discriminate.
    + exfalso. apply (NF e s1). reflexivity.
Qed.
End Flat.

(** Operations on constant targets, without a reset. *)
Definition flat_ns (P : ns_params) (o : ns_op) : Prop :=
  match o with NsCall pi _ _ _ _ => exists c, flat (ns_lo P) (ns_hi P) c pi | NsReset _ => False | _ => True end.

Lemma flat_reach P us N : is_box (ns_lo P) (ns_hi P) -> start_ok P us -> ns_N P = S N -> forall ops s, Forall (ns_op_ok P) ops -> Forall (flat_ns P) ops ->
  nested_reachable P us ops s -> settled P N s /\ tl (ns_live s) = tl (ns_live (ns_new P us)).
Proof.
  intros BX (S1 & S2 & S3) EN ops s OK FL R. induction R as [|o ops s s' R IH H].
  - split; auto. split; [apply (confined_new P us BX S3)|]. simpl. rewrite map_length. lia.
  - inversion OK as [|? ? OK1 OK2]; subst. inversion FL as [|? ? FL1 FL2]; subst. destruct (IH OK2 FL2) as (I1 & I2).
    destruct (run_state _ _ _ _ H) as (-> & _). clear H. destruct o as [pi n timeout tape pick|pick m|pick|us']; cbn [nested_run]; simpl in OK1, FL1; [|..|tauto].
    + destruct FL1 as (c & F). destruct (flat_call P BX N pi c n timeout tape pick s F OK1 I1) as (A & B & _). split; auto. congruence.
    + destruct (sample_same P pick m s) as (s' & -> & (A & _)). simpl. unfold settled. rewrite A. auto.
    + destruct (query_same P pick s) as (s' & -> & (A & _)). simpl. unfold settled. rewrite A. auto.
Qed.
