(** Property C116: nonparametric densities. *)
From Coq Require Import List Bool Arith Lia QArith Lqa.
Import ListNotations.
From Verif Require Import Prelude.Py Prelude.QBase Prelude.QFacts Model.Base Model.Nonparametric Spec.NonparametricSpec.
Open Scope Q_scope.

Lemma sqdist_dist2 x : forall y, sqdist x y == dist2 x y.
Proof. unfold sqdist. induction x as [|a x IH]; intros [|b y]; simpl; try reflexivity. rewrite <- IH. reflexivity. Qed.
Lemma closest_nearest g x : g <> [] -> nearest g x (closest g x).
Proof.
  induction g as [|a r IH]; intros Ne; [congruence|]. destruct r as [|b r]; [exists a; split; [reflexivity|]; intros q [<-|[]]; apply Qle_refl|].
  destruct (IH ltac:(discriminate)) as (p & Ep & H). change (closest (a :: b :: r) x) with (let k := closest (b :: r) x in if Qltb (sqdist (nth k (b :: r) []) x) (sqdist a x) then S k else 0%nat). cbv zeta.
  rewrite (nth_error_nth _ _ [] Ep). destruct (Qltb (sqdist p x) (sqdist a x)) eqn:E.
  - apply Qltb_true in E. rewrite !sqdist_dist2 in E. exists p. split; [exact Ep|]. intros q [<-|I]; [lra|now apply H].
  - apply Qltb_false in E. rewrite !sqdist_dist2 in E. exists a. split; [reflexivity|]. intros q [<-|I]; [lra|]. specialize (H q I). lra.
Qed.
(** * Nearest neighbour *)
(** Full statement: an object can be built; prob(x) is the weight of the nearest sample; sample(n) returns n samples. Where the
    object can be built at all (the module's variable is the same array), log_prob(x) is the weight of a nearest sample. *)
Theorem C116_neighbour_partial samples weights s x : samples <> [] -> length weights = length samples -> nn_new (Some samples) samples weights = Ok s ->
  exists i w, nn_log_prob s x = Ok w /\ nth_error weights i = Some w /\ nearest samples x i.
Proof.
  intros Ne L E. destruct samples as [|a r]; [congruence|]. injection E as <-. pose proof (closest_nearest (a :: r) x Ne) as N. unfold nn_log_prob. cbn [nn_weights nn_tree].
  destruct N as (p & Ep & H). destruct (nth_error weights (closest (a :: r) x)) as [w|] eqn:Ew.
  - exists (closest (a :: r) x), w. split; [reflexivity|]. split; [exact Ew|]. exists p. auto.
  - apply nth_error_None in Ew. assert ((closest (a :: r) x < length (a :: r))%nat) by (apply nth_error_Some; intros Z; pose proof (eq_trans (eq_sym Ep) Z); discriminate). simpl in *. lia.
Qed.
Print Assumptions C116_neighbour_partial.
Example C116_neighbour_example : exists s, nn_new (Some [[0]; [1]; [3]]) [[0]; [1]; [3]] [1 # 2; 1 # 4; 1 # 4] = Ok s /\ nn_log_prob s [3 # 4] = Ok (1 # 4).
Proof. eexists. split; [reflexivity|]. vm_compute. reflexivity. Qed.
(** Imported as a library, no object can be built, whatever the arguments. *)
Theorem C116_import_refuted : forall samples weights, exists e, nn_new None samples weights = Raise e.
Proof. intros [|a r] w; eexists; reflexivity. Qed.
Print Assumptions C116_import_refuted.
(** When the module has a variable samples, the tree is built from it and not from the samples given: the value may belong to another point. *)
Theorem C116_neighbour_refuted : exists global samples weights s x w, length weights = length samples /\ nn_new (Some global) samples weights = Ok s /\ nn_log_prob s x = Ok w /\
  forall i, nearest samples x i -> nth_error weights i <> Some w.
Proof.
  exists [[1]; [0]], [[0]; [1]], [1 # 4; 3 # 4]. eexists. exists [0], (3 # 4). split; [reflexivity|]. split; [reflexivity|]. split; [vm_compute; reflexivity|].
  intros i (p & E & H) W. destruct i as [|[|i]]; [discriminate W| |destruct i; discriminate W]. injection E as <-. specialize (H [0] ltac:(left; reflexivity)). vm_compute in H. apply H. reflexivity.
Qed.
Print Assumptions C116_neighbour_refuted.
(** A request gets as many rows as there are weights, not as many as were asked for; all are stored samples. *)
Lemma take_length l idxs : forall rows, take_rows l idxs = Ok rows -> length rows = length idxs /\ forall x, In x rows -> In x l.
Proof.
  induction idxs as [|i r IH]; intros rows H; simpl in H; [injection H as <-; split; [reflexivity|intros x []]|]. destruct (nth_error l i) as [x|] eqn:E; [|discriminate].
  destruct (take_rows l r) as [xs|e]; [|discriminate]. injection H as <-. destruct (IH xs eq_refl) as (A & B). split; [simpl; now rewrite A|]. intros y [<-|I]; [eapply nth_error_In; eauto|auto].
Qed.
Theorem C116_rows_partial s n counts rows : drawn n (length (nn_weights s)) counts -> nn_sample s counts = Ok rows ->
  length rows = length (nn_weights s) /\ forall x, In x rows -> In x (nn_samples s).
Proof. intros (L & _) H. destruct (take_length _ _ _ H) as (A & B). split; [congruence|exact B]. Qed.
Print Assumptions C116_rows_partial.
Theorem C116_rows_refuted : exists s n counts rows, nn_new (Some [[0]; [1]; [3]]) [[0]; [1]; [3]] [1 # 2; 1 # 4; 1 # 4] = Ok s /\ drawn n 3 counts /\ nn_sample s counts = Ok rows /\ length rows <> n.
Proof. eexists. exists 1%nat, [1; 0; 0]%nat. eexists. split; [reflexivity|]. split; [split; reflexivity|]. split; [vm_compute; reflexivity|discriminate]. Qed.
Print Assumptions C116_rows_refuted.
(** An object with one sample refuses every request. *)
Theorem C116_single_refuted : forall x w g s n counts, nn_new g [x] [w] = Ok s -> (0 < n)%nat -> drawn n 1 counts -> nn_sample s counts = Raise IndexError.
Proof.
  intros x w g s n counts E N (L & F). destruct g as [g|]; [|discriminate]. injection E as <-. destruct counts as [|c [|? ?]]; try discriminate. simpl in F. unfold nn_sample. simpl.
  destruct c as [|c]; [simpl in F; lia|]. simpl. destruct c; reflexivity.
Qed.
Print Assumptions C116_single_refuted.
Example C116_single_example : exists s, nn_new (Some [[0]]) [[0]] [1] = Ok s /\ drawn 1 1 [1%nat].
Proof. eexists. split; [reflexivity|]. split; reflexivity. Qed.

(** * Kernel density: no object can be built, whatever the arguments. *)
Theorem C116_kernel_refuted : forall samples weights callable, exists e, kde_new samples weights callable = Raise e.
Proof. intros [|a r] w [|]; eexists; reflexivity. Qed.
Print Assumptions C116_kernel_refuted.
