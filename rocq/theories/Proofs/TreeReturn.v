(** What _get_samples returns. *)
From Coq Require Import List Bool Arith Lia QArith Lqa Permutation.
Import ListNotations.
From Verif Require Import Prelude.Py Prelude.QBase Prelude.QFacts Model.Population Model.Tree Model.TreeSampler Spec.TreeSpec
  Proofs.TreeCells Proofs.TreeProofs Proofs.TreeMask Proofs.TreeSamplerTree Proofs.TreeSamplerInv Proofs.TreeSamplerLeaves Proofs.TreeResample
  Proofs.TreeDensity.
Open Scope Q_scope.

Lemma write_leaves_single {A : Type} (hs : list (list A)) : forall pre rest, Forall (fun h => length h = 1%nat) hs -> length rest = length (concat hs) ->
  write_leaves (pre ++ rest) (length pre) hs = pre ++ concat hs.
Proof.
  induction hs as [|h hs IH]; intros pre rest F L; simpl in *; [destruct rest; [auto|discriminate]|].
  inversion F as [|? ? H1 H2]; subst. destruct h as [|a [|]]; try discriminate. simpl in *. destruct rest as [|b rest]; [discriminate|]. simpl in L.
  assert (E : upd (pre ++ b :: rest) (length pre) a = (pre ++ [a]) ++ rest).
  { clear. induction pre; simpl; [reflexivity|]. rewrite IHpre. reflexivity. }
  rewrite E. specialize (IH (pre ++ [a]) rest H2 ltac:(lia)). rewrite app_length in IH. simpl in IH. rewrite Nat.add_1_r in IH. rewrite IH, <- app_assoc. reflexivity.
Qed.
Lemma write_at_length {A : Type} vals : forall (l : list A) i, length (write_at l i vals) = length l.
Proof. induction vals; intros; simpl; auto. rewrite IHvals. apply upd_length. Qed.
Lemma write_leaves_length {A : Type} hs : forall (l : list A) i, length (write_leaves l i hs) = length l.
Proof. induction hs; intros; simpl; auto. rewrite IHhs. apply write_at_length. Qed.
Lemma upd_in {A : Type} (l : list A) : forall i a y, In y (upd l i a) -> y = a \/ In y l.
Proof.
  induction l as [|x l IH]; intros [|i] a y H; simpl in *; try tauto.
  - destruct H; auto.
  - destruct H as [H|H]; auto. destruct (IH _ _ _ H); auto.
Qed.
Lemma write_at_in {A : Type} vals : forall (l : list A) i y, In y (write_at l i vals) -> In y vals \/ In y l.
Proof.
  induction vals as [|v vals IH]; intros l i y H; simpl in *; auto. destruct (IH _ _ _ H) as [G|G]; auto. apply upd_in in G. destruct G; auto.
Qed.
Lemma write_leaves_in {A : Type} hs : forall (l : list A) i y, In y (write_leaves l i hs) -> In y (concat hs) \/ In y l.
Proof.
  induction hs as [|h hs IH]; intros l i y H; simpl in *; auto. rewrite in_app_iff. destruct (IH _ _ _ H) as [G|G]; auto. apply write_at_in in G. tauto.
Qed.
Lemma filter_le {A : Type} (f : A -> bool) l : (length (filter f l) <= length l)%nat.
Proof. induction l; simpl; auto. destruct (f a); simpl; lia. Qed.
Lemma leaf_histories_F2 t refs : forall hs, leaf_histories t refs = Ok hs <->
  Forall2 (fun i h => exists n, nth_error (t_nodes t) i = Some n /\ n_hist n = HList h) refs hs.
Proof.
  induction refs as [|i refs IH]; intros hs; simpl.
  - split; [intros E; inversion E; constructor|intros F; inversion F; auto].
  - split.
    + destruct (nth_error (t_nodes t) i) as [n|] eqn:En; [|discriminate]. destruct (n_hist n) as [| |l] eqn:El; try discriminate.
      destruct (leaf_histories t refs) as [ls|] eqn:Eh; [|discriminate]. simpl. intros E. inversion E; subst. constructor; eauto. apply IH. auto.
    + intros F. inversion F as [|? h ? hs' (n & E1 & E2) F']; subst. apply IH in F'. rewrite E1, E2, F'. reflexivity.
Qed.

(** Whatever the histories, a returned row is a leaf's sample of positive weight, or, in the other mode, a cached one. *)
Lemma returned_rows P t e l : p_ess P = Some e -> e <= 1 -> get_samples P t = Ok l ->
  exists hs, Forall2 (fun i h => exists n, nth_error (t_nodes t) i = Some n /\ n_hist n = HList h) (t_leaves t) hs /\
    (forall y v, In (y, v) l -> In (y, v) (concat hs) /\ fgtQ v 0 = true) /\ (length l <= length (concat hs))%nat /\
    (Forall (fun h => length h = 1%nat) hs -> l = filter (fun xw => fgtQ (snd xw) 0) (concat hs)).
Proof.
  intros E L G. unfold get_samples in G. rewrite E in G. destruct (Qltb_spec 1 e) as [X|X]; [lra|].
  destruct (leaf_histories t (t_leaves t)) as [hs|] eqn:Eh; [|discriminate]. simpl in G. inversion G as [G']. exists hs. apply leaf_histories_F2 in Eh. csplit; auto.
  - intros y v H. apply filter_In in H. destruct H as (H & Pv). split; auto. apply write_leaves_in in H. destruct H as [H|H]; auto.
    apply repeat_spec in H. inversion H; subst. simpl in Pv. apply Qltb_true in Pv. lra.
  - etransitivity; [apply filter_le|]. rewrite write_leaves_length, repeat_length. lia.
  - intros F. f_equal. apply (write_leaves_single hs [] (repeat (repeat 0 (p_dims P), Fin 0) (length (concat hs))) F). apply repeat_length.
Qed.
Lemma get_samples1 P s : p_ess P <> None -> settled1 P s -> exists l, get_samples P (s_tree s) = Ok l.
Proof.
  intros Es S. apply (get_samples_ok P (fun _ => 0) (whole_cell P) (Q1 P) (fun _ => False) (Q1_hist P)); auto. intros n u _ [].
Qed.
