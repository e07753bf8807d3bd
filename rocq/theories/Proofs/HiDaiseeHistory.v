(** Histories of the HiDaisee sampler. *)
From Coq Require Import List Bool Arith Lia QArith Lqa Permutation.
Import ListNotations.
From Verif Require Import Prelude.Py Prelude.QBase Prelude.QFacts Prelude.ListFacts Model.Uniform Model.HiDaisee Spec.UniformSpec Spec.SplitSpec
  Proofs.UniformProofs Proofs.HiDaiseeBox Proofs.HiDaiseeProofs.
Open Scope Q_scope.

(** Targets of the calls of a history; the split dimensions drawn by its calls are dimensions. *)
Definition called_with (ops : list (hd_op * bool)) (pi : vec -> Q) : Prop := exists n rds b, In (HdCall pi n rds, b) ops.
Definition dim_ok (d : nat) (rds : nat -> hround) : Prop := forall t, (hr_dim (rds t) < d)%nat.
Definition dims_ok (d : nat) (ops : list (hd_op * bool)) : Prop := forall pi n rds b, In (HdCall pi n rds, b) ops -> dim_ok d rds.

Lemma hinv_weaken d w (p p' : (vec -> Q) -> Prop) t : (forall f, p f -> p' f) -> hinv d w p t -> hinv d w p' t.
Proof.
  intros H [I1 I2 I3 I4 I5]. constructor; auto. intros i n x v Hi E Hx. destruct (I5 i n x v Hi E Hx) as (A & f & B & C). split; auto. exists f. auto.
Qed.

Lemma new_radii lo hi : corners lo hi -> radii_ok (map2 (fun h l => (h + l) / 2) hi lo) (map2 (fun h l => (h - l) / 2) hi lo).
Proof. induction 1 as [|l h lo hi H _ IH]; simpl; auto. split; auto. apply Qlt_shift_div_l; lra. Qed.
Lemma new_box lo hi x : length lo = length hi -> (inside (box (map2 (fun h l => (h + l) / 2) hi lo) (map2 (fun h l => (h - l) / 2) hi lo)) x <-> inside (lo, hi) x).
Proof.
  unfold inside, box. simpl. revert hi x. induction lo as [|l lo IH]; intros [|h hi] x L; simpl in L; try discriminate; [reflexivity|].
  destruct x as [|a x]; cbn -[Qmult Qdiv Qminus Qplus]; [reflexivity|]. rewrite IH by lia. 
  setoid_replace ((h + l) / 2 - (h - l) / 2) with l by field. setoid_replace ((h + l) / 2 + (h - l) / 2) with h by field. reflexivity.
Qed.
Lemma new_volume lo hi : length lo = length hi -> box_volume (box (map2 (fun h l => (h + l) / 2) hi lo) (map2 (fun h l => (h - l) / 2) hi lo)) == box_volume (lo, hi).
Proof.
  intros L. rewrite box_vol by (rewrite !map2_length; auto). unfold box_volume. simpl. revert hi L. induction lo as [|l lo IH]; intros [|h hi] L; simpl in *; try discriminate; [reflexivity|].
  rewrite IH by lia. field.
Qed.
Lemma new_hinv lo hi pis : corners lo hi -> hinv (length lo) (lo, hi) pis (htree_new lo hi).
Proof.
  intros C. pose proof (corners_length _ _ C) as L. pose proof (new_radii lo hi C) as R. constructor; simpl.
  - intros [|[|i]] n E; simpl in E; try discriminate. inversion E; subst. simpl. split; auto. rewrite map2_length; lia.
  - intros i [<-|[]]. lia.
  - split; [repeat constructor; simpl; tauto|]. split; [|split; [|split]].
    + intros x. rewrite <- (new_box lo hi x L). split; [intros H; exists 0%nat; split; [left; auto|exact H]|intros (i & [<-|[]] & H); exact H].
    + intros i j x [<-|[]] [<-|[]] _ _. auto.
    + intros i [<-|[]]. apply radii_corners. auto.
    + simpl. unfold bx. simpl. unfold nbox. simpl. rewrite (new_volume lo hi L). ring.
  - apply rooted_leaf. left. auto.
  - intros i n x w [<-|[]] E H. inversion E; subst. destruct H.
Qed.

Section Hist.
Variable P : hd_params.
Hypothesis C : corners (hp_lo P) (hp_hi P).
Let d := length (hp_lo P).
Let whole := (hp_lo P, hp_hi P).

Lemma turns_spec pi rds (pis : (vec -> Q) -> Prop) : pis pi -> dim_ok d rds -> forall k t s, hinv d whole pis (hs_tree s) ->
  (exists s' xs, hd_turns P pi rds t k s = Done s' /\ hinv d whole pis (hs_tree s') /\ hs_samples s' = hs_samples s /\ hs_draws s' = (hs_draws s + k)%nat /\
     length xs = k /\ Permutation (map fst (hd_rows (hs_tree s'))) (xs ++ map fst (hd_rows (hs_tree s)))) \/
  (exists e s' xs, hd_turns P pi rds t k s = Failed e s' /\ hinv d whole pis (hs_tree s') /\ hs_samples s' = hs_samples s /\ (length xs <= k)%nat /\
     Permutation (map fst (hd_rows (hs_tree s'))) (xs ++ map fst (hd_rows (hs_tree s)))).
Proof.
  intros Hpi Hd. induction k as [|k IH]; intros t s I; simpl.
  - left. exists s, []. csplit; auto; lia.
  - destruct (turn_spec d whole pis P pi t (rds t) s I (Hd t) Hpi) as (path & i & n & _ & _ & _ & [(_ & s1 & E & T & S1 & _)|(_ & s1 & I1 & S1 & M1 & D1 & [(E & Pm)|(E & Pm & _)])]); rewrite E.
    + right. exists AssertionError, s1, []. rewrite T. csplit; auto; simpl; try lia; reflexivity.
    + destruct (IH (S t) s1 I1) as [(s' & xs & E' & I' & S' & D' & L & Pm')|(e & s' & xs & E' & I' & S' & L & Pm')].
      * left. exists s', (xs ++ [node_draw n (hr_draw (rds t))]). rewrite S', S1, D', D1, app_length, L. simpl. csplit; auto; try lia.
        rewrite Pm', Pm, <- app_assoc. reflexivity.
      * right. exists e, s', (xs ++ [node_draw n (hr_draw (rds t))]). rewrite S', S1, app_length. simpl. csplit; auto; try lia.
        rewrite Pm', Pm, <- app_assoc. reflexivity.
    + right. exists ValueError, s1, [node_draw n (hr_draw (rds t))]. csplit; auto; simpl; try lia.
Qed.

Lemma reach_inv ops s : hd_reachable P ops s -> dims_ok d ops -> hinv d whole (called_with ops) (hs_tree s).
Proof.
  induction 1 as [|ops s pi n rds s' R IH E|ops s pi n rds e s' R IH E|ops s n R IH|ops s R IH]; intros D.
  - apply new_hinv; auto.
  - assert (D' : dims_ok d ops) by (intros ? ? ? ? H; eapply D; right; eauto). specialize (IH D').
    assert (Hd : dim_ok d rds) by (eapply D; left; eauto). unfold hd_call in E.
    assert (Hpi : called_with ((HdCall pi n rds, true) :: ops) pi) by (exists n, rds, true; left; auto).
    assert (I : hinv d whole (called_with ((HdCall pi n rds, true) :: ops)) (hs_tree s)) by (eapply hinv_weaken; [|exact IH]; intros f (a & b & c & H); exists a, b, c; right; auto).
    destruct (turns_spec pi rds _ Hpi Hd (n - length (hs_samples s)) (length (hs_samples s)) s I) as [(s1 & xs & E1 & I1 & _)|(e & s1 & xs & E1 & I1 & _)]; rewrite E1 in E; [|discriminate].
    inversion E; subst. exact I1.
  - assert (D' : dims_ok d ops) by (intros ? ? ? ? H; eapply D; right; eauto). specialize (IH D').
    assert (Hd : dim_ok d rds) by (eapply D; left; eauto). unfold hd_call in E.
    assert (Hpi : called_with ((HdCall pi n rds, false) :: ops) pi) by (exists n, rds, false; left; auto).
    assert (I : hinv d whole (called_with ((HdCall pi n rds, false) :: ops)) (hs_tree s)) by (eapply hinv_weaken; [|exact IH]; intros f (a & b & c & H); exists a, b, c; right; auto).
    destruct (turns_spec pi rds _ Hpi Hd (n - length (hs_samples s)) (length (hs_samples s)) s I) as [(s1 & xs & E1 & I1 & _)|(e' & s1 & xs & E1 & I1 & _)]; rewrite E1 in E; [discriminate|].
    inversion E; subst. exact I1.
  - simpl. eapply hinv_weaken; [|apply IH; intros ? ? ? ? H; eapply D; right; eauto]. intros f (a & b & c & H). exists a, b, c. right. auto.
  - apply new_hinv; auto.
Qed.

(** No call failed since the last reset. *)
Fixpoint intact (ops : list (hd_op * bool)) : Prop :=
  match ops with
  | [] => True
  | (HdReset, _) :: _ => True
  | (HdCall _ _ _, b) :: r => b = true /\ intact r
  | (HdSample _, _) :: r => intact r
  end.
Lemma new_rows : hd_rows (hs_tree (hd_new P)) = [].
Proof. reflexivity. Qed.
Lemma reach_samples ops s : hd_reachable P ops s -> intact ops -> hs_samples s = hd_rows (hs_tree s).
Proof.
  induction 1 as [|ops s pi n rds s' R IH E|ops s pi n rds e s' R IH E|ops s n R IH|ops s R IH]; simpl; intros D; auto.
  - unfold hd_call in E. destruct (hd_turns _ _ _ _ _ _); try discriminate. inversion E; subst. auto.
  - destruct D; discriminate.
Qed.
(** Numbers drawn by sample() since the last reset. *)
Fixpoint sampled (ops : list (hd_op * bool)) : nat :=
  match ops with
  | [] => 0
  | (HdReset, _) :: _ => 0
  | (HdCall _ _ _, _) :: r => sampled r
  | (HdSample n, _) :: r => n + sampled r
  end.
Lemma reach_draws ops s : hd_reachable P ops s -> dims_ok d ops -> intact ops -> hs_draws s = (length (hs_samples s) + sampled ops)%nat.
Proof.
  intros R D. revert D. induction R as [|ops s pi n rds s' R IH E|ops s pi n rds e s' R IH E|ops s n R IH|ops s R IH]; simpl; intros D Hf; auto.
  - assert (D' : dims_ok d ops) by (intros ? ? ? ? H; eapply D; right; eauto). destruct Hf as (_ & Hf). specialize (IH D' Hf).
    pose proof (reach_samples ops s R Hf) as Sm. pose proof (reach_inv ops s R D') as I.
    assert (I' : hinv d whole (fun _ => True) (hs_tree s)) by (eapply hinv_weaken; [|exact I]; auto).
    unfold hd_call in E. assert (Hd : dim_ok d rds) by (eapply D; left; eauto).
    destruct (turns_spec pi rds _ Logic.I Hd (n - length (hs_samples s)) (length (hs_samples s)) s I') as [(s1 & xs & E1 & I1 & _ & D1 & Lx & Pm)|(e & s1 & xs & E1 & I1 & _)]; rewrite E1 in E; [|discriminate].
    inversion E; subst. simpl. apply Permutation_length in Pm. rewrite app_length, !map_length, <- Sm in Pm. lia.
  - destruct Hf; discriminate.
  - rewrite IH by (auto; intros ? ? ? ? H; eapply D; right; eauto). lia.
Qed.
Lemma turn_counters pi t rd s : hs_pi (out_state (hd_turn P pi t rd s)) = hs_q (out_state (hd_turn P pi t rd s)) <-> hs_pi s = hs_q s.
Proof.
  unfold hd_turn. destruct (descend _ _ _ _ _) as [(p, i)|]; [|reflexivity]. destruct (nth_error _ i) as [n|]; [|reflexivity]. cbv zeta.
  destruct (Qle_bool _ 0); [reflexivity|]. destruct (_ && _); [|simpl; split; [intros H; injection H; auto|intros ->; auto]].
  destruct (split _ _ _ _) as (t3, ok). destruct ok; simpl; split; intros H; lia.
Qed.
Lemma turn_evals pi t rd s : (hs_pi s <= hs_pi (out_state (hd_turn P pi t rd s)))%nat /\
  (hs_draws s <= hs_pi s -> forall s', hd_turn P pi t rd s = Done s' -> hs_draws s' <= hs_pi s')%nat.
Proof.
  unfold hd_turn. destruct (descend _ _ _ _ _) as [(p, i)|]; [|split; [auto|discriminate]]. destruct (nth_error _ i) as [n|]; [|split; [auto|discriminate]]. cbv zeta.
  destruct (Qle_bool _ 0); [split; [auto|discriminate]|]. destruct (_ && _).
  - destruct (split _ _ _ _) as (t3, ok). destruct ok; simpl; (split; [lia|]); intros H s' E; inversion E; subst; simpl; lia.
  - simpl. split; [lia|]. intros H s' E. inversion E; subst. simpl. lia.
Qed.
End Hist.
