(** Halving a box in one dimension. *)
From Coq Require Import List Bool Arith Lia QArith Lqa Permutation.
Import ListNotations.
From Verif Require Import Prelude.Py Prelude.QBase Prelude.QFacts Prelude.ListFacts Model.Uniform Model.HiDaisee Spec.UniformSpec Spec.SplitSpec
  Proofs.UniformProofs.
Open Scope Q_scope.

Definition box (c r : vec) : list Q * list Q := (map2 Qminus c r, map2 Qplus c r).

Lemma half_left c : forall r k x, length c = length r -> (k < length c)%nat -> 0 < nth k r 0 ->
  (inside (box (shift_center c r k (-1)) (half_radius r k)) x <-> inside (box c r) x /\ nth k x 0 <= nth k c 0).
Proof.
  unfold inside, box. induction c as [|a c IH]; intros [|b r] k x L K R; simpl in L, K; try lia. destruct x as [|y x].
  - destruct k; simpl; split; [intros []|intros ([] & _)|intros []|intros ([] & _)].
  - destruct k as [|k]; cbn -[Qmult Qdiv Qminus Qplus].
    + simpl in R. setoid_replace (a + -1 * (b / 2) - b / 2) with (a - b) by field. setoid_replace (a + -1 * (b / 2) + b / 2) with a by field.
      split; intros H; [destruct H as (H1 & H2 & H3)|destruct H as ((H1 & H2 & H3) & H4)]; repeat split; auto; lra.
    + simpl in R. specialize (IH r k x ltac:(lia) ltac:(lia) R). cbn in IH. unfold shift_center, half_radius in IH.
      split; [intros (H1 & H2 & H3); apply IH in H3; destruct H3; repeat split; auto|intros ((H1 & H2 & H3) & H4); repeat split; auto; apply IH; auto].
Qed.
Lemma half_right c : forall r k x, length c = length r -> (k < length c)%nat -> 0 < nth k r 0 ->
  (inside (box (shift_center c r k 1) (half_radius r k)) x <-> inside (box c r) x /\ nth k c 0 < nth k x 0).
Proof.
  unfold inside, box. induction c as [|a c IH]; intros [|b r] k x L K R; simpl in L, K; try lia. destruct x as [|y x].
  - destruct k; simpl; split; [intros []|intros ([] & _)|intros []|intros ([] & _)].
  - destruct k as [|k]; cbn -[Qmult Qdiv Qminus Qplus].
    + simpl in R. setoid_replace (a + 1 * (b / 2) - b / 2) with a by field. setoid_replace (a + 1 * (b / 2) + b / 2) with (a + b) by field.
      split; intros H; [destruct H as (H1 & H2 & H3)|destruct H as ((H1 & H2 & H3) & H4)]; repeat split; auto; lra.
    + simpl in R. specialize (IH r k x ltac:(lia) ltac:(lia) R). cbn in IH. unfold shift_center, half_radius in IH.
      split; [intros (H1 & H2 & H3); apply IH in H3; destruct H3; repeat split; auto|intros ((H1 & H2 & H3) & H4); repeat split; auto; apply IH; auto].
Qed.
Lemma half_prod r : forall k, (k < length r)%nat -> Qprod (map (fun a => a * 2) (half_radius r k)) == Qprod (map (fun a => a * 2) r) / 2.
Proof.
  unfold half_radius. induction r as [|b r IH]; intros k K; simpl in K; [lia|]. destruct k as [|k]; simpl; [field|]. rewrite IH by lia. field.
Qed.
Lemma shift_length c r k s : length (shift_center c r k s) = length c.
Proof. apply upd_length. Qed.
Lemma half_length r k : length (half_radius r k) = length r.
Proof. apply upd_length. Qed.
Lemma half_radii c : forall c' r k, length c' = length c -> radii_ok c r -> radii_ok c' (half_radius r k).
Proof.
  unfold half_radius. induction c as [|a c IH]; intros [|a' c'] [|b r] k L R; simpl in L, R; try lia; try destruct R as (R1 & R2); try contradiction; [destruct k; exact I|].
  destruct k as [|k]; simpl.
  - split; [apply Qlt_shift_div_l; lra|]. revert c' L. clear - R2. revert r R2. induction c as [|x c IH]; intros [|y r] R [|z c'] L; simpl in *; try lia; auto.
    destruct R. split; auto.
  - split; auto.
Qed.
Lemma radii_nth c : forall r k, radii_ok c r -> (k < length c)%nat -> 0 < nth k r 0.
Proof. induction c as [|a c IH]; intros [|b r] k R K; simpl in *; try lia; try contradiction. destruct R, k; auto. apply IH; auto. lia. Qed.
Lemma box_vol c r : length c = length r -> box_volume (box c r) == Qprod (map (fun a => a * 2) r).
Proof. apply volume_radii. Qed.

Lemma sum_over_app {I} (f : I -> Q) l m : sum_over f (l ++ m) == sum_over f l + sum_over f m.
Proof. unfold sum_over. induction l as [|a l IH]; simpl; [ring|]. rewrite IH. ring. Qed.
Lemma sum_over_perm {I} (f : I -> Q) l m : Permutation l m -> sum_over f l == sum_over f m.
Proof.
  unfold sum_over. induction 1 as [|a l m _ IH|a b l|l m n _ IH1 _ IH2]; simpl; [reflexivity|rewrite IH; reflexivity|ring|rewrite IH1; auto].
Qed.
Lemma sum_over_ext {I} (f g : I -> Q) l : (forall i, In i l -> f i == g i) -> sum_over f l == sum_over g l.
Proof. unfold sum_over. induction l as [|a l IH]; simpl; intros H; [reflexivity|]. rewrite IH, (H a) by auto. reflexivity. Qed.

Lemma remove1_perm i l : In i l -> Permutation l (i :: remove1 i l).
Proof.
  induction l as [|a l IH]; intros H; [destruct H|]. simpl. destruct (Nat.eqb_spec a i) as [->|N]; auto.
  destruct H as [H|H]; [congruence|]. rewrite perm_swap. constructor. auto.
Qed.

(** Replacing one box by two that cut it up. *)
Lemma cuts_replace {I} (ids ids' : list I) (b b' : I -> list Q * list Q) whole i l r :
  cuts_up ids b whole -> Permutation ids (i :: ids') -> l <> r -> ~ In l ids -> ~ In r ids ->
  (forall j, In j ids' -> b' j = b j) ->
  (forall x, inside (b i) x <-> inside (b' l) x \/ inside (b' r) x) ->
  (forall x, inside (b' l) x -> inside (b' r) x -> False) ->
  corners (fst (b' l)) (snd (b' l)) -> corners (fst (b' r)) (snd (b' r)) ->
  box_volume (b i) == box_volume (b' l) + box_volume (b' r) ->
  cuts_up (ids' ++ [l; r]) b' whole.
Proof.
  intros (N & C & U & Cn & V) P Nlr Nl Nr E S X Cl Cr Vs.
  assert (Pin : forall j, In j ids <-> j = i \/ In j ids').
  { intros j. split; intros H; [apply (Permutation_in _ P) in H; destruct H; auto|apply (Permutation_in _ (Permutation_sym P)); destruct H; [left|right]; auto]. }
  assert (N' : NoDup (i :: ids')) by (eapply Permutation_NoDup; eauto). inversion N' as [|? ? Ni Nd]; subst.
  assert (Nl' : ~ In l ids') by (intros H; apply Nl, Pin; auto). assert (Nr' : ~ In r ids') by (intros H; apply Nr, Pin; auto).
  assert (D : forall j x, In j ids' -> inside (b j) x -> inside (b i) x -> False).
  { intros j x Hj H1 H2. assert (j = i) by (apply (U j i x); auto; apply Pin; auto). subst. auto. }
  split; [|split; [|split; [|split]]].
  - apply nodup_app; auto.
    + constructor; [simpl; intros [H|[]]; congruence|]. constructor; [simpl; auto|constructor].
    + intros y Hy [H|[H|[]]]; subst; auto.
  - intros x. rewrite C. split.
    + intros (j & Hj & H). apply Pin in Hj. destruct Hj as [->|Hj].
      * apply S in H. destruct H as [H|H]; [exists l|exists r]; split; auto; apply in_or_app; right; simpl; auto.
      * exists j. rewrite (E j Hj). split; auto. apply in_or_app; auto.
    + intros (j & Hj & H). apply in_app_or in Hj. destruct Hj as [Hj|[<-|[<-|[]]]].
      * exists j. rewrite <- (E j Hj). split; auto. apply Pin; auto.
      * exists i. split; [apply Pin; auto|]. apply S; auto.
      * exists i. split; [apply Pin; auto|]. apply S; auto.
  - intros j k x Hj Hk H1 H2. apply in_app_or in Hj. apply in_app_or in Hk.
    destruct Hj as [Hj|Hj], Hk as [Hk|Hk].
    + rewrite E in H1, H2 by auto. apply (U j k x); auto; apply Pin; auto.
    + exfalso. rewrite E in H1 by auto. apply (D j x Hj H1). apply S. destruct Hk as [<-|[<-|[]]]; auto.
    + exfalso. rewrite E in H2 by auto. apply (D k x Hk H2). apply S. destruct Hj as [<-|[<-|[]]]; auto.
    + destruct Hj as [<-|[<-|[]]], Hk as [<-|[<-|[]]]; auto; exfalso; eapply X; eauto.
  - intros j Hj. apply in_app_or in Hj. destruct Hj as [Hj|[<-|[<-|[]]]]; auto. rewrite E by auto. apply Cn, Pin; auto.
  - rewrite sum_over_app. rewrite (sum_over_perm _ _ _ P) in V. simpl in V. rewrite (sum_over_ext _ (fun j => box_volume (b j)) ids').
    + simpl. rewrite <- V, Vs. ring.
    + intros j Hj. rewrite E by auto. reflexivity.
Qed.
