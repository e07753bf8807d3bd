(** Means and mean squares of sums of independent draws. *)
From Coq Require Import List Bool Arith Lia QArith Lqa.
Import ListNotations.
From Verif Require Import Prelude.Py Prelude.QBase Prelude.QFacts Spec.UnbiasedSpec Spec.DrawSpec Proofs.PopulationUnbiased.
Open Scope Q_scope.

Lemma Qnat_S n : Qnat (S n) == Qnat n + 1.
Proof. unfold Qnat. rewrite Nat2Z.inj_succ. unfold Z.succ. rewrite inject_Z_plus. reflexivity. Qed.
Lemma Qnat_nonneg n : 0 <= Qnat n.
Proof. induction n; [discriminate|]. rewrite Qnat_S. lra. Qed.
Lemma Qnat_pos n : (0 < n)%nat -> 0 < Qnat n.
Proof. intros H. destruct n; [lia|]. rewrite Qnat_S. pose proof (Qnat_nonneg n). lra. Qed.
Lemma sq_nonneg x : 0 <= sq x.
Proof. unfold sq. nra. Qed.
Lemma sq_ext x y : x == y -> sq x == sq y.
Proof. intros H. unfold sq. rewrite H. reflexivity. Qed.
Global Instance sq_proper : Proper (Qeq ==> Qeq) sq.
Proof. intros x y H. apply sq_ext, H. Qed.

Section Indep.
Context {X : Type}.
Implicit Types (l : list (Q * X)) (laws : list (list (Q * X))) (g : X -> Q).

Definition mean1 l g : Q := Qsum (map (fun mx => fst mx * g (snd mx)) l).
Lemma mean1_ext l g h : (forall m x, In (m, x) l -> g x == h x) -> mean1 l g == mean1 l h.
Proof. intros H. unfold mean1. apply Qsum_ext. intros [m x] I. simpl. rewrite (H m x I). reflexivity. Qed.
Lemma mean1_plus l g h : mean1 l (fun x => g x + h x) == mean1 l g + mean1 l h.
Proof. unfold mean1. rewrite <- Qsum_plus. apply Qsum_ext. intros. ring. Qed.
Lemma mean1_scal l c g : mean1 l (fun x => c * g x) == c * mean1 l g.
Proof. unfold mean1. rewrite <- Qsum_scal. apply Qsum_ext. intros. ring. Qed.
Lemma mean1_const l c : mass l == 1 -> mean1 l (fun _ => c) == c.
Proof.
  intros M. unfold mean1. rewrite (Qsum_ext _ (fun mx => c * fst mx)) by (intros; ring).
  rewrite Qsum_scal. fold (mass l). rewrite M. ring.
Qed.
Definition law_ok l : Prop := mass l == 1 /\ forall m x, In (m, x) l -> 0 <= m.
Lemma mean1_le l g h : (forall m x, In (m, x) l -> 0 <= m) -> (forall m x, In (m, x) l -> g x <= h x) -> mean1 l g <= mean1 l h.
Proof.
  unfold mean1. induction l as [|[m x] l IH]; intros P H; simpl; [apply Qle_refl|].
  assert (0 <= m) by (eapply P; left; reflexivity). assert (g x <= h x) by (eapply H; left; reflexivity).
  assert (mean1 l g <= mean1 l h) by (apply IH; intros; [eapply P|eapply H]; right; eauto). unfold mean1 in *. nra.
Qed.
(** The mean square about k is the variance plus the squared distance from k to the mean. *)
Definition var1 l g : Q := mean1 l (fun x => sq (g x - mean1 l g)).
Lemma mean_square l g k : mass l == 1 -> mean1 l (fun x => sq (g x - k)) == var1 l g + sq (mean1 l g - k).
Proof.
  intros M. unfold var1. set (m := mean1 l g).
  rewrite (mean1_ext l (fun x => sq (g x - k)) (fun x => sq (g x - m) + (2 * (m - k) * g x + (k * k - m * m)))) by (intros; unfold sq; ring).
  rewrite mean1_plus, mean1_plus, mean1_scal, mean1_const by auto. fold m. unfold sq at 3. ring.
Qed.
Lemma var1_bound l g M : law_ok l -> (forall m x, In (m, x) l -> 0 <= g x <= M) -> var1 l g <= M * M / 4.
Proof.
  intros (Ms & P) B. pose proof (mean_square l g (M / 2) Ms) as E. pose proof (sq_nonneg (mean1 l g - M / 2)).
  assert (mean1 l (fun x => sq (g x - M / 2)) <= M * M / 4); [|lra].
  apply Qle_trans with (mean1 l (fun _ => M * M / 4)).
  - apply mean1_le; auto. intros m x I. specialize (B m x I). unfold sq.
    assert (0 <= g x * (M - g x)) by (apply Qmult_le_0_compat; lra).
    assert ((g x - M / 2) * (g x - M / 2) == M * M / 4 - g x * (M - g x)) by field. lra.
  - rewrite mean1_const by auto. apply Qle_refl.
Qed.

(** Sums of one function per draw. *)
Fixpoint total (gs : list (X -> Q)) (xs : list X) : Q :=
  match gs, xs with g :: r, x :: t => g x + total r t | _, _ => 0 end.
Fixpoint means laws (gs : list (X -> Q)) : Q :=
  match laws, gs with l :: r, g :: t => mean1 l g + means r t | _, _ => 0 end.
Fixpoint vars laws (gs : list (X -> Q)) : Q :=
  match laws, gs with l :: r, g :: t => var1 l g + vars r t | _, _ => 0 end.

Lemma expect_mean laws : forall gs, length gs = length laws -> (forall l, In l laws -> mass l == 1) ->
  expect_each laws (total gs) == means laws gs.
Proof.
  induction laws as [|l r IH]; intros [|g t] L M; try discriminate; [reflexivity|].
  cbn [expect_each total means].
  rewrite (Qsum_ext _ (fun mx => fst mx * (g (snd mx) + means r t))).
  - change (mean1 l (fun x => g x + means r t) == mean1 l g + means r t).
    rewrite mean1_plus, mean1_const; [reflexivity|apply M; left; reflexivity].
  - intros mx _. rewrite expect_plus, expect_const, IH; auto; try reflexivity; intros; apply M; right; auto.
Qed.
Lemma expect_square laws : forall gs k, length gs = length laws -> (forall l, In l laws -> mass l == 1) ->
  expect_each laws (fun xs => sq (total gs xs - k)) == vars laws gs + sq (means laws gs - k).
Proof.
  induction laws as [|l r IH]; intros [|g t] k L M; try discriminate; [simpl; unfold sq; ring|].
  cbn [expect_each total means vars].
  rewrite (Qsum_ext _ (fun mx => fst mx * (vars r t + sq (g (snd mx) - (k - means r t))))).
  - change (mean1 l (fun x => vars r t + sq (g x - (k - means r t))) == var1 l g + vars r t + sq (mean1 l g + means r t - k)).
    assert (Ml : mass l == 1) by (apply M; left; reflexivity).
    rewrite mean1_plus, mean1_const, mean_square by auto. unfold sq. ring.
  - intros mx _.
    rewrite (expect_ext _ _ (fun xs => sq (total t xs - (k - g (snd mx))))) by (intros; unfold sq; ring).
    rewrite IH; [|simpl in L; lia|intros; apply M; right; auto]. unfold sq. ring.
Qed.

(** Draws that the laws can produce. *)
Fixpoint drawn laws (xs : list X) : Prop :=
  match laws, xs with l :: r, x :: t => (exists m, In (m, x) l) /\ drawn r t | [], [] => True | _, _ => False end.
Lemma expect_le laws : forall f h, (forall l, In l laws -> law_ok l) -> (forall xs, drawn laws xs -> f xs <= h xs) ->
  expect_each laws f <= expect_each laws h.
Proof.
  induction laws as [|l r IH]; intros f h O H; [apply H; simpl; auto|]. cbn [expect_each].
  apply (mean1_le l (fun x => expect_each r (fun xs => f (x :: xs))) (fun x => expect_each r (fun xs => h (x :: xs)))).
  - apply O. left. reflexivity.
  - intros m x I. apply IH; [intros; apply O; right; auto|]. intros xs D. apply H. simpl. split; eauto.
Qed.
Lemma expect_scal laws : forall c f, expect_each laws (fun xs => c * f xs) == c * expect_each laws f.
Proof.
  induction laws as [|l r IH]; intros c f; simpl; [reflexivity|]. rewrite <- Qsum_scal. apply Qsum_ext. intros mx _. rewrite IH. ring.
Qed.
Lemma expect_const_ok laws c : (forall l, In l laws -> law_ok l) -> expect_each laws (fun _ => c) == c.
Proof. intros H. apply expect_const. intros l I. apply H. auto. Qed.
Lemma drawn_repeat l n : forall xs, drawn (repeat l n) xs <-> length xs = n /\ forall x, In x xs -> exists m, In (m, x) l.
Proof.
  induction n as [|n IH]; intros [|x xs]; simpl.
  - split; auto. intros _. split; auto. intros x [].
  - split; [tauto|]. intros [H _]. discriminate.
  - split; [tauto|]. intros [H _]. discriminate.
  - rewrite IH. split.
    + intros (A & B & C). split; [auto|]. intros y [<-|Y]; auto.
    + intros (A & B). split; [apply B; auto|]. split; [lia|]. intros y Y. apply B. auto.
Qed.
Lemma means_repeat l g n : means (repeat l n) (repeat g n) == Qnat n * mean1 l g.
Proof. induction n as [|n IH]; cbn [repeat means]; [unfold Qnat; simpl; ring|]. rewrite IH, Qnat_S. ring. Qed.
Lemma vars_repeat l g n : vars (repeat l n) (repeat g n) == Qnat n * var1 l g.
Proof. induction n as [|n IH]; cbn [repeat vars]; [unfold Qnat; simpl; ring|]. rewrite IH, Qnat_S. ring. Qed.
Lemma total_repeat g : forall xs n, length xs = n -> total (repeat g n) xs == Qsum (map g xs).
Proof. induction xs as [|x xs IH]; intros n H; subst n; simpl; [reflexivity|]. rewrite IH; reflexivity. Qed.

Lemma equally_ok (pts : list X) : pts <> [] -> law_ok (equally pts).
Proof.
  intros N. assert (P : 0 < Qnat (length pts)) by (apply Qnat_pos; destruct pts; simpl; [congruence|lia]). split.
  - unfold mass, equally. rewrite map_map. cbn [fst]. rewrite Qsum_const. field. lra.
  - intros m x I. unfold equally in I. apply in_map_iff in I. destruct I as (y & E & _). injection E as <- _.
    apply Qle_shift_div_l; lra.
Qed.
Lemma equally_in (pts : list X) m x : In (m, x) (equally pts) -> In x pts.
Proof. unfold equally. rewrite in_map_iff. intros (y & E & I). injection E as _ <-. auto. Qed.
Lemma mean1_equally (pts : list X) g : pts <> [] -> mean1 (equally pts) g == average pts g.
Proof.
  intros N. assert (P : 0 < Qnat (length pts)) by (apply Qnat_pos; destruct pts; simpl; [congruence|lia]).
  unfold mean1, equally, average. rewrite map_map. cbn [fst snd]. rewrite Qsum_scal. field. lra.
Qed.
End Indep.
