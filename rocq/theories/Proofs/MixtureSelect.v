(** Lemmas about the law of the selector and of the draws of a mixture. *)
From Coq Require Import List Bool Arith QArith Lia Lqa.
Import ListNotations.
From Verif Require Import Prelude.Py Prelude.QBase Prelude.QFacts Model.Base Model.Mixture Model.MixtureLaw
  Spec.UnbiasedSpec Spec.WalkSpec Spec.MixtureLawSpec Proofs.PopulationUnbiased Proofs.IndepLaw.
Open Scope Q_scope.

Section Laws.
Context {X : Type}.
Implicit Types (laws : list (list (Q * X))) (l : list (Q * X)).

Lemma mean1_app l m g : mean1 (l ++ m) g == mean1 l g + mean1 m g.
Proof. unfold mean1. rewrite map_app. apply Qsum_app. Qed.
Lemma mean1_one l : mass l == mean1 l (fun _ => 1).
Proof. unfold mass, mean1. apply Qsum_ext. intros; ring. Qed.
Lemma expect_cons l laws f : expect_each (l :: laws) f == mean1 l (fun x => expect_each laws (fun xs => f (x :: xs))).
Proof. reflexivity. Qed.
End Laws.

Lemma mean1_flat {X Y} (k : Q * X -> list (Q * Y)) (l : list (Q * X)) g :
  mean1 (flat_map k l) g == Qsum (map (fun a => mean1 (k a) g) l).
Proof. induction l as [|a l IH]; simpl; [reflexivity|]. rewrite mean1_app, IH. reflexivity. Qed.
Lemma mean1_map {X Y} c (h : X -> Y) (l : list (Q * X)) (g : Y -> Q) :
  mean1 (map (fun b => (c * fst b, h (snd b))) l) g == c * mean1 l (fun x => g (h x)).
Proof. unfold mean1. rewrite map_map, <- Qsum_scal. apply Qsum_ext. intros; simpl; ring. Qed.
Lemma mean1_moved {X Y} (h : X -> Y) (l : list (Q * X)) (g : Y -> Q) : mean1 (moved h l) g == mean1 l (fun x => g (h x)).
Proof. unfold mean1, moved. rewrite map_map. apply Qsum_ext. intros; simpl; reflexivity. Qed.
Lemma mean1_pair {X Y} (l : list (Q * X)) (m : list (Q * Y)) g : mean1 (pair_law l m) g == mean1 l (fun a => mean1 m (fun b => g (a, b))).
Proof.
  unfold pair_law. rewrite mean1_flat. unfold mean1 at 2. apply Qsum_ext. intros a _.
  rewrite (mean1_map (fst a) (fun b => (snd a, b))). reflexivity.
Qed.
Lemma mean1_joint {X} (laws : list (list (Q * X))) : forall g, mean1 (joint laws) g == expect_each laws g.
Proof.
  induction laws as [|l r IH]; intros g; simpl; [unfold mean1; simpl; ring|].
  rewrite mean1_flat. apply Qsum_ext. intros a _. rewrite (mean1_map (fst a) (fun b => snd a :: b)), IH. reflexivity.
Qed.
Lemma mass_joint {X} (laws : list (list (Q * X))) : (forall l, In l laws -> mass l == 1) -> mass (joint laws) == 1.
Proof. intros H. rewrite mean1_one, mean1_joint. apply expect_const. auto. Qed.
Lemma mass_pair {X Y} (l : list (Q * X)) (m : list (Q * Y)) : mass l == 1 -> mass m == 1 -> mass (pair_law l m) == 1.
Proof.
  intros A B. rewrite mean1_one, mean1_pair. rewrite (mean1_ext _ _ (fun _ => 1)); [apply mean1_const; auto|].
  intros. apply mean1_const. auto.
Qed.
(** One coordinate of independent draws. *)
Lemma marginal {X} (x0 : X) laws : forall i h, (forall l, In l laws -> mass l == 1) -> (i < length laws)%nat ->
  expect_each laws (fun xs => h (nth i xs x0)) == mean1 (nth i laws []) h.
Proof.
  induction laws as [|l r IH]; intros i h H L; [simpl in L; lia|]. rewrite expect_cons. destruct i as [|i]; simpl.
  - apply mean1_ext. intros. apply expect_const. intros; apply H; right; auto.
  - rewrite (mean1_ext _ _ (fun _ => mean1 (nth i r []) h)); [apply mean1_const, H; left; auto|].
    intros. apply IH; [intros; apply H; right; auto|simpl in L; lia].
Qed.
(** Independent draws transformed one by one. *)
Lemma expect_map {X Y} (l : list (Q * X)) (m : list (Q * Y)) (G : X -> Y) :
  (forall H, mean1 l (fun e => H (G e)) == mean1 m H) ->
  forall n F, expect_each (repeat l n) (fun es => F (map G es)) == expect_each (repeat m n) F.
Proof.
  intros E. induction n as [|n IH]; intros F; simpl; [reflexivity|].
  change (mean1 l (fun e => expect_each (repeat l n) (fun es => F (G e :: map G es))) == mean1 m (fun x => expect_each (repeat m n) (fun xs => F (x :: xs)))).
  rewrite <- (E (fun x => expect_each (repeat m n) (fun xs => F (x :: xs)))). apply mean1_ext. intros _ e _.
  apply (IH (fun xs => F (G e :: xs))).
Qed.

Lemma multinomial1_ext ws : forall left u v j, (forall i, u i = v i) -> multinomial1 ws left u j = multinomial1 ws left v j.
Proof.
  induction ws as [|p [|q r] IH]; intros left u v j E; auto. cbn [multinomial1]. rewrite E.
  destruct (Qltb (v j) (p / left)); auto. apply (IH (left - p) u v (S j) E).
Qed.
Lemma multinomial1_S ws : forall left u j, multinomial1 ws left u (S j) = S (multinomial1 ws left (fun i => u (S i)) j).
Proof.
  induction ws as [|p [|q r] IH]; intros left u j; auto. cbn [multinomial1].
  destruct (Qltb (u (S j)) (p / left)); auto. apply (IH (left - p) u (S j)).
Qed.
Lemma multinomial1_cons2 p q r left u :
  multinomial1 (p :: q :: r) left u 0 = if Qltb (u 0%nat) (p / left) then 0%nat else S (multinomial1 (q :: r) (left - p) (fun i => u (S i)) 0).
Proof. rewrite <- multinomial1_S. reflexivity. Qed.
Lemma below_ext ul r r' : r == r' -> below ul r == below ul r'.
Proof.
  intros E. unfold below. apply Qsum_ext. intros wu _.
  assert (Qltb (snd wu) r = Qltb (snd wu) r') as ->; [|reflexivity].
  unfold Qltb. f_equal. now rewrite E.
Qed.

Fixpoint selection (ws : list Q) (h : nat -> Q) : Q :=
  match ws with [] => 0 | w :: r => w * h 0%nat + selection r (fun i => h (S i)) end.
Lemma selection_ext ws : forall h h', (forall i, (i < length ws)%nat -> h i == h' i) -> selection ws h == selection ws h'.
Proof.
  induction ws as [|w r IH]; intros h h' E; simpl; [reflexivity|]. rewrite (E 0%nat) by (simpl; lia).
  rewrite (IH _ (fun i => h' (S i))); [reflexivity|]. intros. apply E. simpl; lia.
Qed.
Lemma selection_zero ws : forall h, Forall (fun w => 0 <= w) ws -> Qsum ws == 0 -> selection ws h == 0.
Proof.
  induction ws as [|w r IH]; intros h F S; simpl; [reflexivity|]. inversion F; subst. simpl in S.
  assert (0 <= Qsum r) by (apply Qsum_nonneg; auto). assert (w == 0) by lra. rewrite IH; auto; [|lra]. rewrite H0. ring.
Qed.

Section Select.
Variable ul : list (Q * Q).
Hypothesis law : mass ul == 1.
Lemma select_law ws : forall left h, Forall (fun w => 0 <= w) ws -> Qsum ws == left -> ws <> [] ->
  (forall j, (j < length ws)%nat -> fair ul (nth j ws 0 / Qsum (skipn j ws))) ->
  left * expect_each (repeat ul (length ws)) (fun us => h (multinomial1 ws left (fun j => nth j us 0) 0)) == selection ws h.
Proof.
  induction ws as [|p r IH]; intros left h F Sm N Fa; [congruence|]. destruct r as [|q r].
  - simpl in Sm. cbn [multinomial1 selection]. rewrite expect_const; [rewrite <- Sm; ring|]. intros l Hl. apply repeat_spec in Hl. now subst.
  - inversion F as [|? ? Hp F']; subst. destruct (Qlt_le_dec 0 left) as [L|L].
    2:{ assert (0 <= Qsum (p :: q :: r)) by (apply Qsum_nonneg; auto). assert (left == 0) by lra.
        rewrite selection_zero; auto; [rewrite H0; ring|lra]. }
    assert (Sr : Qsum (q :: r) == left - p) by (simpl in Sm |- *; lra).
    assert (0 <= Qsum (q :: r)) by (apply Qsum_nonneg; auto).
    assert (B : below ul (p / left) == p / left).
    { pose proof (Fa 0%nat ltac:(simpl; lia)) as Fa0. unfold fair in Fa0. cbn [nth skipn] in Fa0.
      assert (E : p / Qsum (p :: q :: r) == p / left) by (rewrite Sm; reflexivity).
      rewrite (below_ext _ _ _ E) in Fa0. rewrite Fa0. destruct (Qle_bool 1 (p / Qsum (p :: q :: r))) eqn:D; auto.
      apply Qle_bool_iff in D. rewrite E in D.
      assert (p / left <= 1) by (apply Qle_shift_div_r; lra). lra. }
    set (E' := expect_each (repeat ul (length (q :: r))) (fun us => h (S (multinomial1 (q :: r) (left - p) (fun j => nth j us 0) 0)))).
    assert (E0 : expect_each (repeat ul (length (p :: q :: r))) (fun us => h (multinomial1 (p :: q :: r) left (fun j => nth j us 0) 0))
                 == below ul (p / left) * h 0%nat + (1 - below ul (p / left)) * E').
    { change (length (p :: q :: r)) with (S (length (q :: r))). cbn [repeat]. rewrite expect_cons.
      rewrite (mean1_ext _ _ (fun u => (if Qltb u (p / left) then 1 else 0) * h 0%nat + (1 - (if Qltb u (p / left) then 1 else 0)) * E')).
      - unfold below. unfold mean1.
        rewrite (Qsum_ext _ (fun mx => (h 0%nat - E') * (if Qltb (snd mx) (p / left) then fst mx else 0) + E' * fst mx)).
        + rewrite Qsum_plus, !Qsum_scal. fold (mass ul). rewrite law. ring.
        + intros mx _. destruct (Qltb (snd mx) (p / left)); ring.
      - intros m u _. destruct (Qltb u (p / left)) eqn:D.
        + rewrite (expect_ext _ _ (fun _ => h 0%nat)); [rewrite expect_const; [ring|]|].
          * intros l Hl. apply repeat_spec in Hl. now subst.
          * intros us _. rewrite multinomial1_cons2. cbn [nth]. rewrite D. reflexivity.
        + transitivity E'; [|ring]. apply expect_ext. intros us _. rewrite multinomial1_cons2. cbn [nth]. rewrite D. apply Qeq_refl. }
    rewrite E0, B. cbn [selection].
    assert (I := IH (left - p) (fun i => h (S i)) F' Sr ltac:(discriminate)). cbn beta in I. fold E' in I.
    change (q * h 1%nat + selection r (fun i : nat => h (S (S i)))) with (selection (q :: r) (fun i => h (S i))). rewrite <- I.
    + field. lra.
    + intros j Hj. apply (Fa (S j)). simpl in Hj |- *. lia.
Qed.
End Select.

Lemma is_law_mass {X} (l : list (Q * X)) : is_law l -> mass l == 1.
Proof. intros (H & _). exact H. Qed.

(** One iteration of the mixture: the selected component and its draw. *)
Lemma iteration_mean {X} (x0 : X) ul ws (laws : list (list (Q * X))) (K : nat -> X -> Q) :
  prob_vec ws -> fair_choice ul ws -> length laws = length ws -> (forall l, In l laws -> is_law l) ->
  mean1 (iteration_law ul laws) (fun ev => let i := multinomial1 ws 1 (fun j => nth j (fst ev) 0) 0 in K i (nth i (snd ev) x0))
  == selection ws (fun i => mean1 (nth i laws []) (K i)).
Proof.
  intros (F & S) (L & _ & Fa) E Hl. assert (N : ws <> []) by (intros ->; discriminate S).
  unfold iteration_law. rewrite mean1_pair, mean1_joint, E. cbn [fst snd].
  rewrite <- (select_law ul (is_law_mass _ L) ws 1 _ F S N Fa), Qmult_1_l.
  apply expect_ext. intros us _. rewrite mean1_joint.
  apply (marginal x0 laws _ (K (multinomial1 ws 1 (fun j => nth j us 0) 0))).
  - intros l H. apply is_law_mass. auto.
  - rewrite E. pose proof (MixtureProofs.multinomial1_range ws 1 (fun j => nth j us 0) 0 N). lia.
Qed.
Lemma mixture_law_mean {X} (H : X -> Q) ws : forall laws, length laws = length ws ->
  mean1 (mixture_law ws laws) H == selection ws (fun i => mean1 (nth i laws []) H).
Proof.
  unfold mixture_law. induction ws as [|w r IH]; intros [|l laws] E; try discriminate; simpl; [reflexivity|].
  rewrite mean1_app, (mean1_map w (fun x => x)), IH by (simpl in E; lia). reflexivity.
Qed.
Lemma mass_mixture {X} ws (laws : list (list (Q * X))) : prob_vec ws -> length laws = length ws -> (forall l, In l laws -> is_law l) ->
  is_law (mixture_law ws laws).
Proof.
  intros (F & S) E H. split.
  - fold (mass (mixture_law ws laws)). rewrite mean1_one, mixture_law_mean; auto. rewrite <- S. clear S F.
    revert laws E H. induction ws as [|w r IH]; intros [|l laws] E H; try discriminate; simpl; [reflexivity|].
    rewrite <- mean1_one, (is_law_mass l) by (apply H; left; auto). rewrite IH; [ring|simpl in E; lia|intros; apply H; right; auto].
  - intros wx Hx. unfold mixture_law in Hx. apply in_concat in Hx. destruct Hx as (l & Hl & Hx). clear S. revert laws E H Hl.
    induction ws as [|w r IH]; intros [|l0 laws] E H Hl; try (destruct Hl; fail). inversion F; subst. destruct Hl as [<-|Hl].
    + apply in_map_iff in Hx. destruct Hx as (mx & <- & Hx). simpl. apply Qmult_le_0_compat; auto. apply (H l0); [left|]; auto.
    + apply (IH H3 laws); auto. intros; apply H; right; auto.
Qed.

Lemma map_seq_nth {A B} (G : A -> B) d l : map (fun k => G (nth k l d)) (seq 0 (length l)) = map G l.
Proof.
  induction l as [|a l IH]; simpl; auto. f_equal. rewrite <- seq_shift, map_map. exact IH.
Qed.

(** Several iterations, what each returns being a function of the selected component and its draw. *)
Lemma joint_mean {X Y} (x0 : X) ul ws (laws : list (list (Q * X))) (g : nat -> X -> Y) n F :
  prob_vec ws -> fair_choice ul ws -> length laws = length ws -> (forall l, In l laws -> is_law l) ->
  forall laws', length laws' = length ws -> (forall i, (i < length ws)%nat -> nth i laws' [] = moved (g i) (nth i laws [])) ->
  expect_each (repeat (iteration_law ul laws) n)
    (fun evs => F (mixture_sample ws n (sel_of evs) (fun k i => g i (draw_of x0 evs k i))))
  == expect_each (repeat (mixture_law ws laws') n) (fun xs => F (Ok xs)).
Proof.
  intros V Fa E Hl laws' E' Hm. assert (N : ws <> []) by (intros ->; destruct V; discriminate).
  set (G := fun ev : list Q * list X => let i := multinomial1 ws 1 (fun j => nth j (fst ev) 0) 0 in g i (nth i (snd ev) x0)).
  rewrite (expect_ext _ _ (fun evs => F (Ok (map G evs)))).
  - refine (expect_map _ _ G _ n (fun xs => F (Ok xs))). intros H. unfold G. cbv zeta.
    rewrite (iteration_mean x0 ul ws laws (fun i x => H (g i x))); auto. rewrite mixture_law_mean; auto.
    apply selection_ext. intros i Hi. rewrite Hm; auto. rewrite mean1_moved. reflexivity.
  - intros evs Le. rewrite repeat_length in Le. unfold mixture_sample. destruct ws as [|w ws]; [congruence|].
    destruct n as [|n]; [destruct evs; [|discriminate]; reflexivity|]. rewrite <- Le. unfold sel_of, draw_of.
    rewrite <- (map_seq_nth G ([], [])). reflexivity.
Qed.
