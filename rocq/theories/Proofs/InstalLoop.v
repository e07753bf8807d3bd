(** Loops that run until there are enough samples: two calls in a row against one. *)
From Coq Require Import List Bool Arith Lia QArith Lqa.
Import ListNotations.
From Verif Require Import Prelude.Py Prelude.QBase Prelude.QFacts Spec.InstalmentSpec Proofs.ScaleBase.
Open Scope Q_scope.

Section Loop.
Variables (S R : Type) (size : S -> nat) (iter : R -> S -> outcome S) (clock : R -> Q) (dead : S -> bool).
Fixpoint loop (n : nat) (limit : Q) (tape : list R) (elapsed : Q) (s : S) : outcome S :=
  if (size s <? n)%nat && Qltb elapsed limit then
    if dead s then Running s else
    match tape with
    | [] => Running s
    | r :: t => match iter r s with Done s' => loop n limit t (clock r) s' | o => o end
    end
  else Done s.
(** States that differ in what a call records only at its end. *)
Variables (E : S -> S -> Prop) (same : R -> R -> Prop).
Hypothesis E_size : forall s s', E s s' -> size s' = size s.
Hypothesis E_dead : forall s s', E s s' -> dead s' = dead s.
Hypothesis E_iter : forall r r' s s', same r r' -> E s s' -> outs E (iter r s) (iter r' s').
Hypothesis E_trans : forall a b c, E a b -> E b c -> E a c.
Hypothesis E_sym : forall a b, E a b -> E b a.

(** Rounds used by a call that got enough samples take any later call, started from an equivalent state, to an equivalent state. *)
Lemma loop_used n1 limit1 : forall tape el s s1, loop n1 limit1 tape el s = Done s1 -> (n1 <= size s1)%nat ->
  exists used, initial used tape /\ forall n2 limit again more el' s', (n1 <= n2)%nat -> in_time same clock limit used again -> el' < limit -> E s s' ->
    exists el2 s1', el2 < limit /\ E s1 s1' /\ loop n2 limit (again ++ more) el' s' = loop n2 limit more el2 s1'.
Proof.
  assert (Stop : forall tape s s1 el, loop n1 limit1 tape el s = Done s1 -> (size s <? n1)%nat && Qltb el limit1 = false -> s1 = s).
  { intros tape s s1 el H B. destruct tape; simpl in H; rewrite B in H; congruence. }
  induction tape as [|r tape IH]; intros el s s1 H G.
  - exists []. split; [exists []; reflexivity|]. intros n2 limit again more el' s' L (F & _) Lt Es. inversion F; subst. exists el', s'. split; auto. split; [|reflexivity].
    cbn [loop] in H. destruct ((size s <? n1)%nat && Qltb el limit1); [destruct (dead s); discriminate|]. injection H as <-. exact Es.
  - destruct ((size s <? n1)%nat && Qltb el limit1) eqn:B.
    + cbn [loop] in H. rewrite B in H. destruct (dead s) eqn:D; [discriminate|]. destruct (iter r s) as [s2|s2|e s2] eqn:I; try discriminate.
      destruct (IH (clock r) s2 s1 H G) as (used & (rest & U) & K). exists (r :: used). split; [exists rest; rewrite U; reflexivity|].
      intros n2 limit again more el' s' L (F & C) Lt Es. inversion F as [|? r' ? again' Sr Fr]; subst. inversion C as [|? ? Cr Cs]; subst.
      pose proof (E_iter r r' s s' Sr Es) as O. rewrite I in O. destruct (iter r' s') as [s2'|s2'|e' s2'] eqn:I'; simpl in O; try contradiction.
      destruct (K n2 limit again' more (clock r') s2' L (conj Fr Cs) Cr O) as (el2 & s1' & K1 & K2 & K3). exists el2, s1'. split; auto. split; auto.
      simpl. rewrite (E_dead _ _ Es), D, I', K3. apply andb_true_iff in B. destruct B as (B & _). apply Nat.ltb_lt in B.
      replace ((size s' <? n2)%nat && Qltb el' limit) with true; [reflexivity|]. symmetry. apply andb_true_iff. split; [apply Nat.ltb_lt; rewrite (E_size _ _ Es); lia|now apply Qltb_true].
    + pose proof (Stop _ _ _ _ H B). subst s1. exists []. split; [exists (r :: tape); reflexivity|]. intros n2 limit again more el' s' L (F & _) Lt Es. inversion F; subst. exists el', s'. auto.
Qed.
Lemma loop_enough n limit tape el s : (n <= size s)%nat -> loop n limit tape el s = Done s.
Proof. intros L. destruct tape; cbn [loop]; (replace (size s <? n)%nat with false by (symmetry; apply Nat.ltb_ge; exact L)); reflexivity. Qed.
Lemma loop_instalments n1 limit1 tape1 el1 s s1 n2 limit2 tape2 el2 s1' s2 : (n1 <= n2)%nat ->
  loop n1 limit1 tape1 el1 s = Done s1 -> (n1 <= size s1)%nat -> E s1 s1' -> loop n2 limit2 tape2 el2 s1' = Done s2 -> (n2 <= size s2)%nat ->
  exists used1 used2, initial used1 tape1 /\ initial used2 tape2 /\ forall limit again el s', in_time same clock limit (used1 ++ used2) again -> el < limit -> E s s' ->
    exists s2', loop n2 limit again el s' = Done s2' /\ E s2 s2'.
Proof.
  intros L H1 G1 X H2 G2. destruct (loop_used n1 limit1 tape1 el1 s s1 H1 G1) as (used1 & I1 & K1). destruct (loop_used n2 limit2 tape2 el2 s1' s2 H2 G2) as (used2 & I2 & K2).
  exists used1, used2. split; auto. split; auto. intros limit again el s' (F & C) Lt Es. apply Forall2_app_inv_l in F. destruct F as (a1 & a2 & F1 & F2 & ->). apply Forall_app in C. destruct C as (C1 & C2).
  destruct (K1 n2 limit a1 a2 el s' L (conj F1 C1) Lt Es) as (el' & t1 & L1 & T1 & ->).
  destruct (K2 n2 limit a2 [] el' t1 (le_n _) (conj F2 C2) L1 (E_trans _ _ _ (E_sym _ _ X) T1)) as (el'' & t2 & _ & T2 & K). rewrite app_nil_r in K. rewrite K.
  exists t2. split; auto. apply loop_enough. rewrite (E_size _ _ T2). exact G2.
Qed.
End Loop.
