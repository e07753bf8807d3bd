(** Deterministic mixture weights are unbiased. *)
From Coq Require Import List Bool Arith Lia QArith Lqa.
Import ListNotations.
From Verif Require Import Prelude.Py Prelude.QBase Prelude.QFacts Prelude.ListFacts Model.Base Model.Mixture Model.Population Model.PopulationLaw
  Spec.Box Spec.PopulationSpec Spec.UnbiasedSpec Proofs.PopulationProofs Proofs.PopulationHistory.
Open Scope Q_scope.

Lemma Qsum_ext {A} (f g : A -> Q) l : (forall x, In x l -> f x == g x) -> Qsum (map f l) == Qsum (map g l).
Proof. induction l as [|x l IH]; simpl; intros H; [reflexivity|]. rewrite (H x), IH; auto; reflexivity. Qed.
Lemma Qsum_scal {A} c (f : A -> Q) l : Qsum (map (fun x => c * f x) l) == c * Qsum (map f l).
Proof. induction l as [|x l IH]; simpl; [ring|]. rewrite IH. ring. Qed.
Lemma Qsum_plus {A} (f g : A -> Q) l : Qsum (map (fun x => f x + g x) l) == Qsum (map f l) + Qsum (map g l).
Proof. induction l as [|x l IH]; simpl; [ring|]. rewrite IH. ring. Qed.
Lemma Qsum_swap {A B} (f : A -> B -> Q) l m :
  Qsum (map (fun a => Qsum (map (f a) m)) l) == Qsum (map (fun b => Qsum (map (fun a => f a b) l)) m).
Proof.
  induction l as [|a l IH]; simpl.
  - induction m as [|b m IH]; simpl; [reflexivity|]. rewrite <- IH. ring.
  - rewrite IH, Qsum_plus. reflexivity.
Qed.
Lemma Qsum_const {A} c (l : list A) : Qsum (map (fun _ => c) l) == Qnat (length l) * c.
Proof.
  induction l as [|a l IH]; simpl length; simpl map; simpl Qsum; [unfold Qnat; simpl; ring|].
  rewrite IH. unfold Qnat. rewrite Nat2Z.inj_succ. unfold Z.succ. rewrite inject_Z_plus. ring.
Qed.

Section Expect.
Context {X : Type}.
Implicit Types (laws : list (list (Q * X))) (l : list (Q * X)).

Lemma expect_ext laws : forall f g, (forall xs, length xs = length laws -> f xs == g xs) -> expect_each laws f == expect_each laws g.
Proof.
  induction laws as [|l r IH]; intros f g H; simpl; [apply H; auto|].
  apply Qsum_ext. intros mx _. rewrite (IH _ (fun xs => g (snd mx :: xs))); [reflexivity|]. intros xs L. apply H. simpl. auto.
Qed.
Definition mass l := Qsum (map fst l).
Lemma expect_const laws c : (forall l, In l laws -> mass l == 1) -> expect_each laws (fun _ => c) == c.
Proof.
  induction laws as [|l r IH]; intros H; simpl; [reflexivity|].
  rewrite (Qsum_ext _ (fun mx => c * fst mx)).
  - rewrite Qsum_scal. fold (mass l). rewrite (H l); [ring|simpl; auto].
  - intros mx _. rewrite IH; [ring|]. intros; apply H; simpl; auto.
Qed.
Lemma expect_plus laws : forall f g, expect_each laws (fun xs => f xs + g xs) == expect_each laws f + expect_each laws g.
Proof.
  induction laws as [|l r IH]; intros f g; simpl; [reflexivity|].
  rewrite <- Qsum_plus. apply Qsum_ext. intros mx _. rewrite IH. ring.
Qed.
Lemma expect_total laws (g : X -> Q) : (forall l, In l laws -> mass l == 1) ->
  expect_each laws (fun xs => Qsum (map g xs)) == Qsum (map (fun l => Qsum (map (fun mx => fst mx * g (snd mx)) l)) laws).
Proof.
  induction laws as [|l r IH]; intros H; simpl; [reflexivity|].
  rewrite (Qsum_ext _ (fun mx => fst mx * g (snd mx) + fst mx * Qsum (map (fun l => Qsum (map (fun mx => fst mx * g (snd mx)) l)) r))).
  - rewrite Qsum_plus. apply Qplus_comp; [reflexivity|].
    rewrite (Qsum_ext _ (fun mx => Qsum (map (fun l => Qsum (map (fun mx => fst mx * g (snd mx)) l)) r) * fst mx)).
    + rewrite Qsum_scal. fold (mass l). rewrite (H l); [ring|simpl; auto].
    + intros; ring.
  - intros mx _. rewrite expect_plus. rewrite expect_const, IH; [ring| |]; intros; apply H; simpl; auto.
Qed.
End Expect.

Lemma Qsum_app l m : Qsum (l ++ m) == Qsum l + Qsum m.
Proof. induction l as [|a l IH]; simpl; [ring|]. rewrite IH. ring. Qed.
Lemma Qsum_repeat {X} (h : X -> Q) (l : X) n : Qsum (map h (repeat l n)) == Qnat n * h l.
Proof.
  induction n as [|n IH]; simpl repeat; simpl map; simpl Qsum; [unfold Qnat; simpl; ring|].
  rewrite IH. unfold Qnat. rewrite Nat2Z.inj_succ. unfold Z.succ. rewrite inject_Z_plus. ring.
Qed.
Lemma Qsum_each {X} (h : list (Q * X) -> Q) n laws : Qsum (map h (each_times n laws)) == Qnat n * Qsum (map h laws).
Proof.
  induction laws as [|l r IH]; simpl; [ring|]. rewrite map_app, Qsum_app, IH, Qsum_repeat. ring.
Qed.
Lemma In_each {X} n (laws : list (list (Q * X))) l : In l (each_times n laws) -> In l laws.
Proof. unfold each_times. rewrite in_flat_map. intros (a & A & B). apply repeat_spec in B. subst. auto. Qed.

(** Weighted totals. *)
Lemma total_app {X} (f : X -> Q) xs : forall ws ys vs, length xs = length ws ->
  weighted_total f (xs ++ ys) (ws ++ vs) == weighted_total f xs ws + weighted_total f ys vs.
Proof.
  induction xs as [|x xs IH]; intros [|w ws] ys vs L; try discriminate; simpl; [ring|].
  injection L as L. destruct w; rewrite IH; auto; ring.
Qed.
Lemma total_fin {X} (f g : X -> Q) xs : weighted_total f xs (map Fin (map g xs)) == Qsum (map (fun x => g x * f x) xs).
Proof. induction xs as [|x xs IH]; simpl; [reflexivity|]. rewrite IH. reflexivity. Qed.

(** The draws of a round are the numbers it was built from. *)
Lemma draws_eq P means r (xs : list vec) : length xs = (length means * pp_K P)%nat ->
  (forall j k, (j < length means)%nat -> (k < pp_K P)%nat -> pr_draw r j k = nth (j * pp_K P + k) xs []) ->
  pop_draws P means r = xs.
Proof.
  intros L H. apply (nth_ext _ _ [] []); [rewrite pop_draws_length; auto|]. rewrite pop_draws_length.
  intros i I. assert (K : pp_K P <> 0%nat) by (intros Z; rewrite Z in I; lia).
  pose proof (Nat.div_mod i (pp_K P) K) as E. pose proof (Nat.mod_upper_bound i (pp_K P) K) as B.
  assert (J : (i / pp_K P < length means)%nat) by (apply Nat.div_lt_upper_bound; lia).
  assert (N : nth_error (pop_draws P means r) (i / pp_K P * pp_K P + i mod pp_K P) = Some (pr_draw r (i / pp_K P) (i mod pp_K P)))
    by (apply pop_draws_nth; auto).
  rewrite (H _ _ J B) in N. replace (i / pp_K P * pp_K P + i mod pp_K P)%nat with i in N by lia.
  apply nth_error_nth. exact N.
Qed.

Definition total (f : vec -> Q) (s : pop) : Q := weighted_total f (pop_samples s) (pop_weights s).

Lemma iter_total k P pi f r s : comp_pos P -> pop_means s <> [] -> (0 < pp_K P)%nat -> (forall x, 0 <= pi x) ->
  length (pop_samples s) = length (pop_weights s) ->
  total f (out_state (pop_iter k P pi r s)) ==
  total f s + Qsum (map (fun x => pi x / pop_prob P (pop_means s) x * f x) (pop_draws P (pop_means s) r)).
Proof.
  intros C M K Pi L. destruct (pop_iter k P pi r s) as [s'|s'|e s'] eqn:E.
  - apply pop_iter_done in E. destruct E as (A & B & _). unfold out_state, total. rewrite A, B, total_app; auto.
    rewrite (pop_weigh_fin P pi _ _ C M). unfold batch_w. rewrite total_fin. reflexivity.
  - exfalso. exact (pop_iter_not_running _ _ _ _ _ _ E).
  - destruct k; [|discriminate].
    assert (Z : Forall (fun x => pi x == 0) (pop_draws P (pop_means s) r)) by (apply dm_iter_fails_iff; eauto).
    assert (T : total f s' = total f s).
    { revert E. unfold pop_iter. simpl. unfold dm_adapt. destruct (forallb _ _); [discriminate|]. intros [= _ <-]. reflexivity. }
    unfold out_state. rewrite T, (Qsum_ext _ (fun _ => 0)), Qsum_const; [ring|].
    rewrite Forall_forall in Z. intros x I. rewrite (Z x I). unfold Qdiv. ring.
Qed.

Lemma laws_length P v pts s : length (proposal_laws P v pts s) = (length (pop_means s) * pp_K P)%nat.
Proof.
  unfold proposal_laws. induction (pop_means s) as [|m l IH]; simpl; auto. rewrite app_length, repeat_length, IH. auto.
Qed.
Lemma laws_mass P v pts s : (forall m, In m (pop_means s) -> integral v pts (pp_comp P m) == 1) ->
  forall l, In l (proposal_laws P v pts s) -> mass l == 1.
Proof.
  intros H l I. apply In_each in I. apply in_map_iff in I. destruct I as (m & <- & I).
  unfold mass, cell_law. rewrite map_map. simpl. apply (H m I).
Qed.

Lemma batch_value P pi f v pts s : comp_pos P -> pop_means s <> [] ->
  Qsum (map (fun l => Qsum (map (fun mx => fst mx * (pi (snd mx) / pop_prob P (pop_means s) (snd mx) * f (snd mx))) l)) (proposal_laws P v pts s))
  == Qnat (length (pop_means s) * pp_K P) * integral v pts (fun x => pi x * f x).
Proof.
  intros C M. unfold proposal_laws. rewrite Qsum_each, map_map.
  set (w := fun x => pi x / pop_prob P (pop_means s) x * f x).
  rewrite (Qsum_ext _ (fun m => Qsum (map (fun x => pp_comp P m x * (v * w x)) pts))).
  2:{ intros m _. unfold cell_law. rewrite map_map. apply Qsum_ext. intros x _. simpl. fold (w x). ring. }
  rewrite Qsum_swap.
  rewrite (Qsum_ext _ (fun x => Qnat (length (pop_means s)) * (pi x * f x * v))).
  2:{ intros x _. pose proof (pop_prob_pos P (pop_means s) x C M) as Pp.
      assert (N : 0 < Qnat (length (pop_means s))) by (apply Qnat_pos; destruct (pop_means s); simpl; [congruence|lia]).
      rewrite (Qsum_ext _ (fun m => (v * w x) * pp_comp P m x)) by (intros; ring). rewrite Qsum_scal.
      assert (E : Qsum (map (fun m => pp_comp P m x) (pop_means s)) == Qnat (length (pop_means s)) * pop_prob P (pop_means s) x).
      { unfold pop_prob. rewrite Qsum_scal. field. lra. }
      rewrite E. unfold w. field. lra. }
  rewrite Qsum_scal. unfold integral. unfold Qnat. rewrite Nat2Z.inj_mul, inject_Z_mult. ring.
Qed.

(** One turn of the loop. *)
Lemma batch_unbiased k P pi f v pts rest s : comp_pos P -> pop_means s <> [] -> (0 < pp_K P)%nat -> (forall x, 0 <= pi x) ->
  length (pop_samples s) = length (pop_weights s) -> (forall m, In m (pop_means s) -> integral v pts (pp_comp P m) == 1) ->
  (forall xs j i, (j < length (pop_means s))%nat -> (i < pp_K P)%nat -> pr_draw (rest xs) j i = nth (j * pp_K P + i) xs []) ->
  expect_each (proposal_laws P v pts s) (fun xs => total f (out_state (pop_iter k P pi (rest xs) s))) ==
  total f s + Qnat (length (pop_means s) * pp_K P) * integral v pts (fun x => pi x * f x).
Proof.
  intros C M K Pi L I R.
  rewrite (expect_ext _ _ (fun xs => total f s + Qsum (map (fun x => pi x / pop_prob P (pop_means s) x * f x) xs))).
  - rewrite expect_plus, (expect_const _ (total f s)), expect_total by (apply (laws_mass P v pts s I)).
    rewrite batch_value by auto. reflexivity.
  - intros xs X. rewrite laws_length in X. rewrite iter_total by auto. rewrite (draws_eq P (pop_means s) (rest xs) xs X); [reflexivity|].
    intros; apply R; auto.
Qed.

(** A whole call. *)
Lemma done_len k P pi r s s' : pop_iter k P pi r s = Done s' ->
  length (pop_samples s') = (length (pop_samples s) + length (pop_means s) * pp_K P)%nat /\
  length (pop_means s') = length (pop_means s) /\
  (length (pop_samples s) = length (pop_weights s) -> length (pop_samples s') = length (pop_weights s')).
Proof.
  intros E. apply pop_iter_done in E. destruct E as (A & B & C & _). rewrite A, B. unfold pop_weigh.
  rewrite !app_length, map_length, pop_draws_length. repeat split; auto; lia.
Qed.
Lemma ceil_step a c : (0 < a)%nat -> (0 < c)%nat -> ((a + c - 1) / c = S ((a - c + c - 1) / c))%nat.
Proof.
  intros A C. destruct (Nat.le_gt_cases c a).
  - replace (a + c - 1)%nat with (a - c + c - 1 + 1 * c)%nat by lia. rewrite Nat.div_add by lia. lia.
  - replace (a - c + c - 1)%nat with (c - 1)%nat by lia. rewrite (Nat.div_small (c - 1)) by lia.
    symmetry. apply Nat.div_unique with (r := (a - 1)%nat); lia.
Qed.

Section Call.
Variable k : pop_kind.
Variable P : pop_params.
Variable pi f : vec -> Q.
Variable v : Q.
Variable pts : list vec.
Variable rest : nat -> list vec -> pop_round.
Hypothesis C : comp_pos P.
Hypothesis K : (0 < pp_K P)%nat.
Hypothesis Pi : forall x, 0 <= pi x.
Hypothesis Live : k = LAIS \/ forall x, 0 < pi x.
Hypothesis I1 : forall m, integral v pts (pp_comp P m) == 1.
Hypothesis R : forall i xs j l, (j < pp_N P)%nat -> (l < pp_K P)%nat -> pr_draw (rest i xs) j l = nth (j * pp_K P + l) xs [].

Lemma iter_live r s : pop_means s <> [] -> exists s', pop_iter k P pi r s = Done s'.
Proof.
  intros M. destruct (pop_iter k P pi r s) as [s'|s'|e s'] eqn:E; eauto.
  - exfalso. exact (pop_iter_not_running _ _ _ _ _ _ E).
  - exfalso. destruct Live as [->|Q]; [discriminate|]. destruct k; [|discriminate].
    assert (Z : Forall (fun x => pi x == 0) (pop_draws P (pop_means s) r)) by (apply dm_iter_fails_iff; eauto).
    destruct (pop_draws P (pop_means s) r) as [|x l] eqn:D.
    + pose proof (pop_draws_length P (pop_means s) r) as Y. rewrite D in Y. destruct (pop_means s); [auto|]. simpl in Y. lia.
    + inversion Z; subst. specialize (Q x). lra.
Qed.

Definition regular (s : pop) : Prop :=
  length (pop_means s) = pp_N P /\ pop_means s <> [] /\ length (pop_samples s) = length (pop_weights s).
Lemma regular_iter r s : regular s -> regular (out_state (pop_iter k P pi r s)).
Proof.
  intros (A & B & D). destruct (iter_live r s B) as (s' & E). rewrite E. simpl. apply done_len in E. destruct E as (E1 & E2 & E3).
  repeat split; [congruence| |auto]. intros Z. rewrite Z in E2. destruct (pop_means s); [auto|discriminate].
Qed.
Lemma turns_const t : forall s c, expect_turns k P pi v pts rest t s (fun _ => c) == c.
Proof.
  induction t as [|t IH]; intros s c; simpl; [reflexivity|].
  rewrite (expect_ext _ _ (fun _ => c)) by (intros; apply IH). apply expect_const. apply laws_mass. auto.
Qed.
Lemma turns_ext t : forall s G H, (forall tape, length tape = t -> G tape == H tape) ->
  expect_turns k P pi v pts rest t s G == expect_turns k P pi v pts rest t s H.
Proof.
  induction t as [|t IH]; intros s G H E; simpl; [apply E; auto|].
  apply expect_ext. intros xs _. apply IH. intros tape L. apply E. simpl. auto.
Qed.

Lemma call_unbiased n timeout t : forall s e, regular s -> e < timeout -> (forall i xs, pr_clock (rest i xs) < timeout) ->
  let c := (pp_N P * pp_K P)%nat in let b := ((n - length (pop_samples s) + c - 1) / c)%nat in (b <= t)%nat ->
  expect_turns k P pi v pts rest t s (fun tape => total f (out_state (pop_loop k P pi n timeout tape e s))) ==
  total f s + Qnat (b * c) * integral v pts (fun x => pi x * f x).
Proof.
  induction t as [|t IH]; intros s e Rs He Cl c b Hb.
  - destruct Rs as (A & B & D).
    assert (Hc : (0 < c)%nat) by (unfold c; rewrite <- A; destruct (pop_means s); [congruence|simpl; nia]).
    assert (n - length (pop_samples s) = 0)%nat as N0.
    { destruct (n - length (pop_samples s))%nat eqn:Q; auto. exfalso. unfold b in Hb. rewrite ceil_step in Hb by lia. lia. }
    assert (B0 : b = 0%nat) by lia. rewrite B0. simpl.
    assert ((length (pop_samples s) <? n)%nat = false) as -> by (apply Nat.ltb_ge; lia). simpl. unfold Qnat. simpl. ring.
  - assert (Rs' := Rs). destruct Rs' as (A & B & D).
    assert (Hc : (0 < c)%nat) by (unfold c; rewrite <- A; destruct (pop_means s); [congruence|simpl; nia]).
    destruct (Nat.ltb_spec (length (pop_samples s)) n) as [L|L].
    + assert (Eb : b = S ((n - (length (pop_samples s) + c) + c - 1) / c)).
      { unfold b. rewrite ceil_step by lia. f_equal. f_equal. lia. }
      simpl expect_turns.
      rewrite (expect_ext _ _ (fun xs => total f (out_state (pop_iter k P pi (rest t xs) s)) +
                 Qnat ((b - 1) * c) * integral v pts (fun x => pi x * f x))).
      2:{ intros xs _. destruct (iter_live (rest t xs) s B) as (s' & E).
          assert (Rn := regular_iter (rest t xs) s Rs). rewrite E in Rn |- *. simpl out_state in Rn |- *.
          apply done_len in E as Ed. destruct Ed as (E1 & E2 & E3).
          assert (Q : ((n - length (pop_samples s') + c - 1) / c = b - 1)%nat).
          { rewrite E1, A. fold c. lia. }
          rewrite (turns_ext _ _ _ (fun tape => total f (out_state (pop_loop k P pi n timeout tape (pr_clock (rest t xs)) s')))).
          - rewrite IH; auto; fold c; rewrite Q; [reflexivity|lia].
          - intros tape _. cbn [pop_loop]. apply Nat.ltb_lt in L. rewrite L. unfold Qltb.
            destruct (Qle_bool timeout e) eqn:Z; [apply Qle_bool_iff in Z; lra|]. simpl. reflexivity. }
      rewrite expect_plus, expect_const by (apply laws_mass; auto).
      rewrite (batch_unbiased k P pi f v pts (rest t) s); auto.
      2:{ intros xs j i J Ii. apply R; [lia|auto]. }
      rewrite A. fold c. replace (Qnat (b * c)) with (Qnat (c + (b - 1) * c)) by (f_equal; nia).
      unfold Qnat. rewrite Nat2Z.inj_add, inject_Z_plus. ring.
    + assert (b = 0)%nat as -> by (unfold b; apply Nat.div_small; lia).
      rewrite (turns_ext _ _ _ (fun _ => total f s)).
      * rewrite turns_const. unfold Qnat. simpl. ring.
      * intros tape _. destruct tape; simpl; apply Nat.ltb_ge in L; rewrite L; reflexivity.
Qed.
End Call.
