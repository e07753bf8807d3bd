(** Long runs of Metropolis-Hastings on finitely many states. *)
From Coq Require Import List Bool Arith Lia QArith Qabs Lqa.
Import ListNotations.
From Verif Require Import Prelude.Py Prelude.QBase Prelude.QFacts Model.Base Model.MetropolisHastings Model.MHLaw Spec.ChainSpec Proofs.MHLawProofs.
Open Scope Q_scope.

(** ** Sums *)
Lemma over_ext k f g : (forall i, (i < k)%nat -> f i == g i) -> over k f == over k g.
Proof. intros H. apply Qsum_ext. intros i I. apply in_seq in I. apply H. lia. Qed.
Lemma over_plus k f g : over k (fun i => f i + g i) == over k f + over k g.
Proof. apply Qsum_plus. Qed.
Lemma over_scal k c f : over k (fun i => c * f i) == c * over k f.
Proof. unfold over. induction (seq 0 k) as [|x l IH]; simpl; [ring|]. rewrite IH. ring. Qed.
Lemma over_le k f g : (forall i, (i < k)%nat -> f i <= g i) -> over k f <= over k g.
Proof.
  intros H. unfold over. assert (H' : forall i, In i (seq 0 k) -> f i <= g i) by (intros i I; apply in_seq in I; apply H; lia).
  clear H. induction (seq 0 k) as [|x l IH]; simpl; [lra|]. pose proof (H' x (or_introl eq_refl)). specialize (IH (fun i I => H' i (or_intror I))). lra.
Qed.
Lemma over_nonneg k f : (forall i, (i < k)%nat -> 0 <= f i) -> 0 <= over k f.
Proof. intros H. assert (E : over k (fun _ => 0 * 0) == 0) by (rewrite over_scal; ring). rewrite <- E. apply over_le. intros i I. specialize (H i I). lra. Qed.
Lemma over_abs k f : Qabs (over k f) <= over k (fun i => Qabs (f i)).
Proof.
  unfold over. induction (seq 0 k) as [|x l IH]; [apply Qle_refl|].
  apply Qle_trans with (Qabs (f x) + Qabs (Qsum (map f l))); [apply Qabs_triangle|apply Qplus_le_compat; [apply Qle_refl|exact IH]].
Qed.
Lemma sum_swap (l1 l2 : list nat) f : Qsum (map (fun i => Qsum (map (fun j => f i j) l2)) l1) == Qsum (map (fun j => Qsum (map (fun i => f i j) l1)) l2).
Proof.
  induction l1 as [|x l IH]; simpl.
  - induction l2 as [|y l2 IH]; simpl; [reflexivity|]. rewrite <- IH. ring.
  - rewrite IH, <- Qsum_plus. reflexivity.
Qed.
Lemma over_swap k f : over k (fun i => over k (fun j => f i j)) == over k (fun j => over k (fun i => f i j)).
Proof. apply sum_swap. Qed.
Lemma over_one k f i : (i < k)%nat -> over k (fun j => if (i =? j)%nat then f j else 0) == f i.
Proof.
  intros H. unfold over.
  assert (G : forall a n, Qsum (map (fun j => if (i =? j)%nat then f j else 0) (seq a n)) == if ((a <=? i) && (i <? a + n))%nat then f i else 0).
  { intros a n. revert a. induction n as [|n IH]; intros a; simpl.
    - destruct (Nat.leb_spec a i), (Nat.ltb_spec i (a + 0)); simpl; try lia; reflexivity.
    - rewrite IH. destruct (Nat.eqb_spec i a) as [->|N].
      + destruct (Nat.leb_spec (S a) a), (Nat.leb_spec a a), (Nat.ltb_spec a (a + S n)); simpl; try lia. ring.
      + destruct (Nat.leb_spec (S a) i), (Nat.leb_spec a i), (Nat.ltb_spec i (S a + n)), (Nat.ltb_spec i (a + S n)); simpl; try lia; ring. }
  rewrite G. destruct (Nat.leb_spec 0 i), (Nat.ltb_spec i (0 + k)); simpl; try lia. reflexivity.
Qed.

Lemma Qpow_nonneg a n : 0 <= a -> 0 <= Qpow a n.
Proof. intros H. induction n; cbn [Qpow]; [lra|]. apply Qmult_le_0_compat; auto. Qed.
Lemma Qpow_mono a b n : 0 <= a -> a <= b -> Qpow a n <= Qpow b n.
Proof.
  intros A B. induction n; cbn [Qpow]; [lra|]. pose proof (Qpow_nonneg a n A). 
  apply Qmult_le_compat_nonneg; split; auto.
Qed.
Lemma Qpow_le1 a n : 0 <= a -> a <= 1 -> Qpow a n <= 1.
Proof. intros A B. induction n; cbn [Qpow]; [lra|]. pose proof (Qpow_nonneg a n A). nra. Qed.

(** ** Jump chain *)
Section Jumps.
Variable k : nat.
Variable J : nat -> nat -> Q.
Variable mu : nat -> Q.
Variable beta : Q.
Hypothesis J1 : forall i, (i < k)%nat -> over k (J i) == 1.
Hypothesis J0 : forall i j, (i < k)%nat -> (j < k)%nat -> 0 <= J i j.
Hypothesis M1 : over k mu == 1.
Hypothesis M0 : forall j, (j < k)%nat -> 0 <= mu j.
Hypothesis Inv : forall j, (j < k)%nat -> over k (fun i => mu i * J i j) == mu j.
Hypothesis B1 : beta <= 1.
Hypothesis Db : forall i j, (i < k)%nat -> (j < k)%nat -> beta * mu j <= J i j.

Fixpoint jumps (t : nat) (g : nat -> Q) (i : nat) : Q :=
  match t with O => g i | S t' => over k (fun j => J i j * jumps t' g j) end.
Lemma jumps_mean t g : over k (fun i => mu i * jumps t g i) == over k (fun i => mu i * g i).
Proof.
  induction t as [|t IH]; simpl; [reflexivity|]. rewrite <- IH.
  rewrite (over_ext k _ (fun i => over k (fun j => mu i * J i j * jumps t g j))).
  - rewrite over_swap. apply over_ext. intros j Hj.
    rewrite (over_ext k _ (fun i => jumps t g j * (mu i * J i j))) by (intros; ring). rewrite over_scal, Inv by auto. ring.
  - intros i Hi. rewrite <- over_scal. apply over_ext. intros. ring.
Qed.
Lemma jumps_close t : forall g i, (forall j, (j < k)%nat -> 0 <= g j <= 1) -> (i < k)%nat ->
  Qabs (jumps t g i - over k (fun i => mu i * g i)) <= Qpow (1 - beta) t.
Proof.
  induction t as [|t IH]; intros g i G Hi; cbn [jumps Qpow].
  - assert (0 <= over k (fun i => mu i * g i)).
    { apply over_nonneg. intros j Hj. destruct (G j Hj). apply Qmult_le_0_compat; auto. }
    assert (over k (fun i => mu i * g i) <= 1).
    { rewrite <- M1. apply over_le. intros j Hj. destruct (G j Hj). pose proof (M0 j Hj). nra. }
    destruct (G i Hi). apply Qabs_case; lra.
  - set (a := over k (fun i => mu i * g i)).
    assert (E : over k (fun j => J i j * jumps t g j) - a == over k (fun j => (J i j - beta * mu j) * (jumps t g j - a))).
    { rewrite (over_ext k (fun j => (J i j - beta * mu j) * (jumps t g j - a))
        (fun j => (J i j * jumps t g j + (- a) * J i j) + (beta * a * mu j + (- beta) * (mu j * jumps t g j)))) by (intros; ring).
      rewrite !over_plus, !over_scal, J1, M1, jumps_mean by auto. fold a. ring. }
    rewrite E. apply Qle_trans with (1 := over_abs _ _).
    apply Qle_trans with (over k (fun j => Qpow (1 - beta) t * (J i j - beta * mu j))).
    + apply over_le. intros j Hj. rewrite Qabs_Qmult. pose proof (Db i j Hi Hj). rewrite (Qabs_pos (J i j - beta * mu j)) by lra.
      pose proof (IH g j G Hj) as Q. fold a in Q. rewrite Qmult_comm. apply Qmult_le_compat_r; [exact Q|lra].
    + rewrite over_scal. assert (E2 : over k (fun j => J i j - beta * mu j) == 1 - beta).
      { rewrite (over_ext k _ (fun j => J i j + (- beta) * mu j)) by (intros; ring). rewrite over_plus, over_scal, J1, M1 by auto. ring. }
      rewrite E2. lra.
Qed.

(** Jumps that fail with a small chance. *)
Variable S : nat -> nat -> Q.
Variable d : Q.
Hypothesis S0 : forall i j, (i < k)%nat -> (j < k)%nat -> 0 <= S i j <= J i j.
Hypothesis Sd : forall i, (i < k)%nat -> 1 - d <= over k (S i).
Fixpoint subs (t : nat) (g : nat -> Q) (i : nat) : Q :=
  match t with O => g i | Datatypes.S t' => over k (fun j => S i j * subs t' g j) end.
Lemma subs_le t : forall g i, (forall j, (j < k)%nat -> 0 <= g j <= 1) -> (i < k)%nat ->
  0 <= subs t g i /\ subs t g i <= jumps t g i /\ jumps t g i <= 1 /\ jumps t g i <= subs t g i + Qnat t * d.
Proof.
  induction t as [|t IH]; intros g i G Hi; cbn [jumps subs Qpow].
  - destruct (G i Hi). change (Qnat 0) with 0. repeat split; lra.
  - repeat split.
    + apply over_nonneg. intros j Hj. destruct (IH g j G Hj). destruct (S0 i j Hi Hj). apply Qmult_le_0_compat; auto.
    + apply over_le. intros j Hj. destruct (IH g j G Hj) as (A & B & _). destruct (S0 i j Hi Hj). apply Qmult_le_compat_nonneg; split; auto.
    + rewrite <- (J1 i Hi). apply over_le. intros j Hj. destruct (IH g j G Hj) as (A & B & C & _). pose proof (J0 i j Hi Hj). nra.
    + assert (E : over k (fun j => J i j * jumps t g j) <= over k (fun j => (S i j * subs t g j + (Qnat t * d) * S i j) + (J i j + (-1) * S i j))).
      { apply over_le. intros j Hj. destruct (IH g j G Hj) as (A & B & C & D). destruct (S0 i j Hi Hj) as [S1 S2].
        assert (S i j * jumps t g j <= S i j * (subs t g j + Qnat t * d)) by (rewrite !(Qmult_comm (S i j)); apply Qmult_le_compat_r; auto).
        assert ((J i j - S i j) * jumps t g j <= (J i j - S i j) * 1) by (rewrite !(Qmult_comm (J i j - S i j)); apply Qmult_le_compat_r; [auto|lra]).
        lra. }
      rewrite !over_plus, !over_scal, J1 in E by auto. pose proof (Sd i Hi) as Si.
      assert (Sle : over k (S i) <= 1) by (rewrite <- (J1 i Hi); apply over_le; intros j Hj; apply S0; auto).
      assert (D0 : 0 <= d) by lra.
      assert (T : Qnat (Datatypes.S t) == Qnat t + 1).
      { unfold Qnat. rewrite Nat2Z.inj_succ. unfold Z.succ. rewrite inject_Z_plus. reflexivity. }
      rewrite T. assert (0 <= Qnat t) by (unfold Qnat, Qle; simpl; lia).
      assert (Qnat t * d * over k (S i) <= Qnat t * d * 1).
      { rewrite !(Qmult_comm (Qnat t * d)). apply Qmult_le_compat_r; [auto|]. apply Qmult_le_0_compat; auto. }
      lra.
Qed.
End Jumps.

(** ** The sampler *)
Lemma tape_mean_scal om n c : forall f, tape_mean om n (fun t => c * f t) == c * tape_mean om n f.
Proof.
  induction n as [|n IH]; intros f; cbn [tape_mean]; [reflexivity|].
  rewrite (Qsum_ext _ (fun wa => (fst wa * tape_mean om n (fun t => f (snd wa :: t))) * c)).
  - rewrite Qsum_factor. ring.
  - intros wa _. rewrite IH. ring.
Qed.
Lemma tape_mean_plus om n : forall f g, tape_mean om n (fun t => f t + g t) == tape_mean om n f + tape_mean om n g.
Proof.
  induction n as [|n IH]; intros f g; cbn [tape_mean]; [reflexivity|]. rewrite <- Qsum_plus. apply Qsum_ext. intros wa _. rewrite IH. ring.
Qed.
Lemma tape_mean_sum om n (l : list nat) c f : tape_mean om n (fun t => Qsum (map (fun j => c j * f j t) l)) == Qsum (map (fun j => c j * tape_mean om n (f j)) l) + 0 * tape_mean om n (fun _ => 0).
Proof.
  induction l as [|j l IH]; cbn [map Qsum fold_right].
  - assert (E : tape_mean om n (fun _ => 0) == 0 * tape_mean om n (fun _ => 0)).
    { rewrite <- tape_mean_scal. apply tape_mean_ext. intros; ring. }
    rewrite E at 1. ring.
  - rewrite (tape_mean_plus om n (fun t => c j * f j t)), tape_mean_scal.
    change (tape_mean om n (fun t => Qsum (map (fun j => c j * f j t) l)) == Qsum (map (fun j => c j * tape_mean om n (f j)) l) + 0 * tape_mean om n (fun _ => 0)) in IH.
    change (c j * tape_mean om n (f j) + tape_mean om n (fun t => Qsum (map (fun j => c j * f j t) l)) == c j * tape_mean om n (f j) + Qsum (map (fun j => c j * tape_mean om n (f j)) l) + 0 * tape_mean om n (fun _ => 0)).
    rewrite IH. ring.
Qed.
Lemma tape_mean_over om n k c f : tape_mean om n (fun t => over k (fun j => c j * f j t)) == over k (fun j => c j * tape_mean om n (f j)).
Proof. unfold over. rewrite tape_mean_sum. ring. Qed.

Definition in_law (om : list (Q * attempt)) (a : attempt) : Prop := exists w, In (w, a) om.

Section Sampler.
Variable P : mh_params.
Variable lp : vec -> fl Q.
Variable om : list (Q * attempt).
Variable n k : nat.
Variable at_ : nat -> vec -> bool.
Variable F : nat -> nat -> Q.
Hypothesis W1 : Qsum (map fst om) == 1.
Hypothesis W0 : forall wa, In wa om -> 0 <= fst wa.
Hypothesis Mv : forall i j x, (i < k)%nat -> (j < k)%nat -> at_ i x = true -> move_prob P lp om x (at_ j) == F i j.
Hypothesis Ac : forall i x wa, (i < k)%nat -> at_ i x = true -> In wa om -> mh_accept P lp x (mh_propose P x (snd wa)) (snd wa) = true ->
  in_state k at_ (mh_propose P x (snd wa)).
Hypothesis Dj : forall x i j, (i < k)%nat -> (j < k)%nat -> at_ i x = true -> at_ j x = true -> i = j.
Hypothesis Live : forall i, (i < k)%nat -> 0 < rate k F i.

Lemma one_state x : in_state k at_ x -> over k (fun j => if at_ j x then 1 else 0) == 1.
Proof.
  intros (i & I & A). rewrite (over_ext k _ (fun j => if (i =? j)%nat then (fun _ => 1) j else 0)); [now rewrite (over_one k (fun _ => 1))|].
  intros j Hj. destruct (Nat.eqb_spec i j) as [<-|N]; [now rewrite A|]. destruct (at_ j x) eqn:E; [|reflexivity]. destruct (N (Dj x i j I Hj A E)).
Qed.
Lemma value_state x g i : (i < k)%nat -> at_ i x = true -> over k (fun j => g j * (if at_ j x then 1 else 0)) == g i.
Proof.
  intros I A. rewrite (over_ext k _ (fun j => if (i =? j)%nat then g j else 0)); [now rewrite over_one|].
  intros j Hj. destruct (Nat.eqb_spec i j) as [<-|N]; [rewrite A; ring|]. destruct (at_ j x) eqn:E; [|ring]. destruct (N (Dj x i j I Hj A E)).
Qed.
Lemma Qsum_over (l : list (Q * attempt)) (f : nat -> Q * attempt -> Q) : Qsum (map (fun wa => over k (fun j => f j wa)) l) == over k (fun j => Qsum (map (f j) l)).
Proof.
  induction l as [|wa l IH]; cbn [map Qsum fold_right].
  - assert (E : over k (fun _ => 0 * 0) == 0) by (rewrite over_scal; ring). rewrite <- E. apply over_ext. intros; cbn; ring.
  - change (over k (fun j => f j wa) + Qsum (map (fun wa => over k (fun j => f j wa)) l) == over k (fun j => f j wa + Qsum (map (f j) l))).
    rewrite IH, over_plus. reflexivity.
Qed.
Lemma accept_rate x i : (i < k)%nat -> at_ i x = true -> move_prob P lp om x (fun _ => true) == rate k F i.
Proof.
  intros I A. unfold rate. rewrite <- (over_ext k (fun j => move_prob P lp om x (at_ j)) (F i)) by (intros; now apply Mv).
  unfold move_prob. rewrite <- Qsum_over. apply Qsum_ext. intros wa J. cbv zeta. rewrite over_scal. rewrite andb_true_r.
  destruct (mh_accept P lp x (mh_propose P x (snd wa)) (snd wa)) eqn:E; cbn [andb].
  - rewrite one_state by (eapply Ac; eauto). ring.
  - assert (Z : over k (fun _ => 0 * 0) == 0) by (rewrite over_scal; ring).
    rewrite (over_ext k (fun _ => 0) (fun _ => 0 * 0)) by (intros; ring). rewrite Z. ring.
Qed.
Lemma rate_le1 i x : (i < k)%nat -> at_ i x = true -> rate k F i <= 1.
Proof.
  intros I A. rewrite <- (accept_rate x i I A), <- W1. unfold move_prob. clear - W0. induction om as [|wa l IH]; cbn [map Qsum fold_right]; [lra|].
  specialize (IH (fun w I => W0 w (or_intror I))). pose proof (W0 wa (or_introl eq_refl)). cbv zeta in *. unfold Qsum in *.
  destruct (mh_accept _ _ _ _ _); cbn [andb]; lra.
Qed.

Definition jump (i j : nat) : Q := F i j / rate k F i.
Definition sub (i j : nat) : Q := jump i j * (1 - Qpow (1 - rate k F i) n).
Lemma step_state timeout x s i j : 0 < timeout -> (forall wa, In wa om -> at_clock (snd wa) < timeout) -> (i < k)%nat -> (j < k)%nat -> at_ i x = true ->
  step_prob P lp timeout om n x s (at_ j) == sub i j.
Proof.
  intros T C I J A. pose proof (step_law P lp timeout om x s (at_ j) n W1 T C) as E.
  change (hit P lp x om (fun _ => true)) with (move_prob P lp om x (fun _ => true)) in E. change (hit P lp x om (at_ j)) with (move_prob P lp om x (at_ j)) in E.
  assert (R := accept_rate x i I A). assert (L := Live i I). rewrite (Mv i j x I J A) in E.
  assert (E' : Qpow (1 - move_prob P lp om x (fun _ => true)) n == Qpow (1 - rate k F i) n) by (apply Qpow_proper; rewrite R; reflexivity).
  rewrite E', R in E. unfold sub, jump.
  assert (E2 : step_prob P lp timeout om n x s (at_ j) == step_prob P lp timeout om n x s (at_ j) * rate k F i / rate k F i) by (field; lra).
  rewrite E2, E. field. lra.
Qed.

Lemma step_lands timeout x i : (i < k)%nat -> at_ i x = true -> forall tape acc el y s x' s', (acc = true -> in_state k at_ y) -> el < timeout ->
  Forall (fun a => in_law om a /\ at_clock a < timeout) tape ->
  mh_step_loop P lp timeout x tape acc el y s = SDone x' s' -> in_state k at_ x' /\ mh_types s' <> [].
Proof.
  intros I A. induction tape as [|a t IH]; intros acc el y s x' s' Y E Fo H; cbn [mh_step_loop] in H.
  - destruct acc; cbn [negb andb] in H.
    + destruct (set_last (mh_types s) ACCEPT) eqn:Q; [|discriminate]. injection H as <- <-. split; auto. cbn [mh_types].
      unfold set_last in Q. destruct (mh_types s); [discriminate|]. injection Q as <-. intros Z. apply app_eq_nil in Z. destruct Z. discriminate.
    + assert (Qltb el timeout = true) as Z by now apply Qltb_true. rewrite Z in H. discriminate.
  - destruct acc; cbn [negb andb] in H.
    + destruct (set_last (mh_types s) ACCEPT) eqn:Q; [|discriminate]. injection H as <- <-. split; auto. cbn [mh_types].
      unfold set_last in Q. destruct (mh_types s); [discriminate|]. injection Q as <-. intros Z. apply app_eq_nil in Z. destruct Z. discriminate.
    + assert (Qltb el timeout = true) as Z by now apply Qltb_true. rewrite Z in H. inversion Fo as [|? ? [(w & Wa) Ca] Ft]; subst.
      apply IH in H; auto. intros K. apply (Ac i x (w, a) I A Wa K).
Qed.

(** What follows a step only depends on the state reached. *)
Definition respects (K : mh -> Q) (c : nat -> Q) : Prop := forall s j, (j < k)%nat -> at_ j (mh_current s) = true -> mh_types s <> [] -> K s == c j.
Lemma advance_mean timeout lab s i K c : 0 < timeout -> (forall wa, In wa om -> at_clock (snd wa) < timeout) -> (i < k)%nat -> at_ i (mh_current s) = true ->
  respects K c ->
  tape_mean om n (fun a => match mh_advance P lp timeout lab a s with Done s' => K s' | _ => 0 end) == over k (fun j => sub i j * c j).
Proof.
  intros T C I A R.
  rewrite (tape_mean_ext om n _ (fun a => over k (fun j => c j * returned_in (at_ j) (mcmc_step P lp timeout a (mh_current s) s)))).
  - rewrite tape_mean_over. apply over_ext. intros j J. change (tape_mean om n _) with (step_prob P lp timeout om n (mh_current s) s (at_ j)).
    rewrite (step_state timeout (mh_current s) s i j) by auto. ring.
  - intros t Fo. unfold mh_advance. destruct (mcmc_step P lp timeout t (mh_current s) s) as [x s'|s'|e s'] eqn:E.
    + destruct (step_lands timeout (mh_current s) i I A t false 0 (mh_current s) s x s') as [(j & J & X) Ty]; auto; [discriminate| |].
      { rewrite Forall_forall in Fo |- *. intros a Ia. destruct (Fo a Ia) as (w & Wa). split; [exists w; auto|]. apply (C (w, a) Wa). }
      destruct (set_last (mh_types s') lab) as [ty|e] eqn:L.
      * cbn [returned_in]. rewrite (value_state x c j J X). apply R; auto. cbn [mh_types].
        unfold set_last in L. destruct (mh_types s'); [discriminate|]. injection L as <-. intros Z. apply app_eq_nil in Z. destruct Z. discriminate.
      * unfold set_last in L. destruct (mh_types s'); [congruence|discriminate].
    + cbn [returned_in]. assert (Z : over k (fun j => 0 * c j) == 0) by (rewrite over_scal; ring). rewrite <- Z at 1. apply over_ext. intros; ring.
    + cbn [returned_in]. assert (Z : over k (fun j => 0 * c j) == 0) by (rewrite over_scal; ring). rewrite <- Z at 1. apply over_ext. intros; ring.
Qed.

Lemma steps_mean_ext els : forall G H, (forall t, G t == H t) -> steps_mean om n els G == steps_mean om n els H.
Proof.
  induction els as [|e r IH]; intros G H E; cbn [steps_mean]; [apply E|]. apply tape_mean_ext. intros t _. apply IH. intros l. apply E.
Qed.
Lemma steps_mean_zero els : steps_mean om n els (fun _ => 0) == 0.
Proof.
  induction els as [|e r IH]; cbn [steps_mean]; [reflexivity|]. rewrite (tape_mean_ext om n _ (fun _ => 0)) by (intros; apply IH). now apply tape_mean_const.
Qed.

Lemma steps_phase timeout K c : respects K c -> forall els s i, (i < k)%nat -> at_ i (mh_current s) = true -> (els = [] -> mh_types s <> []) ->
  (forall e, In e els -> 0 < timeout - e /\ forall wa, In wa om -> at_clock (snd wa) < timeout - e) ->
  steps_mean om n els (fun tape => match mh_steps_n P lp timeout (length els) tape s with (Done s', _) => K s' | _ => 0 end) == subs k sub (length els) c i.
Proof.
  intros R. induction els as [|e r IH]; intros s i I A Ty C.
  - simpl. apply R; auto.
  - cbn [steps_mean length subs]. destruct (C e (or_introl eq_refl)) as [Ce1 Ce2].
    rewrite (tape_mean_ext om n _ (fun a => match mh_advance P lp (timeout - e) DECORRELATION a s with
      Done s' => (fun s' => steps_mean om n r (fun l => match mh_steps_n P lp timeout (length r) l s' with (Done s2, _) => K s2 | _ => 0 end)) s' | _ => 0 end)).
    + rewrite (advance_mean (timeout - e) DECORRELATION s i _ (subs k sub (length r) c)); auto; [reflexivity|].
      intros s' j J X Tx. apply IH; auto. intros e' E'. apply C. right. exact E'.
    + intros t _. destruct (mh_advance P lp (timeout - e) DECORRELATION t s) as [s'|s'|x s'] eqn:E.
      * apply steps_mean_ext. intros l. cbn [mh_steps_n se_elapsed se_attempts]. rewrite E. reflexivity.
      * rewrite <- (steps_mean_zero r) at 1. apply steps_mean_ext. intros l. cbn [mh_steps_n se_elapsed se_attempts]. rewrite E. reflexivity.
      * rewrite <- (steps_mean_zero r) at 1. apply steps_mean_ext. intros l. cbn [mh_steps_n se_elapsed se_attempts]. rewrite E. reflexivity.
Qed.

Lemma burn_phase (H : list step_ev -> mh -> Q) els' c : respects (fun s => steps_mean om n els' (fun t => H t s)) c ->
  (forall wa, In wa om -> at_clock (snd wa) < 60) ->
  forall els s i, (i < k)%nat -> at_ i (mh_current s) = true -> (els = [] -> mh_types s <> []) ->
  steps_mean om n (els ++ els') (fun tape => match mh_burn P lp (length els) tape s with (Done s', t) => H t s' | _ => 0 end) == subs k sub (length els) c i.
Proof.
  intros R C. induction els as [|e r IH]; intros s i I A Ty.
  - simpl. apply (R s i I A). auto.
  - cbn [app steps_mean length subs].
    rewrite (tape_mean_ext om n _ (fun a => match mh_advance P lp 60 BURN_IN a s with
      Done s' => (fun s' => steps_mean om n (r ++ els') (fun l => match mh_burn P lp (length r) l s' with (Done s2, t) => H t s2 | _ => 0 end)) s' | _ => 0 end)).
    + rewrite (advance_mean 60 BURN_IN s i _ (subs k sub (length r) c)); auto; [reflexivity|lra|]. intros s' j J X Tx. apply IH; auto.
    + intros t _. destruct (mh_advance P lp 60 BURN_IN t s) as [s'|s'|x s'] eqn:E.
      * apply steps_mean_ext. intros l. cbn [mh_burn se_attempts]. rewrite E. reflexivity.
      * rewrite <- (steps_mean_zero (r ++ els')) at 1. apply steps_mean_ext. intros l. cbn [mh_burn se_attempts]. rewrite E. reflexivity.
      * rewrite <- (steps_mean_zero (r ++ els')) at 1. apply steps_mean_ext. intros l. cbn [mh_burn se_attempts]. rewrite E. reflexivity.
Qed.

Notation states_in := (states_in k at_).
Lemma states_in_at b x i : (i < k)%nat -> at_ i x = true -> states_in b x = b i.
Proof.
  intros I A. unfold ChainSpec.states_in. destruct (b i) eqn:B.
  - apply existsb_exists. exists i. split; [apply in_seq; lia|]. now rewrite A, B.
  - destruct (existsb _ _) eqn:E; auto. apply existsb_exists in E. destruct E as (j & J & X). apply in_seq in J. apply andb_true_iff in X. destruct X as [X Y].
    rewrite (Dj x i j I ltac:(lia) A X) in B. congruence.
Qed.
Definition last_of (b : nat -> bool) (s : mh) : Q :=
  match set_last (mh_types s) SAMPLE with Ok _ => if states_in b (mh_current s) then 1 else 0 | Raise _ => 0 end.
Lemma last_respects b : respects (last_of b) (fun j => if b j then 1 else 0).
Proof.
  intros s j J A Ty. unfold last_of, set_last. destruct (mh_types s); [congruence|]. rewrite (states_in_at b _ j J A). reflexivity.
Qed.
Lemma sample_loop_value timeout b tape s :
  match mh_sample_loop P lp timeout 1 1 tape s [] with (Done _, [x], _) => if states_in b x then 1 else 0 | _ => 0 end =
  match mh_steps_n P lp timeout (mh_steps P) tape s with (Done s', _) => last_of b s' | _ => 0 end.
Proof.
  cbn [mh_sample_loop mcmc]. destruct (mh_steps_n P lp timeout (mh_steps P) tape s) as [[s'|s'|e s'] t]; auto.
  unfold last_of. destruct (set_last (mh_types s') SAMPLE); auto.
Qed.
Lemma subs_app b t c i : subs k sub (b + t) c i == subs k sub b (subs k sub t c) i.
Proof. revert i. induction b as [|b IH]; intros i; cbn [Nat.add subs]; [reflexivity|]. apply over_ext. intros j _. now rewrite IH. Qed.
Lemma subs_ext t : forall c d i, (forall j, (j < k)%nat -> c j == d j) -> (i < k)%nat -> subs k sub t c i == subs k sub t d i.
Proof. induction t as [|t IH]; intros c d i E I; cbn [subs]; auto. apply over_ext. intros j J. now rewrite (IH c d j E J). Qed.

Lemma sample_value timeout b s i elb els : (i < k)%nat -> at_ i (mh_current s) = true -> (0 < mh_steps P)%nat ->
  length elb = (if mh_is_init s then 0 else mh_burnin P)%nat -> length els = mh_steps P ->
  (forall wa, In wa om -> at_clock (snd wa) < 60) ->
  (forall e, In e els -> 0 < timeout - e /\ forall wa, In wa om -> at_clock (snd wa) < timeout - e) ->
  sample_prob P lp timeout om n (elb ++ els) s (states_in b) == subs k sub (length (elb ++ els)) (fun j => if b j then 1 else 0) i.
Proof.
  intros I A St Lb Ls C60 Ce. unfold sample_prob.
  assert (Ne : els <> []) by (intros Z; rewrite Z in Ls; simpl in Ls; lia).
  assert (SP : forall s' j, (j < k)%nat -> at_ j (mh_current s') = true ->
    steps_mean om n els (fun tape => match mh_sample_loop P lp timeout 1 1 tape s' [] with (Done _, [x], _) => if states_in b x then 1 else 0 | _ => 0 end)
    == subs k sub (length els) (fun j => if b j then 1 else 0) j).
  { intros s' j J X. rewrite <- (steps_phase timeout (last_of b) _ (last_respects b) els s' j J X (fun Z => False_ind _ (Ne Z)) Ce).
    apply steps_mean_ext. intros t. rewrite sample_loop_value, Ls. reflexivity. }
  unfold mh_sample. destruct (mh_is_init s) eqn:In0.
  - destruct elb; [|discriminate]. cbn [app]. apply SP; auto.
  - destruct elb as [|e0 elb].
    + simpl in Lb. rewrite <- Lb. cbn [app mh_burn]. apply (SP (mkState (mh_core s) (mh_current s) true (mh_traj s) (mh_types s)) i); auto.
    + rewrite app_length, subs_app, <- Lb.
      rewrite <- (burn_phase (fun t1 s1 => match mh_sample_loop P lp timeout 1 1 t1 (mkState (mh_core s1) (mh_current s1) true (mh_traj s1) (mh_types s1)) [] with
           (Done _, [x], _) => if states_in b x then 1 else 0 | _ => 0 end) els (subs k sub (length els) (fun j => if b j then 1 else 0))) with (s := s); auto.
      * apply steps_mean_ext. intros t. destruct (mh_burn P lp (length (e0 :: elb)) t s) as [[s1|s1|e s1] t1]; reflexivity.
      * intros s1 j J X _. apply (SP (mkState (mh_core s1) (mh_current s1) true (mh_traj s1) (mh_types s1)) j); auto.
      * discriminate.
Qed.

(** ** Convergence *)
Variable m : nat -> Q.
Variables beta rho : Q.
Hypothesis Bal : balanced k m F.
Hypothesis m0 : forall i, (i < k)%nat -> 0 <= m i.
Hypothesis mpos : 0 < over k m.
Hypothesis F0 : forall i j, (i < k)%nat -> (j < k)%nat -> 0 <= F i j.
Hypothesis R1 : forall i, (i < k)%nat -> rate k F i <= 1.
Definition long_run (i : nat) : Q := share k (fun j => m j * rate k F j) i.
Hypothesis B0 : 0 <= beta <= 1.
Hypothesis Cov : forall i j, (i < k)%nat -> (j < k)%nat -> beta * long_run j <= F i j / rate k F i.
Hypothesis Rho : forall i, (i < k)%nat -> 1 - rate k F i <= rho.

Lemma masses_pos : 0 < over k (fun j => m j * rate k F j).
Proof.
  assert (exists i, (i < k)%nat /\ 0 < m i) as (i & I & Mi).
  { destruct (existsb (fun i => Qltb 0 (m i)) (seq 0 k)) eqn:E.
    - apply existsb_exists in E. destruct E as (i & J & X). apply in_seq in J. exists i. split; [lia|]. now apply Qltb_true.
    - exfalso. assert (over k m <= over k (fun _ => 0 * 0)).
      { apply over_le. intros i I. apply Qnot_lt_le. intros L. apply Qltb_true in L.
        assert (existsb (fun i => Qltb 0 (m i)) (seq 0 k) = true) by (apply existsb_exists; exists i; split; [apply in_seq; lia|auto]). congruence. }
      rewrite over_scal in H. lra. }
  assert (P1 : 0 < m i * rate k F i) by (specialize (Live i I); nra).
  eapply Qlt_le_trans; [exact P1|]. rewrite <- (over_one k (fun j => m j * rate k F j) i I). apply over_le. intros j J.
  destruct (Nat.eqb_spec i j); [lra|]. apply Qmult_le_0_compat; auto. specialize (Live j J). lra.
Qed.
Lemma share_sum (w : nat -> Q) : 0 < over k w -> over k (share k w) == 1.
Proof.
  intros H. unfold share. rewrite (over_ext k _ (fun i => / over k w * w i)) by (intros; unfold Qdiv; ring). rewrite over_scal. field. lra.
Qed.
Lemma long_run_inv j : (j < k)%nat -> over k (fun i => long_run i * jump i j) == long_run j.
Proof.
  intros J. pose proof masses_pos as T. unfold long_run, jump, share. set (t := over k (fun j => m j * rate k F j)) in *.
  rewrite (over_ext k _ (fun i => m j / t * F j i)).
  - rewrite over_scal. fold (rate k F j). field. lra.
  - intros i I. specialize (Live i I). pose proof (Bal i j I J) as Bb.
    assert (E : m i * rate k F i / t * (F i j / rate k F i) == (m i * F i j) / t) by (field; lra). rewrite E, Bb. field. lra.
Qed.

Lemma sample_converges timeout b s i elb els : (i < k)%nat -> at_ i (mh_current s) = true -> (0 < mh_steps P)%nat ->
  length elb = (if mh_is_init s then 0 else mh_burnin P)%nat -> length els = mh_steps P ->
  (forall wa, In wa om -> at_clock (snd wa) < 60) ->
  (forall e, In e els -> 0 < timeout - e /\ forall wa, In wa om -> at_clock (snd wa) < timeout - e) ->
  let T := length (elb ++ els) in
  Qabs (sample_prob P lp timeout om n (elb ++ els) s (states_in b) - chance k long_run b) <= Qpow (1 - beta) T + Qnat T * Qpow rho n.
Proof.
  intros I A St Lb Ls C60 Ce T. pose proof masses_pos as Tp.
  assert (Hm0 : forall j, (j < k)%nat -> 0 <= long_run j).
  { intros j J. unfold long_run, share. apply Qle_shift_div_l; [exact Tp|]. specialize (Live j J). specialize (m0 j J). nra. }
  assert (G : forall j, (j < k)%nat -> 0 <= (if b j then 1 else 0) <= 1) by (intros j _; destruct (b j); lra).
  assert (J1 : forall i, (i < k)%nat -> over k (jump i) == 1).
  { intros j J. unfold jump. rewrite (over_ext k _ (fun l => / rate k F j * F j l)) by (intros; unfold Qdiv; ring). rewrite over_scal. fold (rate k F j). specialize (Live j J). field. lra. }
  assert (J0 : forall i j, (i < k)%nat -> (j < k)%nat -> 0 <= jump i j).
  { intros a c Ha Hc. unfold jump. apply Qle_shift_div_l; [apply Live; auto|]. specialize (F0 a c Ha Hc). lra. }
  assert (Rn : forall j, (j < k)%nat -> 0 <= Qpow (1 - rate k F j) n <= Qpow rho n /\ Qpow (1 - rate k F j) n <= 1).
  { intros j J. specialize (R1 j J). specialize (Rho j J). specialize (Live j J). repeat split; [apply Qpow_nonneg; lra|apply Qpow_mono; lra|apply Qpow_le1; lra]. }
  rewrite (sample_value timeout b s i elb els) by auto. fold T. set (c := fun j => if b j then 1 else 0) in *.
  pose proof (jumps_close k jump long_run beta J1 (share_sum _ Tp) Hm0 long_run_inv Cov T c i G I) as Jc.
  assert (Em : over k (fun i => long_run i * c i) == chance k long_run b).
  { unfold chance. apply over_ext. intros j _. unfold c. destruct (b j); ring. }
  rewrite Em in Jc.
  destruct (subs_le k jump J1 J0 sub (Qpow rho n)) with (t := T) (g := c) (i := i) as (S0 & S1 & _ & S2); auto.
  - intros a d Ha Hd. unfold sub. destruct (Rn a Ha) as [[? ?] ?]. pose proof (J0 a d Ha Hd). split; [apply Qmult_le_0_compat; lra|].
    assert (jump a d * (1 - Qpow (1 - rate k F a) n) == jump a d - jump a d * Qpow (1 - rate k F a) n) by ring.
    assert (0 <= jump a d * Qpow (1 - rate k F a) n) by (apply Qmult_le_0_compat; auto). lra.
  - intros a Ha. unfold sub. rewrite (over_ext k _ (fun j => (1 - Qpow (1 - rate k F a) n) * jump a j)) by (intros; ring). rewrite over_scal, J1 by auto.
    destruct (Rn a Ha) as [[? ?] ?]. lra.
  - apply Qabs_Qle_condition in Jc. apply Qabs_Qle_condition. pose proof (Qpow_nonneg (1 - beta) T ltac:(lra)). split; lra.
Qed.
End Sampler.
