(** The law of rejection sampling without a bound on the scaling. *)
From Coq Require Import List Bool Arith Lia QArith Qminmax Lqa.
Import ListNotations.
From Verif Require Import Prelude.Py Prelude.QBase Prelude.QFacts Model.Base Model.Rejection Spec.RejectionSpec Spec.RejectionLawSpec Proofs.RejectionProofs
  Proofs.RejectionLaw.
Open Scope Q_scope.

Lemma mass_ext X (om : list (Q * X)) f g B : (forall m x, In (m, x) om -> B x = true -> f x == g x) -> mass_in om f B == mass_in om g B.
Proof.
  unfold mass_in. induction om as [|(m, x) l IH]; intros H; [reflexivity|]. cbn [fold_right fst snd].
  rewrite IH by (intros; eapply H; [right; eassumption|assumption]). destruct (B x) eqn:E; [|reflexivity].
  rewrite (H m x (or_introl eq_refl) E). reflexivity.
Qed.
Lemma mass_le X (om : list (Q * X)) f g B : (forall m x, In (m, x) om -> B x = true -> f x <= g x) -> mass_in om f B <= mass_in om g B.
Proof.
  unfold mass_in. induction om as [|(m, x) l IH]; intros H; [apply Qle_refl|]. cbn [fold_right fst snd].
  apply Qplus_le_compat; [|apply IH; intros; eapply H; [right; eassumption|assumption]].
  destruct (B x) eqn:E; [apply (H m x (or_introl eq_refl) E)|apply Qle_refl].
Qed.
Lemma mass_scale X (om : list (Q * X)) k f B : mass_in om (fun x => k * f x) B == k * mass_in om f B.
Proof.
  unfold mass_in. induction om as [|(m, x) l IH]; [simpl; ring|]. cbn [fold_right fst snd]. rewrite IH. destruct (B x); ring.
Qed.
(** Equal masses of ordered functions: equal functions. *)
Lemma mass_eq_le X (om : list (Q * X)) f g B : (forall m x, In (m, x) om -> B x = true -> f x <= g x) -> mass_in om f B == mass_in om g B ->
  forall m x, In (m, x) om -> B x = true -> f x == g x.
Proof.
  induction om as [|(m0, x0) l IH]; intros H E m x Hin HB; [destruct Hin|].
  assert (Hl : mass_in l f B <= mass_in l g B) by (apply mass_le; intros; eapply H; [right; eassumption|assumption]).
  assert (H0 : (if B x0 then f x0 else 0) <= (if B x0 then g x0 else 0)).
  { destruct (B x0) eqn:E0; [apply (H m0 x0 (or_introl eq_refl) E0)|apply Qle_refl]. }
  change (mass_in ((m0, x0) :: l) f B) with ((if B x0 then f x0 else 0) + mass_in l f B) in E.
  change (mass_in ((m0, x0) :: l) g B) with ((if B x0 then g x0 else 0) + mass_in l g B) in E.
  destruct Hin as [Hin|Hin].
  - injection Hin as -> ->. rewrite HB in *. lra.
  - apply (IH (fun m' x' i => H m' x' (or_intror i))) with m; [lra|exact Hin|exact HB].
Qed.
Lemma mass_nonneg X (om : list (Q * X)) f B : (forall m x, In (m, x) om -> B x = true -> 0 <= f x) -> 0 <= mass_in om f B.
Proof.
  intros H. unfold mass_in. induction om as [|(m, x) l IH]; [apply Qle_refl|]. cbn [fold_right fst snd].
  specialize (IH (fun m' x' i => H m' x' (or_intror i))). destruct (B x) eqn:E; [specialize (H m x (or_introl eq_refl) E); lra|lra].
Qed.
Lemma mass_pos X (om : list (Q * X)) f B m x : (forall m x, In (m, x) om -> B x = true -> 0 <= f x) -> In (m, x) om -> B x = true -> 0 < f x ->
  0 < mass_in om f B.
Proof.
  intros H Hin HB Hf. destruct (Qlt_le_dec 0 (mass_in om f B)) as [A|A]; [exact A|].
  assert (Z : mass_in om (fun _ => 0) B == mass_in om f B).
  { apply Qle_antisym; [apply mass_le; exact H|]. apply Qle_trans with 0; [exact A|]. apply mass_nonneg. intros. apply Qle_refl. }
  pose proof (mass_eq_le X om (fun _ => 0) f B H Z m x Hin HB) as C. cbv beta in C. lra.
Qed.

Section Clipped.
Variable X : Type.
Variables q target : X -> Q.
Variables scaling v : Q.
Variable om : list (Q * X).
Hypothesis Hv : 0 < v.
Hypothesis Hs : 0 < scaling.
Hypothesis Hom : forall m x, In (m, x) om -> 0 < q x /\ m == q x * v /\ 0 <= target x.
Hypothesis Ht : fold_right (fun mx s => fst mx + s) 0 om == 1.
Definition clip (x : X) : Q := Qmin (target x) (q x * scaling).
Definition acc (x : X) : Q := clip x / (q x * scaling).

Lemma clip_ok m x : In (m, x) om -> 0 < q x /\ m == q x * v /\ 0 <= clip x <= q x * scaling.
Proof.
  intros H. destruct (Hom m x H) as (A & B & C). split; [exact A|]. split; [exact B|]. unfold clip. split; [|apply Q.le_min_r].
  apply Q.min_glb; [exact C|]. apply Qlt_le_weak. nra.
Qed.
Lemma clipped_chance m x : In (m, x) om ->
  0 <= acc x <= 1 /\ forall u, 0 <= u < 1 -> (keepsb target (fun x => q x * scaling) x u = true <-> u < acc x).
Proof.
  intros H. destruct (chance X q clip scaling v om Hs clip_ok m x H) as (A & B). split; [exact A|]. intros u Hu.
  unfold acc. rewrite <- (B u Hu). destruct (Hom m x H) as (Qp & _ & _). assert (E : 0 < q x * scaling) by nra.
  unfold keepsb. rewrite !negb_true_iff, <- !not_true_iff_false, !Qle_bool_iff. unfold clip.
  assert (L : u * (q x * scaling) < q x * scaling) by nra.
  set (e := q x * scaling) in *. split; intros C D; apply C.
  - destruct (Q.min_spec (target x) e) as [(M1 & M2)|(M1 & M2)]; rewrite M2 in D; lra.
  - apply Qle_trans with (target x); [apply Q.le_min_l|exact D].
Qed.
Lemma clipped_law n sets :
  expect om acc n (fun l => falls_into sets (accepted l)) * Qpow (mass_in om clip (fun _ => true)) (length sets) ==
  product (map (mass_in om clip) sets) * expect om acc n (fun l => falls_into (map (fun _ => fun _ => true) sets) (accepted l)).
Proof. exact (exact X q clip scaling v om Hs clip_ok Ht n sets). Qed.
Lemma clipped_one B : expect om acc 1 (fun l => falls_into [B] (accepted l)) == mass_in om clip B * (v / scaling).
Proof.
  rewrite law by exact Ht. cbn [map length product fold_right]. rewrite late_step. cbn [late].
  pose proof (hits_mass X q clip scaling v om Hs clip_ok B) as H. fold acc in H. unfold acc in *. rewrite H. ring.
Qed.
End Clipped.

(** ** With scaling one and a normalised target *)
Section One.
Variable X : Type.
Variables q target : X -> Q.
Variable v : Q.
Variable om : list (Q * X).
Hypothesis Hv : 0 < v.
Hypothesis Hom : forall m x, In (m, x) om -> 0 < q x /\ m == q x * v /\ 0 <= target x.
Hypothesis Ht : fold_right (fun mx s => fst mx + s) 0 om == 1.
Hypothesis Hn : mass_in om target (fun _ => true) * v == 1.
Let all (x : X) : bool := true.
Let cl := clip X q target 1.
Let ac := acc X q target 1.

Lemma q_total : mass_in om q all * v == 1.
Proof.
  rewrite <- Ht. clear Ht Hn. unfold mass_in. induction om as [|(m, x) l IH]; [simpl; ring|]. cbn [fold_right fst snd all].
  destruct (Hom m x (or_introl eq_refl)) as (_ & E & _). rewrite <- IH by (intros; apply Hom; right; assumption). rewrite E. unfold all. ring.
Qed.
Lemma cl_cases m x : In (m, x) om -> (target x <= q x /\ cl x == target x) \/ (q x < target x /\ cl x == q x).
Proof.
  intros H. unfold cl, clip. destruct (Q.min_spec (target x) (q x * 1)) as [(A & B)|(A & B)].
  - left. split; [lra|exact B].
  - destruct (Qlt_le_dec (q x) (target x)) as [C|C]; [right|left]; (split; [exact C|]); rewrite B; lra.
Qed.
Definition right_law : Prop := forall N B,
  expect om ac N (fun l => falls_into [B] (accepted l)) * mass_in om target all ==
  mass_in om target B * expect om ac N (fun l => falls_into [all] (accepted l)).

Lemma law_masses : right_law -> forall B, mass_in om cl B * mass_in om target all == mass_in om target B * mass_in om cl all.
Proof.
  intros H B. specialize (H 1%nat B). unfold ac in H.
  rewrite !(clipped_one X q target 1 v om ltac:(lra) Hom Ht) in H. fold cl in H.
  assert (E : v / 1 == v) by field. rewrite E in H.
  set (a := mass_in om cl B) in *. set (b := mass_in om target all) in *. set (c := mass_in om target B) in *. set (e := mass_in om cl all) in *.
  assert (Y : v * (a * b) == v * (c * e)) by (transitivity (a * v * b); [ring|rewrite H; ring]).
  apply (Qmult_inj_l _ _ v); [lra|exact Y].
Qed.
Lemma target_pos_total : 0 < mass_in om target all.
Proof. destruct (Qlt_le_dec 0 (mass_in om target all)) as [A|A]; [exact A|]. unfold all in *. exfalso. nra. Qed.

Lemma only_flat : right_law -> exists c, 1 <= c /\ forall m x, In (m, x) om -> target x == 0 \/ target x == c * q x.
Proof.
  intros H. pose proof (law_masses H) as E. clear H. pose proof target_pos_total as Tp.
  pose (L := fun x => negb (Qle_bool (target x) 0) && Qle_bool (target x) (q x)).
  assert (LE : mass_in om cl L == mass_in om target L).
  { apply mass_ext. intros m x Hi HB. unfold L in HB. apply andb_true_iff in HB. destruct HB as (_ & HB). apply Qle_bool_iff in HB.
    destruct (cl_cases m x Hi) as [(_ & A)|(A & _)]; [exact A|lra]. }
  assert (Cp : forall m x, In (m, x) om -> 0 <= cl x).
  { intros m x Hi. destruct (Hom m x Hi) as (A & _ & B). destruct (cl_cases m x Hi) as [(_ & C)|(_ & C)]; rewrite C; lra. }
  destruct (Qeq_dec (mass_in om cl all) (mass_in om target all)) as [Eq|Ne].
  - (* nothing is cut off *)
    exists 1. split; [lra|]. intros m x Hi. right.
    assert (Le : forall m x, In (m, x) om -> all x = true -> target x <= q x).
    { intros m' x' Hi' _. assert (A : cl x' == target x').
      { apply (mass_eq_le X om cl target all) with m'; [|exact Eq|exact Hi'|reflexivity].
        intros m2 x2 H2 _. destruct (cl_cases m2 x2 H2) as [(A & B)|(A & B)]; rewrite B; lra. }
      destruct (cl_cases m' x' Hi') as [(B & _)|(B & C)]; [exact B|lra]. }
    assert (Tq : mass_in om target all == mass_in om q all).
    { apply (Qmult_inj_l _ _ v); [lra|]. pose proof q_total as Y. unfold all in *. lra. }
    rewrite (mass_eq_le X om target q all Le Tq m x Hi eq_refl). ring.
  - (* the points not cut off have no target mass *)
    assert (L0 : mass_in om target L == 0).
    { pose proof (E L) as EL. rewrite LE in EL. destruct (Qeq_dec (mass_in om target L) 0) as [Z|Z]; [exact Z|].
      exfalso. apply Ne. apply (Qmult_inj_l _ _ (mass_in om target L) Z). symmetry. exact EL. }
    assert (Lp : forall m x, In (m, x) om -> L x = true -> False).
    { intros m x Hi HL. assert (A : 0 < mass_in om target L); [|lra].
      apply mass_pos with m x; [intros m' x' Hi' _; apply (Hom m' x' Hi')|exact Hi|exact HL|].
      unfold L in HL. apply andb_true_iff in HL. destruct HL as (HL & _). apply negb_true_iff, not_true_iff_false in HL. rewrite Qle_bool_iff in HL. lra. }
    assert (Sup : forall m x, In (m, x) om -> target x == 0 \/ (q x < target x /\ cl x == q x)).
    { intros m x Hi. destruct (Qlt_le_dec 0 (target x)) as [A|A]; [|left; destruct (Hom m x Hi) as (_ & _ & B); lra]. right.
      destruct (cl_cases m x Hi) as [(B & _)|B]; [|exact B]. exfalso. apply (Lp m x Hi). unfold L.
      apply andb_true_iff. split; [apply negb_true_iff, not_true_iff_false; rewrite Qle_bool_iff; lra|apply Qle_bool_iff; exact B]. }
    assert (Ap : 0 < mass_in om cl all).
    { destruct (Qlt_le_dec 0 (mass_in om cl all)) as [A|A]; [exact A|]. exfalso.
      assert (Z : mass_in om (fun _ => 0) all == mass_in om cl all).
      { apply Qle_antisym; [apply mass_le; intros m x Hi _; apply (Cp m x Hi)|]. apply Qle_trans with 0; [exact A|].
        apply mass_nonneg. intros. apply Qle_refl. }
      assert (T0 : mass_in om target all == mass_in om (fun _ => 0) all); [|].
      - apply mass_ext. intros m x Hi _. destruct (Sup m x Hi) as [B|(B & C)]; [exact B|].
        pose proof (mass_eq_le X om (fun _ => 0) cl all (fun m x Hi _ => Cp m x Hi) Z m x Hi eq_refl) as D. cbv beta in D.
        destruct (Hom m x Hi) as (F & _). lra.
      - rewrite T0, Z in Tp. lra. }
    set (A := mass_in om cl all) in *. set (T := mass_in om target all) in *.
    exists (T / A). 
    assert (Flat : forall m x, In (m, x) om -> target x == 0 \/ target x == T / A * q x).
    { intros m x Hi. destruct (Sup m x Hi) as [Z|(G & Ec)]; [left; exact Z|]. right.
      assert (Both : forall B : X -> bool, (forall m x, In (m, x) om -> B x = true -> q x < target x) ->
               mass_in om target B == mass_in om (fun x => T / A * q x) B).
      { intros B HB. rewrite mass_scale. rewrite <- (mass_ext X om cl q B).
        - pose proof (E B) as EB. apply (Qmult_inj_l _ _ A); [lra|]. transitivity (mass_in om target B * A); [ring|]. rewrite <- EB. field. lra.
        - intros m' x' Hi' HB'. destruct (cl_cases m' x' Hi') as [(C & _)|(_ & C)]; [|exact C]. specialize (HB m' x' Hi' HB'). lra. }
      destruct (Q_dec (target x) (T / A * q x)) as [[Lt|Gt]|Eq]; [| |exact Eq]; exfalso.
      - pose (B := fun y => negb (Qle_bool (target y) (q y)) && Qle_bool (target y) (T / A * q y)).
        assert (HB : forall m x, In (m, x) om -> B x = true -> q x < target x).
        { intros m' x' _ Hb. unfold B in Hb. apply andb_true_iff in Hb. destruct Hb as (Hb & _).
          apply negb_true_iff, not_true_iff_false in Hb. rewrite Qle_bool_iff in Hb. lra. }
        pose proof (mass_eq_le X om target (fun x => T / A * q x) B) as M. cbv beta in M.
        assert (Z : target x == T / A * q x); [|lra]. apply M with m; [|apply Both; exact HB|exact Hi|].
        + intros m' x' _ Hb. unfold B in Hb. apply andb_true_iff in Hb. destruct Hb as (_ & Hb). apply Qle_bool_iff in Hb. exact Hb.
        + unfold B. apply andb_true_iff. split; [apply negb_true_iff, not_true_iff_false; rewrite Qle_bool_iff; lra|apply Qle_bool_iff; lra].
      - pose (B := fun y => negb (Qle_bool (target y) (q y)) && Qle_bool (T / A * q y) (target y)).
        assert (HB : forall m x, In (m, x) om -> B x = true -> q x < target x).
        { intros m' x' _ Hb. unfold B in Hb. apply andb_true_iff in Hb. destruct Hb as (Hb & _).
          apply negb_true_iff, not_true_iff_false in Hb. rewrite Qle_bool_iff in Hb. lra. }
        pose proof (mass_eq_le X om (fun x => T / A * q x) target B) as M. cbv beta in M.
        assert (Z : T / A * q x == target x); [|lra]. apply M with m; [|symmetry; apply Both; exact HB|exact Hi|].
        + intros m' x' _ Hb. unfold B in Hb. apply andb_true_iff in Hb. destruct Hb as (_ & Hb). apply Qle_bool_iff in Hb. exact Hb.
        + unfold B. apply andb_true_iff. split; [apply negb_true_iff, not_true_iff_false; rewrite Qle_bool_iff; lra|apply Qle_bool_iff; lra]. }
    split; [|exact Flat]. apply Qle_shift_div_l; [exact Ap|]. rewrite Qmult_1_l. unfold A, T. apply mass_le. intros m x Hi _.
    destruct (cl_cases m x Hi) as [(B & C)|(B & C)]; rewrite C; lra.
Qed.

Lemma flat_right c : (forall m x, In (m, x) om -> target x == 0 \/ target x == c * q x) -> right_law.
Proof.
  intros H.
  assert (Hc : 1 <= c).
  { destruct (Qlt_le_dec c 1) as [Lt|A]; [|exact A]. exfalso.
    assert (Lq : forall m x, In (m, x) om -> all x = true -> target x <= q x).
    { intros m x Hi _. destruct (Hom m x Hi) as (A & _). destruct (H m x Hi) as [B|B]; rewrite B; nra. }
    assert (Tq : mass_in om target all == mass_in om q all).
    { apply (Qmult_inj_l _ _ v); [lra|]. pose proof q_total as Y. unfold all in *. lra. }
    assert (Tz : mass_in om target all == mass_in om (fun _ => 0) all).
    { apply mass_ext. intros m x Hi _. pose proof (mass_eq_le X om target q all Lq Tq m x Hi eq_refl) as Y.
      destruct (Hom m x Hi) as (A & _). destruct (H m x Hi) as [B|B]; [exact B|]. exfalso. nra. }
    pose proof target_pos_total as Tp. rewrite Tz in Tp.
    assert (Z : mass_in om (fun _ => 0) all == 0); [|lra]. clear. unfold mass_in. induction om as [|a l IH]; [reflexivity|]. cbn [fold_right].
    rewrite IH. unfold all. ring. }
  assert (Ec : forall B, mass_in om target B == c * mass_in om cl B).
  { intros B. rewrite <- mass_scale. apply mass_ext. intros m x Hi _. destruct (Hom m x Hi) as (A & _ & _).
    destruct (cl_cases m x Hi) as [(C & D)|(C & D)]; rewrite D; destruct (H m x Hi) as [F|F].
    - rewrite F. ring.
    - assert (Y : c == 1) by nra. rewrite Y. ring.
    - lra.
    - exact F. }
  intros N B. rewrite !Ec. pose proof (clipped_law X q target 1 v om ltac:(lra) Hom Ht N [B]) as E. cbn [map length Qpow product fold_right] in E.
  fold cl in E. fold ac in E. unfold all in *.
  transitivity (c * (expect om ac N (fun l => falls_into [B] (accepted l)) * (mass_in om cl (fun _ => true) * 1))); [ring|]. rewrite E. ring.
Qed.
End One.
