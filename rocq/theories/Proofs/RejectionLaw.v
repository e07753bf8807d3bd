(** The law of the samples of rejection sampling. *)
From Coq Require Import List Bool Arith Lia QArith Lqa.
Import ListNotations.
From Verif Require Import Prelude.Py Prelude.QBase Prelude.QFacts Model.Base Model.Rejection Spec.RejectionSpec Spec.RejectionLawSpec Proofs.RejectionProofs.
Open Scope Q_scope.

Section Law.
Variable X : Type.
Variable om : list (Q * X).
Variable acc : X -> Q.

Lemma fold_ext (f g : Q * X -> Q) (l : list (Q * X)) : (forall mx, In mx l -> f mx == g mx) ->
  fold_right (fun mx s => f mx + s) 0 l == fold_right (fun mx s => g mx + s) 0 l.
Proof.
  induction l as [|a l IH]; intros H; simpl; [reflexivity|]. rewrite (H a) by (left; reflexivity).
  rewrite IH by (intros; apply H; right; assumption). reflexivity.
Qed.
Lemma fold_scale (f : Q * X -> Q) k (l : list (Q * X)) : fold_right (fun mx s => k * f mx + s) 0 l == k * fold_right (fun mx s => f mx + s) 0 l.
Proof. induction l as [|a l IH]; simpl; [ring|rewrite IH; ring]. Qed.
Lemma fold_plus (f g : Q * X -> Q) (l : list (Q * X)) :
  fold_right (fun mx s => (f mx + g mx) + s) 0 l == fold_right (fun mx s => f mx + s) 0 l + fold_right (fun mx s => g mx + s) 0 l.
Proof. induction l as [|a l IH]; simpl; [ring|rewrite IH; ring]. Qed.

Lemma expect_ext n : forall f g, (forall l, f l == g l) -> expect om acc n f == expect om acc n g.
Proof.
  induction n as [|n IH]; intros f g H; simpl; [apply H|]. apply fold_ext. intros mx _.
  rewrite (IH _ _ (fun l => H ((snd mx, true) :: l))), (IH _ _ (fun l => H ((snd mx, false) :: l))). reflexivity.
Qed.
Lemma expect_zero n : expect om acc n (fun _ => 0) == 0.
Proof.
  induction n as [|n IH]; simpl; [reflexivity|]. rewrite (fold_ext _ (fun mx => 0 * fst mx)).
  - rewrite fold_scale. ring.
  - intros mx _. rewrite IH. ring.
Qed.
Lemma expect_one n : fold_right (fun mx s => fst mx + s) 0 om == 1 -> expect om acc n (fun _ => 1) == 1.
Proof.
  intros T. induction n as [|n IH]; simpl; [reflexivity|]. rewrite (fold_ext _ (fun mx => fst mx)); [exact T|].
  intros mx _. rewrite IH. ring.
Qed.

(** The probability of the first accepted points falling into given sets factorises. *)
Definition hits (B : X -> bool) : Q := fold_right (fun mx s => fst mx * (if B (snd mx) then acc (snd mx) else 0) + s) 0 om.
Definition misses : Q := fold_right (fun mx s => fst mx * (1 - acc (snd mx)) + s) 0 om.
Fixpoint late (n k : nat) {struct n} : Q :=
  match k with
  | O => 1
  | S j => match n with O => 0 | S m => late m j + misses * late m k end
  end.
Lemma late_step n k : late (S n) (S k) = late n k + misses * late n (S k).
Proof. reflexivity. Qed.
Lemma law n : fold_right (fun mx s => fst mx + s) 0 om == 1 -> forall sets,
  expect om acc n (fun l => falls_into sets (accepted l)) == product (map hits sets) * late n (length sets).
Proof.
  intros T. induction n as [|n IH]; intros [|B r].
  - simpl. ring.
  - simpl. ring.
  - rewrite (expect_ext _ _ (fun _ => 1)) by reflexivity. rewrite expect_one by exact T. simpl. ring.
  - cbn [length map product fold_right]. rewrite late_step.
    cbn [expect]. set (a := expect om acc n (fun l => falls_into r (accepted l))). set (b := expect om acc n (fun l => falls_into (B :: r) (accepted l))).
    rewrite (fold_ext _ (fun mx => a * (fst mx * (if B (snd mx) then acc (snd mx) else 0)) + b * (fst mx * (1 - acc (snd mx))))).
    + rewrite fold_plus, !fold_scale. fold (hits B). fold misses. unfold a, b. rewrite !IH. cbn [length map product fold_right].
      fold (product (map hits r)). ring.
    + intros (m, x) _. cbn [fst snd].
      assert (A1 : expect om acc n (fun l => falls_into (B :: r) (accepted ((x, true) :: l))) == (if B x then a else 0)).
      { destruct (B x) eqn:E.
        - apply expect_ext. intros l. unfold accepted. cbn [filter snd map fst falls_into]. rewrite E. reflexivity.
        - rewrite <- (expect_zero n). apply expect_ext. intros l. unfold accepted. cbn [filter snd map fst falls_into]. rewrite E. reflexivity. }
      assert (A2 : expect om acc n (fun l => falls_into (B :: r) (accepted ((x, false) :: l))) == b) by (apply expect_ext; reflexivity).
      rewrite A1, A2. destruct (B x); ring.
Qed.
End Law.

Lemma product_scale k (l : list Q) : product (map (fun a => a * k) l) == product l * product (map (fun _ => k) l).
Proof. induction l as [|a l IH]; simpl; [ring|]. fold (product (map (fun a => a * k) l)). rewrite IH. unfold product. ring. Qed.
Lemma product_repeat k n : product (repeat k n) == Qpow k n.
Proof. induction n as [|n IH]; simpl; [reflexivity|]. unfold product in IH. rewrite IH. reflexivity. Qed.

(** ** The samples are the first accepted offers *)
Lemma held_offered X (t e : X -> Q) n rounds : forall held,
  held_after t e n held rounds = held ++ map fst (filter (fun xu => keepsb t e (fst xu) (snd xu)) (offered t e n held rounds)).
Proof.
  induction rounds as [|(draw, u) rs IH]; intros held; simpl; [now rewrite app_nil_r|].
  rewrite IH, filter_app, map_app, app_assoc. reflexivity.
Qed.
Lemma last_below (d b : Q) l : d < b -> Forall (fun a => a < b) l -> last l d < b.
Proof.
  intros Hd F. induction F as [|a l Ha F IH]; [exact Hd|]. destruct l as [|a' l]; [exact Ha|exact IH].
Qed.
Lemma first_accepted P target n timeout e0 tape pick c c' :
  (forall x, 0 <= rj_q P x * rj_scaling P) -> rej_importance_sample P target n timeout e0 tape pick c = Done c' ->
  (length (samples c) <= n)%nat -> e0 < timeout -> (forall r, In r tape -> rr_clock r < timeout) ->
  exists used rest, tape = used ++ rest /\ forall later,
    samples c' = samples c ++ firstn (n - length (samples c)) (map fst (filter (fun xu => keepsb target (fun x => rj_q P x * rj_scaling P) (fst xu) (snd xu))
      (offered target (fun x => rj_q P x * rj_scaling P) n (samples c) (map (fun r => (rr_draw r, rr_u r)) used) ++ later))).
Proof.
  intros He E Ln H0 Hc. unfold rej_importance_sample in E.
  destruct (rej_loop P target n timeout tape e0 c) as [c1| |] eqn:El; try discriminate.
  assert (Es : samples c' = samples c1).
  { unfold rej_finish in E. cbn [samples] in E. destruct (update_model _ _ _); [|discriminate]. injection E as <-. reflexivity. }
  destruct (rej_loop_spec P target n timeout tape e0 c c1 He El) as (used & rest & Et & Eh & Lh & _ & Or & _).
  exists used, rest. split; [exact Et|]. intros later. rewrite Es.
  assert (Ln1 : length (samples c1) = n).
  { destruct Or as [A|A]; [lia|]. exfalso. assert (last (map rr_clock used) e0 < timeout); [|lra]. apply last_below; [exact H0|].
    apply Forall_forall. intros z Hz. apply in_map_iff in Hz. destruct Hz as (r & <- & Hr). apply Hc. rewrite Et. apply in_or_app. left. exact Hr. }
  rewrite held_offered in Eh. rewrite filter_app, map_app. 
  set (got := map fst (filter _ (offered _ _ _ _ _))) in *.
  assert (Lg : length got = (n - length (samples c))%nat) by (rewrite Eh, app_length in Ln1; lia).
  rewrite <- Lg, firstn_app, Nat.sub_diag, firstn_all, firstn_O, app_nil_r. exact Eh.
Qed.

(** ** A finite proposal below the envelope *)
Section Exact.
Variable X : Type.
Variables q target : X -> Q.
Variables scaling v : Q.
Variable om : list (Q * X).
Hypothesis Hv : 0 < v.
Hypothesis Hs : 0 < scaling.
Hypothesis Hom : forall m x, In (m, x) om -> 0 < q x /\ m == q x * v /\ 0 <= target x <= q x * scaling.
Hypothesis Ht : fold_right (fun mx s => fst mx + s) 0 om == 1.
Let acc (x : X) : Q := target x / (q x * scaling).

Lemma chance m x : In (m, x) om -> 0 <= acc x <= 1 /\ forall u, 0 <= u < 1 -> (keepsb target (fun x => q x * scaling) x u = true <-> u < acc x).
Proof.
  intros H. destruct (Hom m x H) as (Qp & _ & Tl & Th). assert (E : 0 < q x * scaling) by nra. unfold acc. split; [split|].
  - apply Qle_shift_div_l; [exact E|]. lra.
  - apply Qle_shift_div_r; [exact E|]. lra.
  - intros u _. unfold keepsb. rewrite negb_true_iff. rewrite <- not_true_iff_false, Qle_bool_iff. split.
    + intros A. apply Qlt_shift_div_l; [exact E|]. apply Qnot_le_lt. exact A.
    + intros A B. assert (X1 : u * (q x * scaling) < target x); [|lra].
      assert (X2 : target x == target x / (q x * scaling) * (q x * scaling)) by (field; lra). rewrite X2. apply Qmult_lt_compat_r; assumption.
Qed.
Lemma hits_mass B : hits X om acc B == mass_in om target B * (v / scaling).
Proof.
  unfold hits, mass_in. clear Ht. induction om as [|(m, x) l IH]; [simpl; ring|]. cbn [fold_right fst snd].
  rewrite IH by (intros; apply Hom; right; assumption). destruct (Hom m x (or_introl eq_refl)) as (Qp & Em & _).
  assert (Y : m * (if B x then acc x else 0) == (if B x then target x else 0) * (v / scaling)); [|rewrite Y; ring].
  destruct (B x); [|ring]. rewrite Em. unfold acc. field. split; lra.
Qed.
Lemma product_ext (A : Type) (f g : A -> Q) l : (forall a, f a == g a) -> product (map f l) == product (map g l).
Proof. intros H. induction l as [|a l IH]; [reflexivity|]. unfold product in *. cbn [map fold_right]. rewrite H, IH. reflexivity. Qed.
Lemma product_const (A : Type) k (l : list A) : product (map (fun _ => k) l) == Qpow k (length l).
Proof. induction l as [|a l IH]; [reflexivity|]. unfold product in *. cbn [map fold_right length Qpow]. rewrite IH. reflexivity. Qed.
Lemma product_mult (A : Type) (f : A -> Q) k l : product (map (fun a => f a * k) l) == product (map f l) * Qpow k (length l).
Proof. induction l as [|a l IH]; [reflexivity|]. unfold product in *. cbn [map fold_right length Qpow]. rewrite IH. ring. Qed.

Lemma exact n sets :
  expect om acc n (fun l => falls_into sets (accepted l)) * Qpow (mass_in om target (fun _ => true)) (length sets) ==
  product (map (mass_in om target) sets) * expect om acc n (fun l => falls_into (map (fun _ => fun _ => true) sets) (accepted l)).
Proof.
  rewrite !law by exact Ht. rewrite map_length, map_map.
  rewrite (product_ext _ _ (fun B => mass_in om target B * (v / scaling)) sets hits_mass), product_mult.
  rewrite (product_ext _ (fun _ => hits X om acc (fun _ => true)) (fun _ => mass_in om target (fun _ => true) * (v / scaling)) sets (fun _ => hits_mass _)).
  rewrite (product_mult _ (fun _ => mass_in om target (fun _ => true))), product_const. ring.
Qed.
(** How long one sample takes. *)
Lemma misses_mass : misses X om acc == 1 - mass_in om target (fun _ => true) * (v / scaling).
Proof.
  rewrite <- hits_mass. unfold hits, misses. rewrite <- Ht at 1. clear. induction om as [|(m, x) l IH]; [simpl; ring|]. cbn [fold_right fst snd].
  rewrite IH. ring.
Qed.
Lemma waiting n : expect om acc n (fun l => falls_into [fun _ => true] (accepted l)) == 1 - Qpow (1 - mass_in om target (fun _ => true) * (v / scaling)) n.
Proof.
  rewrite law by exact Ht. cbn [map length product fold_right]. pose proof misses_mass as Em. pose proof (hits_mass (fun _ => true)) as Eh.
  set (h := mass_in om target (fun _ => true) * (v / scaling)) in *. rewrite Eh. induction n as [|n IH]; [simpl; ring|].
  rewrite late_step. assert (L0 : late X om acc n 0 = 1) by (destruct n; reflexivity). rewrite L0, Em. cbn [Qpow].
  transitivity (h + (1 - h) * (h * 1 * late X om acc n 1)); [ring|]. rewrite IH. ring.
Qed.
End Exact.
