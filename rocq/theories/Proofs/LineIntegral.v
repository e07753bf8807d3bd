(** Partitions of an interval: the moments of the parts add up. *)
From Coq Require Import List Bool Arith Lia QArith Lqa Permutation.
Import ListNotations.
From Verif Require Import Prelude.QBase Prelude.QFacts Spec.TreeSpec Proofs.TreeCells.
Open Scope Q_scope.

(** Intervals as pairs of ends. *)
Definition apart (x y : Q * Q) : Prop := snd x <= fst y \/ snd y <= fst x.
Definition parts (l : list (Q * Q)) : Prop := NoDup l /\ (forall x, In x l -> fst x < snd x) /\ forall x y, In x l -> In y l -> x = y \/ apart x y.
Definition len (l : list (Q * Q)) : Q := fold_right (fun x s => snd x - fst x + s) 0 l.
Definition moment (l : list (Q * Q)) : Q := fold_right (fun x s => (fst x + snd x) / 2 * (snd x - fst x) + s) 0 l.
Lemma len_perm l l' : Permutation l l' -> len l == len l'.
Proof. induction 1; simpl; lra. Qed.
Lemma moment_perm l l' : Permutation l l' -> moment l == moment l'.
Proof. induction 1; simpl; lra. Qed.
Lemma parts_perm l l' : Permutation l l' -> parts l -> parts l'.
Proof.
  intros H (N & P & D). assert (I : forall x, In x l' -> In x l) by (intros x; apply Permutation_in, Permutation_sym; auto).
  split; [eapply Permutation_NoDup; eauto|]. split; auto.
Qed.
Lemma last_part (l : list (Q * Q)) : l <> [] -> exists x r, Permutation l (x :: r) /\ forall y, In y r -> fst y <= fst x.
Proof.
  induction l as [|a l IH]; intros N; [congruence|]. destruct l as [|b l]; [exists a, []; split; [auto|intros y []]|].
  destruct IH as (x & r & P & H); [discriminate|]. destruct (Qlt_le_dec (fst a) (fst x)) as [L|L].
  - exists x, (a :: r). split; [rewrite P; apply perm_swap|]. intros y [<-|Hy]; [lra|auto].
  - exists a, (x :: r). split; [constructor; auto|]. intros y [<-|Hy]; [auto|]. specialize (H y Hy). lra.
Qed.
Lemma parts_tail x r : parts (x :: r) -> (forall y, In y r -> fst y <= fst x) -> parts r /\ forall y, In y r -> snd y <= fst x.
Proof.
  intros (N & P & D) H. inversion N as [|? ? N1 N2]; subst. split; [split; [auto|split; [intros; apply P; right; auto|intros; apply D; right; auto]]|].
  intros y Hy. destruct (D y x (or_intror Hy) (or_introl eq_refl)) as [-> |[A|A]]; [contradiction|auto|]. specialize (H y Hy). pose proof (P x (or_introl eq_refl)). lra.
Qed.
Lemma pack a n : forall l b, length l = n -> parts l -> (forall x, In x l -> a <= fst x /\ snd x <= b) -> a <= b ->
  len l <= b - a /\ a * len l + len l * len l / 2 <= moment l.
Proof.
  induction n as [|n IH]; intros l b L H In_ab Hab.
  - destruct l; [|discriminate]. cbn [len moment fold_right]. assert (a * 0 + 0 * 0 / 2 == 0) as -> by field. split; lra.
  - destruct (last_part l) as (x & r & Pm & Mx); [intros ->; discriminate|]. pose proof (parts_perm _ _ Pm H) as H1. destruct (parts_tail x r H1 Mx) as (Hr & Lr).
    assert (Lx : length r = n) by (apply Permutation_length in Pm; simpl in Pm; lia).
    assert (Ix : forall y, In y (x :: r) -> In y l) by (intros y; apply Permutation_in, Permutation_sym; auto).
    destruct (In_ab x (Ix x (or_introl eq_refl))) as (X1 & X2). pose proof (proj1 (proj2 H1) x (or_introl eq_refl)) as X3.
    destruct (IH r (fst x) Lx Hr) as (K1 & K2); [intros y Hy; split; [apply In_ab, Ix; right; auto|auto]|auto|].
    rewrite (len_perm _ _ Pm), (moment_perm _ _ Pm). cbn [len moment fold_right]. fold (len r) (moment r).
    set (t := len r) in *. set (mo := moment r) in *. set (p := fst x) in *. set (q := snd x) in *. clearbody t mo p q. split; [lra|].
    assert (a * (q - p + t) + (q - p + t) * (q - p + t) / 2 == a * t + t * t / 2 + (q - p) * (a + t + (q - p) / 2)) as -> by field.
    assert ((p + q) / 2 * (q - p) == (q - p) * (p + (q - p) / 2)) as -> by field.
    assert ((q - p) * (a + t + (q - p) / 2) <= (q - p) * (p + (q - p) / 2)) by (apply Qmult_le_l; lra). lra.
Qed.
(** Reflection. *)
Definition flip (x : Q * Q) : Q * Q := (- snd x, - fst x).
Lemma flip_len l : len (map flip l) == len l.
Proof. induction l as [|x l IH]; simpl; [reflexivity|]. rewrite IH. ring. Qed.
Lemma flip_moment l : moment (map flip l) == - moment l.
Proof. induction l as [|x l IH]; simpl; [reflexivity|]. rewrite IH. field. Qed.
Lemma flip_parts l : parts l -> (forall x y, In x l -> In y l -> flip x = flip y -> x = y) -> parts (map flip l).
Proof.
  intros (N & P & D) Inj. split; [|split].
  - clear - N Inj. induction N as [|x l Hx N IH]; simpl; constructor; [|apply IH; intros; apply Inj; auto; right; auto].
    intros H. apply in_map_iff in H. destruct H as (y & E & Hy). apply Hx. rewrite <- (Inj y x (or_intror Hy) (or_introl eq_refl) E). auto.
  - intros x H. apply in_map_iff in H. destruct H as (y & <- & Hy). specialize (P y Hy). simpl. lra.
  - intros x y Hx Hy. apply in_map_iff in Hx. apply in_map_iff in Hy. destruct Hx as (x' & <- & Hx), Hy as (y' & <- & Hy).
    destruct (D x' y' Hx Hy) as [-> |[A|A]]; [auto|right; right|right; left]; simpl; lra.
Qed.
Lemma Qopp_inj a b : - a = - b -> a = b :> Q.
Proof. destruct a as (p, q), b as (p', q'). unfold Qopp. simpl. intros H. inversion H. apply Z.opp_inj in H1. congruence. Qed.
Lemma full_moment l a b : parts l -> (forall x, In x l -> a <= fst x /\ snd x <= b) -> len l == b - a -> a <= b -> moment l == (a + b) / 2 * (b - a).
Proof.
  intros H I L Hab. destruct (pack a (length l) l b eq_refl H I Hab) as (_ & K1).
  destruct (pack (- b) (length (map flip l)) (map flip l) (- a) eq_refl) as (_ & K2).
  - apply flip_parts; auto. intros (x1, x2) (y1, y2) _ _ E. unfold flip in E. simpl in E. inversion E as [[E1 E2]]. apply (f_equal2 pair).
    + apply Qopp_inj. unfold Qopp. f_equal; [exact H0|]. destruct x1, y1; simpl in *; congruence.
    + apply Qopp_inj. unfold Qopp. f_equal; destruct x2, y2; simpl in *; congruence.
  - intros x Hx. apply in_map_iff in Hx. destruct Hx as (y & <- & Hy). destruct (I y Hy). simpl. lra.
  - lra.
  - rewrite flip_len, flip_moment in K2. set (t := len l) in *. set (mo := moment l) in *. clearbody t mo. rewrite L in K1, K2.
    assert (- b * (b - a) + (b - a) * (b - a) / 2 == - ((a + b) / 2 * (b - a))) as X by field. rewrite X in K2.
    assert (a * (b - a) + (b - a) * (b - a) / 2 == (a + b) / 2 * (b - a)) as Y by field. rewrite Y in K1. lra.
Qed.

(** A function of one variable that is affine. *)
Lemma line_tiles cs a r : 0 < r -> (forall c, In c cs -> 0 < snd c) -> tiles cs ([a], r) ->
  exists l, length l = length cs /\ map (fun x => ([(fst x)], snd x)) l = cs /\
    fold_right (fun x s => fst x * (2 * snd x) + s) 0 l == a * (2 * r).
Proof.
  intros Rp Pos (_ & W & S & V).
  assert (Sh : forall c, In c cs -> exists p q, c = ([p], q) /\ a - r <= p - q /\ p + q <= a + r /\ 0 < q).
  { intros (c, q) Hc. pose proof (Pos _ Hc) as Pq. simpl in Pq.
    assert (Cc : forall z, (z == q \/ z == - q) -> in_closed (c, q) (map (fun p => p + z) c)).
    { intros z Hz. unfold in_closed. simpl. clear - Hz Pq. induction c; simpl; constructor; auto. lra. }
    pose proof (W _ _ Hc (Cc q (or_introl (Qeq_refl _)))) as W1. pose proof (W _ _ Hc (Cc (- q) (or_intror (Qeq_refl _)))) as W2. unfold in_closed in W1, W2. simpl in W1, W2.
    inversion W1 as [|? ? ? ? A1 A2 A3 A4]; subst. inversion A2; subst. destruct c as [|p [|]]; try discriminate. simpl in *. inversion A4; subst.
    inversion W2 as [|? ? ? ? B1 B2]; subst. exists p, q. split; auto. lra. }
  set (l := map (fun c => (hd 0 (fst c), snd c)) cs). exists l. split; [unfold l; rewrite map_length; auto|].
  assert (Ec : map (fun x : Q * Q => ([(fst x)], snd x)) l = cs).
  { unfold l. rewrite map_map. rewrite <- (map_id cs) at 2. apply map_ext_in. intros c Hc. destruct (Sh c Hc) as (p & q & -> & _). reflexivity. }
  split; [exact Ec|]. clearbody l.
  set (iv := map (fun x : Q * Q => (fst x - snd x, fst x + snd x)) l).
  assert (Il : forall x, In x l -> In ([fst x], snd x) cs) by (intros x Hx; rewrite <- Ec; apply in_map_iff; exists x; auto).
  assert (Il2 : forall x, In x l -> a - r <= fst x - snd x /\ fst x + snd x <= a + r /\ 0 < snd x).
  { intros x Hx. destruct (Sh _ (Il x Hx)) as (p & q & E & A). inversion E; subst. tauto. }
  assert (Same : forall i j x y, nth_error l i = Some x -> nth_error l j = Some y -> i = j \/ apart (fst x - snd x, fst x + snd x) (fst y - snd y, fst y + snd y)).
  { intros i j x y Ei Ej. pose proof (Il2 _ (nth_error_In _ _ Ei)) as (_ & _ & Px). pose proof (Il2 _ (nth_error_In _ _ Ej)) as (_ & _ & Py).
    unfold apart. simpl. destruct (Qlt_le_dec (fst y - snd y) (fst x + snd x)) as [A|A]; [|auto]. destruct (Qlt_le_dec (fst x - snd x) (fst y + snd y)) as [A'|A']; [|auto].
    left. assert (Ci : nth_error cs i = Some ([fst x], snd x)) by (rewrite <- Ec, nth_error_map, Ei; reflexivity).
    assert (Cj : nth_error cs j = Some ([fst y], snd y)) by (rewrite <- Ec, nth_error_map, Ej; reflexivity).
    set (lo := if Qlt_le_dec (fst x - snd x) (fst y - snd y) then fst y - snd y else fst x - snd x).
    set (hi := if Qlt_le_dec (fst x + snd x) (fst y + snd y) then fst x + snd x else fst y + snd y).
    assert (B : fst x - snd x <= lo /\ fst y - snd y <= lo /\ hi <= fst x + snd x /\ hi <= fst y + snd y /\ lo < hi).
    { unfold lo, hi. destruct (Qlt_le_dec _ _), (Qlt_le_dec _ _); lra. }
    apply (S i j _ _ [(lo + hi) / 2] Ci Cj); repeat constructor; simpl; assert (lo < (lo + hi) / 2) by (apply Qlt_shift_div_l; lra);
      assert ((lo + hi) / 2 < hi) by (apply Qlt_shift_div_r; lra); lra. }
  assert (Hp : parts iv).
  { split; [|split].
    - apply NoDup_nth_error. intros i j Li E. unfold iv in *. rewrite map_length in Li. rewrite !nth_error_map in E.
      destruct (nth_error l i) as [x|] eqn:Ei; [|apply nth_error_None in Ei; lia]. destruct (nth_error l j) as [y|] eqn:Ej; [|discriminate].
      pose proof (f_equal (fun o => match o with Some z => fst z | None => 0 end) E) as E1. pose proof (f_equal (fun o => match o with Some z => snd z | None => 0 end) E) as E2.
      cbn [option_map fst snd] in E1, E2. destruct (Same i j x y Ei Ej) as [A|A]; auto. exfalso. rewrite <- E1, <- E2 in A. unfold apart in A. simpl in A.
      pose proof (Il2 _ (nth_error_In _ _ Ei)) as (_ & _ & Px). lra.
    - intros x Hx. unfold iv in Hx. apply in_map_iff in Hx. destruct Hx as (y & <- & Hy). destruct (Il2 y Hy) as (_ & _ & Py). simpl. lra.
    - intros x y Hx Hy. unfold iv in Hx, Hy. apply in_map_iff in Hx. apply in_map_iff in Hy. destruct Hx as (x' & <- & Hx), Hy as (y' & <- & Hy).
      apply In_nth_error in Hx. apply In_nth_error in Hy. destruct Hx as (i & Ei), Hy as (j & Ej). destruct (Same i j _ _ Ei Ej) as [A|A]; auto. left. congruence. }
  assert (El : len iv == total_volume cs).
  { rewrite <- Ec. unfold iv. clear iv Ec Il Il2 Same Hp. induction l as [|x l IH]; [reflexivity|]. cbn [map len fold_right fst snd total_volume]. unfold len, total_volume in IH. rewrite IH. unfold cell_volume at 2. simpl. ring. }
  assert (Em : moment iv == fold_right (fun x s => fst x * (2 * snd x) + s) 0 l).
  { unfold iv. clear iv Ec Il Il2 Same Hp El. induction l as [|x l IH]; simpl; [reflexivity|]. rewrite IH. field. }
  rewrite <- Em, (full_moment iv (a - r) (a + r) Hp).
  - field.
  - intros x Hx. unfold iv in Hx. apply in_map_iff in Hx. destruct Hx as (y & <- & Hy). destruct (Il2 y Hy) as (A1 & A2 & _). simpl. lra.
  - rewrite El, V. unfold cell_volume. simpl. ring.
  - lra.
Qed.
