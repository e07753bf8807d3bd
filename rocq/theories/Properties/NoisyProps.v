(** C81: a function observed under noise. *)
From Coq Require Import List Bool Arith Lia QArith Lqa.
Import ListNotations.
From Verif Require Import Prelude.Py Prelude.QBase Prelude.QFacts Model.Shape Model.NoisyFunction Spec.NoisySpec.
Open Scope Q_scope.

(** The object after any history of condition and set_params calls. *)
Definition noisy_run (d : nat) (f : arr -> option (list Q) -> list Q) (ops : list noisy_op) : noisy :=
  fold_left noisy_do ops (noisy_new d f).

(** The last value of each kind in a history. *)
Definition last_x (ops : list noisy_op) : option arr :=
  fold_right (fun c r => match r, c with Some x, _ => Some x | None, Condition x => Some x | None, _ => None end) None ops.
Definition last_z (ops : list noisy_op) : option (list Q) :=
  fold_right (fun c r => match r, c with Some x, _ => Some x | None, SetParams x => Some x | None, _ => None end) None ops.

Lemma run_fields d f ops : let o := noisy_run d f ops in
  nz_dims o = d /\ nz_f o = f /\ nz_x o = last_x ops /\ nz_z o = last_z ops.
Proof.
  assert (G : forall ops o, let o' := fold_left noisy_do ops o in nz_dims o' = nz_dims o /\ nz_f o' = nz_f o /\
    nz_x o' = match last_x ops with Some x => Some x | None => nz_x o end /\
    nz_z o' = match last_z ops with Some x => Some x | None => nz_z o end).
  { clear. induction ops as [|c ops IH]; intros o; cbn zeta; [simpl; auto|]. simpl fold_left.
    destruct (IH (noisy_do o c)) as (A & B & C & D). rewrite A, B, C, D. simpl last_x. simpl last_z.
    destruct c; simpl; destruct (last_x ops), (last_z ops); auto. }
  cbn zeta. destruct (G ops (noisy_new d f)) as (A & B & C & D). unfold noisy_run. rewrite A, B, C, D. simpl.
  destruct (last_x ops), (last_z ops); auto.
Qed.

Lemma chunks_length d n : forall l, length (chunks d n l) = n.
Proof. induction n; intros l; simpl; auto. Qed.
Lemma chunks_width d n : forall l, length l = (n * d)%nat -> Forall (fun r => length r = d) (chunks d n l).
Proof.
  induction n as [|n IH]; intros l L; simpl; constructor.
  - rewrite firstn_length. simpl in L. lia.
  - apply IH. rewrite skipn_length. simpl in L. lia.
Qed.
Lemma nth_skip {A} (d : nat) : forall (l : list A) j z, nth j (skipn d l) z = nth (d + j) l z.
Proof. induction d as [|d IH]; intros [|a l] j z; simpl; auto. now destruct j. Qed.
Lemma nth_first {A} (d : nat) : forall (l : list A) j z, (j < d)%nat -> nth j (firstn d l) z = nth j l z.
Proof. induction d as [|d IH]; intros [|a l] [|j] z H; simpl; auto; try lia. apply IH. lia. Qed.
Lemma chunks_nth d n : forall l i r j, nth_error (chunks d n l) i = Some r -> (j < d)%nat -> nth j r 0 = nth (i * d + j) l 0.
Proof.
  induction n as [|n IH]; intros l i r j H J; simpl in H; [destruct i; discriminate|].
  destruct i as [|i]; simpl in H; [inversion H; simpl; now apply nth_first|].
  rewrite (IH _ _ _ _ H J), nth_skip. f_equal. simpl. lia.
Qed.
Lemma nth_error_map2 {A B C} (f : A -> B -> C) : forall l m i c, nth_error (map2 f l m) i = Some c ->
  exists a b, nth_error l i = Some a /\ nth_error m i = Some b /\ c = f a b.
Proof.
  induction l as [|a l IH]; intros [|b m] [|i] c H; simpl in H; try discriminate; simpl.
  - inversion H. eauto.
  - now apply IH.
Qed.
Lemma nth_error_map_inv {A B} (g : A -> B) : forall l i v, nth_error (map g l) i = Some v -> exists a, nth_error l i = Some a /\ v = g a.
Proof. induction l as [|a l IH]; intros [|i] v H; simpl in *; try discriminate; [inversion H; eauto|now apply IH]. Qed.
Lemma vop_nth (f : Q -> Q -> Q) : (f 0 0 == 0) -> forall x y j, length x = length y -> nth j (map2 f x y) 0 == f (nth j x 0) (nth j y 0).
Proof.
  intros Z. induction x as [|a x IH]; intros [|b y] j L; try discriminate; destruct j; simpl; try (rewrite Z; reflexivity); try reflexivity.
  apply IH. simpl in L. lia.
Qed.

(** sample: after any history, the last conditioning value and the last parameters count; the observation is the
    function value plus the noise, one row per conditioning row. *)
Theorem C81_samples : forall d f ops x noise, last_x ops = Some x ->
  length (f x (last_z ops)) = (length (a_rows x) * d)%nat ->
  length noise = length (a_rows x) -> Forall (fun e => length e = d) noise ->
  exists y, noisy_sample (noisy_run d f ops) noise = Ok (mkArr d y) /\
    observed d (length (a_rows x)) (f x (last_z ops)) noise y.
Proof.
  intros d f ops x noise X L N W. destruct (run_fields d f ops) as (A & B & C & D). unfold noisy_sample. rewrite C, X, A, B, D, L, Nat.eqb_refl.
  eexists. split; [reflexivity|]. set (fx := f x (last_z ops)) in *. set (n := length (a_rows x)) in *.
  pose proof (chunks_width d n fx L) as CW. unfold observed. split; [|split].
  - rewrite map2_length; rewrite chunks_length; [reflexivity|now symmetry].
  - intros i r H. apply nth_error_map2 in H. destruct H as (a & e & H & K & ->).
    apply nth_error_In in H, K. rewrite Forall_forall in CW, W. unfold vadd. rewrite map2_length; rewrite (CW _ H); auto. now rewrite (W _ K).
  - intros i j r e H K J. apply nth_error_map2 in H. destruct H as (a & e' & H & K' & ->). assert (EE : Some e = Some e') by (rewrite <- K; exact K'). inversion EE; subst e'. clear EE K'.
    unfold vadd. rewrite vop_nth; [|reflexivity|].
    + now rewrite (chunks_nth _ _ _ _ _ _ H J).
    + apply nth_error_In in H, K. rewrite Forall_forall in CW, W. now rewrite (CW _ H), (W _ K).
Qed.

(** Queries are answered only after a condition() call, whatever else happened. *)
Theorem C81_unconditioned : forall d f ops (V : Type) (den : list Q -> V) y noise,
  (forall x, ~ In (Condition x) ops) ->
  noisy_density (noisy_run d f ops) den y = Raise ValueError /\ noisy_sample (noisy_run d f ops) noise = Raise TypeError.
Proof.
  intros d f ops V den y noise H. destruct (run_fields d f ops) as (A & B & C & D).
  assert (E : last_x ops = None).
  { clear - H. induction ops as [|c ops IH]; [reflexivity|]. simpl. rewrite IH by (intros x K; apply (H x); now right).
    destruct c; [reflexivity|]. exfalso. apply (H x). now left. }
  unfold noisy_density, noisy_sample. rewrite C, E. auto.
Qed.

(** The intended density: the noise density of what is left of an observation after taking away the function value. It
    holds when the function returns its argument (the case the class documents in its example) ... *)
Theorem C81_density_partial : forall d f ops x (V : Type) (den : list Q -> V) y,
  (forall e e', same_row e e' -> den e = den e') ->
  last_x ops = Some x -> a_width x = d -> Forall (fun r => length r = d) (a_rows x) ->
  Forall2 Qeq (f x (last_z ops)) (concat (a_rows x)) ->
  y <> [] -> length y = length (a_rows x) -> Forall (fun r => length r = d) y ->
  exists vs, noisy_density (noisy_run d f ops) den (mkArr d y) = Ok vs /\ length vs = length y /\
    forall i yi v e, nth_error y i = Some yi -> nth_error vs i = Some v -> residual d i (f x (last_z ops)) yi e -> v = den e.
Proof.
  intros d f ops x V den y P X WX RX FX NY LY RY. destruct (run_fields d f ops) as (A & B & C & D).
  unfold noisy_density. rewrite C, X, A. unfold arr_sub, extent. cbn [a_width a_rows]. rewrite WX, Nat.eqb_refl. cbn [bind].
  rewrite LY, Nat.eqb_refl. cbn [bind a_width a_rows]. unfold tall. rewrite LY, !Nat.eqb_refl.
  assert (WD : forall rs, Forall (fun r => length r = d) rs -> map (wide d) rs = rs).
  { intros rs. induction 1 as [|r rs Hr _ IH]; [reflexivity|]. simpl. rewrite IH. unfold wide. now rewrite Hr, Nat.eqb_refl. }
  rewrite !WD by assumption. set (r := map2 vsub y (a_rows x)).
  assert (LR : length r = length y) by (unfold r; rewrite map2_length; [reflexivity|exact LY]).
  assert (CS : forall r' : list (list Q), length r' = length y -> check_shape d (Arr2 d r') = Ok r').
  { intros [|r0 r'] L'; [exfalso; apply NY; apply length_zero_iff_nil; now rewrite <- L'|]. unfold check_shape. now rewrite Nat.eqb_refl. }
  rewrite (CS r LR). cbn [bind]. eexists. split; [reflexivity|]. rewrite map_length. split; [rewrite <- LY; exact LR|].
  intros i yi v e HY HV [LE HE]. apply nth_error_map_inv in HV. destruct HV as (ri & HR & ->). apply P. unfold r in HR. apply nth_error_map2 in HR. destruct HR as (a & b & Ha & Hb & ->).
  assert (EE : Some yi = Some a) by (rewrite <- HY; exact Ha). inversion EE; subst a. clear EE Ha.
  assert (Lb : length b = d) by (rewrite Forall_forall in RX; apply RX; eapply nth_error_In; eauto).
  assert (Ly : length yi = d) by (rewrite Forall_forall in RY; apply RY; eapply nth_error_In; eauto).
  assert (CC : forall j, (j < d)%nat -> nth (i * d + j) (concat (a_rows x)) 0 = nth j b 0).
  { clear - RX Hb. revert i Hb. induction RX as [|r rs L R IH]; intros i Hb j J; [destruct i; discriminate|].
    destruct i as [|i]; simpl in *.
    - inversion Hb; subst. rewrite app_nth1 by lia. reflexivity.
    - rewrite app_nth2 by lia. rewrite <- (IH i Hb j J). f_equal. lia. }
  assert (FN : forall k, nth k (f x (last_z ops)) 0 == nth k (concat (a_rows x)) 0).
  { clear - FX. induction FX; intros [|k]; simpl; auto; reflexivity. }
  assert (E : forall j, (j < d)%nat -> nth j (vsub yi b) 0 == nth j e 0).
  { intros j J. rewrite (HE j J), FN, CC by exact J. unfold vsub. rewrite vop_nth by (try reflexivity; now rewrite Ly). reflexivity. }
  assert (LS : length (vsub yi b) = length e) by (unfold vsub; rewrite map2_length; [now rewrite LE|now rewrite Ly]).
  assert (Ls : length (vsub yi b) = d) by congruence.
  clear - E LS Ls. revert e d E LS Ls. induction (vsub yi b) as [|u us IH]; intros [|w ws] d E LS Ls; try discriminate; constructor.
  - apply (E 0%nat). simpl in Ls. lia.
  - apply IH with (d := pred d); [|simpl in LS; lia|simpl in Ls; lia]. intros j J. apply (E (S j)). lia.
Qed.

Example C81_example : let x := mkArr 2 [[1; 2]; [3; 4]] in
  let ops := [Condition (mkArr 2 []); SetParams [5]; Condition x; SetParams [7]] in
  last_x ops = Some x /\ last_z ops = Some [7] /\ Forall2 Qeq ((fun x _ => concat (a_rows x)) x (Some [7])) (concat (a_rows x)) /\
  noisy_sample (noisy_run 2 (fun x _ => concat (a_rows x)) ops) [[1 # 2; 0]; [0; 1]] = Ok (mkArr 2 [[3 # 2; 2]; [3; 5]]).
Proof. split; [reflexivity|]. split; [reflexivity|]. split; [repeat constructor|]. vm_compute. reflexivity. Qed.

(** ... but not for other functions: the density is taken around the argument, not around the function value. With
    f(x) = 2 x, x = 1 and noise within 1/2, no observation that can be sampled has positive density. *)
Theorem C81_density_refuted : exists d f x (den : list Q -> Q),
  let o := noisy_run d f [Condition x] in
  (forall e, den [e] == 0 \/ den [e] == 1) /\
  (forall e, den [e] == 1 -> exists y, noisy_sample o [[e]] = Ok y /\ exists v, noisy_density o den y = Ok [v] /\ v == 0).
Proof.
  exists 1%nat, (fun x _ => map (fun q => 2 * q) (concat (a_rows x))), (mkArr 1 [[1]]),
    (fun r => if Qle_bool (-(1 # 2)) (hd 0 r) && Qltb (hd 0 r) (1 # 2) then 1 else 0).
  split.
  - intros e. cbn [hd]. destruct (_ && _); [right|left]; reflexivity.
  - intros e H. cbn [hd] in H. destruct (Qle_bool (- (1 # 2)) e) eqn:A; simpl in H; [|lra].
    destruct (Qltb e (1 # 2)) eqn:B; [|lra]. eexists. split; [cbn; reflexivity|]. eexists. split; [cbn; reflexivity|].
    cbn [hd]. destruct (Qltb (2 * 1 + e - 1) (1 # 2)) eqn:K; [|rewrite andb_false_r; reflexivity].
    exfalso. apply Qltb_true in K. apply Qle_bool_iff in A. lra.
Qed.

(** A function with fewer outputs than inputs can be sampled but has no density at all. *)
Theorem C81_width_refuted : exists d f x y noise, let o := noisy_run d f [Condition x] in
  noisy_sample o noise = Ok y /\ forall (V : Type) (den : list Q -> V), noisy_density o den y = Raise ValueError.
Proof.
  exists 1%nat, (fun x _ => map (fun r => fold_right Qplus 0 r) (a_rows x)), (mkArr 2 [[1; 2]]).
  eexists. exists [[0]]. split; [vm_compute; reflexivity|]. intros V den. vm_compute. reflexivity.
Qed.

Print Assumptions C81_samples.
Print Assumptions C81_unconditioned.
Print Assumptions C81_density_partial.
Print Assumptions C81_density_refuted.
Print Assumptions C81_width_refuted.
