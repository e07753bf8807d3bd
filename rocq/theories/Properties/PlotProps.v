(** Property C85: the curves of the metric plots.
    Full statement: for a target, the plot of a metric has one curve per method with results; the curve has one point per number of
    samples at which the method was evaluated, in increasing order; its height is the average of the metric over the repetitions at
    that number of samples and its band is their standard deviation. *)
From Coq Require Import String List Bool Arith Lia QArith Reals Qreals Lra.
Import ListNotations.
From Verif Require Import Prelude.QBase Model.Plots Spec.PlotSpec Proofs.PlotProofs Proofs.PlotBand.
Open Scope Q_scope.

(** A table with 11 counts, two repetitions each, and rows of another method. *)
Definition ex_row (x : nat) (y : Q) : trow := mkT 1 x "dm_ais" "normal" (Some y).
Definition ex_other (x : nat) : trow := mkT 1 x "nested" "normal" (Some 100).
Definition ex_table : list trow :=
  flat_map (fun x => [ex_row (10 * x) (Qnat x); ex_other x; ex_row (10 * x) (Qnat x + 2)]) [3; 1; 2; 4; 5; 6; 7; 8; 9; 11; 10]%nat.
Definition ex_curve := curve "dm_ais" 1 "normal" ex_table.

(** Proved: which points there are. A method without rows for the target has no curve. *)
Theorem C85_points_partial : forall m d t rows,
  (curve m d t rows = None <-> forall e, ~ about (m, d, t) (map entry_of rows) e) /\
  forall c, curve m d t rows = Some c -> increasing (map (fun p => fst (fst p)) c) /\
    forall x, In x (map (fun p => fst (fst p)) c) <-> exists e, about (m, d, t) (map entry_of rows) e /\ e_count e = x.
Proof. exact points_of. Qed.
Print Assumptions C85_points_partial.
Example C85_points_example : exists c, ex_curve = Some c /\
  map (fun p => fst (fst p)) c = [10; 20; 30; 40; 50; 60; 70; 80; 90; 100; 110]%nat.
Proof. eexists. split; [reflexivity|]. vm_compute. reflexivity. Qed.

(** Proved: rows of other methods, dimensions or targets do not influence the curve. *)
Theorem C85_own_rows_partial : forall m d t before r after, e_key (entry_of r) <> (m, d, t) ->
  curve m d t (before ++ r :: after) = curve m d t (before ++ after).
Proof. exact other_rows. Qed.
Print Assumptions C85_own_rows_partial.
Example C85_own_rows_example : e_key (entry_of (ex_other 3)) <> ("dm_ais"%string, 1%nat, "normal"%string).
Proof. intros E. inversion E. Qed.

(** Proved: the height at a count is the mean of the averages at the last ten counts; it is missing exactly before the tenth count
    and where one of these averages does not exist. *)
Theorem C85_height_partial : forall m d t rows c i x y b, curve m d t rows = Some c -> nth_error c i = Some (x, y, b) ->
  (forall v, y = Some v -> (9 <= i)%nat /\ exists w, length w = 10%nat /\ is_mean w v /\
     forall j a, nth_error w j = Some a -> exists xj yj bj, nth_error c (i - 9 + j) = Some (xj, yj, bj) /\
       average_at (m, d, t) xj (map entry_of rows) a) /\
  (y = None -> b = None /\ ((i < 9)%nat \/ exists j xj yj bj, (i - 9 <= j <= i)%nat /\ nth_error c j = Some (xj, yj, bj) /\
     values_at (m, d, t) xj (map entry_of rows) [])).
Proof.
  intros m d t rows c i x y b E H. destruct (value_of _ _ _ _ _ _ _ _ _ E H) as (A & B). split; [|exact B].
  intros v V. destruct (A v V) as (I & w & L & M & _ & _ & F). split; [exact I|]. exists w. auto.
Qed.
Print Assumptions C85_height_partial.
Example C85_height_example :
  match ex_curve with Some c => option_map fst (nth_error c 10) | None => None end = Some (110%nat, Some (76800 # 10240)).
Proof. vm_compute. reflexivity. Qed.

(** Proved: the height lies between any bounds on the metric of the method on this target; a constant metric gives a flat curve. *)
Theorem C85_range_partial : forall m d t rows c i x v b lo hi, curve m d t rows = Some c -> nth_error c i = Some (x, Some v, b) ->
  (forall e u, about (m, d, t) (map entry_of rows) e -> e_value e = Some u -> lo <= u <= hi) -> lo <= v <= hi.
Proof. exact range_of. Qed.
Print Assumptions C85_range_partial.
Example C85_range_example : forall e u, about ("dm_ais", 1%nat, "normal")%string (map entry_of ex_table) e -> e_value e = Some u -> 1 <= u <= 13.
Proof.
  intros e u (I & K) V. vm_compute in I.
  repeat (destruct I as [<-|I]; [first [now (vm_compute in K; discriminate K)|(vm_compute in V; injection V as <-; split; vm_compute; discriminate)]|]).
  destruct I.
Qed.

(** Proved: the band is there where the height is; its half width is the square root of the sample standard deviation of the ten
    averages. *)
Theorem C85_band_partial : forall m d t rows c i x y b, curve m d t rows = Some c -> nth_error c i = Some (x, y, b) ->
  (y = None <-> b = None) /\
  forall v s, y = Some v -> b = Some s -> exists w, length w = 10%nat /\ is_mean w v /\
     (forall j a, nth_error w j = Some a -> exists xj yj bj, nth_error c (i - 9 + j) = Some (xj, yj, bj) /\
       average_at (m, d, t) xj (map entry_of rows) a) /\
     (0 <= s)%R /\ (9 * (s * s * (s * s)) = Q2R (deviations v w))%R.
Proof.
  intros m d t rows c i x y b E H. destruct (value_of _ _ _ _ _ _ _ _ _ E H) as (A & B). split.
  - split; [intros Y; apply (B Y)|]. intros Z. destruct y as [v|]; [|reflexivity]. destruct (A v eq_refl) as (_ & w & _ & _ & X & _).
    congruence.
  - intros v s V S0. destruct (A v V) as (I & w & L & M & X & Ev & F). exists w. split; [exact L|]. split; [exact M|]. split; [exact F|].
    assert (Es : s = sqrt (sqrt (Q2R (variance w)))) by congruence. subst s v. apply (band_value w L).
Qed.
Print Assumptions C85_band_partial.
Example C85_band_example : exists c x v s, ex_curve = Some c /\ nth_error c 9 = Some (x, Some v, Some s).
Proof.
  destruct (curve_point "dm_ais" 1 "normal" ex_table 9 100 [4 # 2; 6 # 2; 8 # 2; 10 # 2; 12 # 2; 14 # 2; 16 # 2; 18 # 2; 20 # 2; 22 # 2]
              eq_refl eq_refl) as (c & E & N).
  exists c. do 3 eexists. split; [exact E|exact N].
Qed.

(** Refuted: the height is not the average at that count. *)
Theorem C85_height_refuted : exists m d t rows c i x v b a, curve m d t rows = Some c /\ nth_error c i = Some (x, Some v, b) /\
  average_at (m, d, t) x (map entry_of rows) a /\ ~ v == a.
Proof.
  destruct (curve_point "dm_ais" 1 "normal" ex_table 9 100 [4 # 2; 6 # 2; 8 # 2; 10 # 2; 12 # 2; 14 # 2; 16 # 2; 18 # 2; 20 # 2; 22 # 2]
              eq_refl eq_refl) as (c & E & N).
  exists "dm_ais"%string, 1%nat, "normal"%string, ex_table, c, 9%nat, 100%nat. do 2 eexists. exists (22 # 2). split; [exact E|].
  split; [exact N|]. split; [apply group_mean_some; reflexivity|]. vm_compute. discriminate.
Qed.
Print Assumptions C85_height_refuted.

(** Refuted: a method evaluated at fewer than ten counts is drawn as an empty curve, although it has an average at every count. *)
Theorem C85_short_curve : forall m d t rows c, curve m d t rows = Some c -> (length c < 10)%nat ->
  forall i x y b, nth_error c i = Some (x, y, b) -> y = None /\ b = None.
Proof.
  intros m d t rows c E L i x y b H. destruct (value_of _ _ _ _ _ _ _ _ _ E H) as (A & B).
  assert (I : (i < length c)%nat) by (apply nth_error_Some; congruence).
  destruct y as [v|]; [destruct (A v eq_refl) as (N & w & Lw & _ & _ & _ & F)|split; [reflexivity|apply (B eq_refl)]].
  lia.
Qed.
Print Assumptions C85_short_curve.
Definition ex_short : list trow := flat_map (fun x => [ex_row x 1; ex_row x 3]) (seq 1 9).
Example C85_short_curve_example : option_map (@length _) (curve "dm_ais" 1 "normal" ex_short) = Some 9%nat.
Proof. vm_compute. reflexivity. Qed.
Theorem C85_missing_refuted : exists m d t rows c, curve m d t rows = Some c /\ length c = 9%nat /\
  forall i x y b, nth_error c i = Some (x, y, b) -> y = None /\ average_at (m, d, t) x (map entry_of rows) 2.
Proof.
  exists "dm_ais"%string, 1%nat, "normal"%string, ex_short. eexists. split; [reflexivity|]. split; [vm_compute; reflexivity|].
  intros i x y b H. split; [eapply (C85_short_curve "dm_ais" 1 "normal" ex_short); [reflexivity|vm_compute; lia|exact H]|].
  do 9 (destruct i as [|i]; [vm_compute in H; injection H as <- _ _; exists [1; 3]; split;
    [repeat (first [apply va_nil|apply va_take; [reflexivity|reflexivity|reflexivity|]|apply va_skip; [intros _ X; vm_compute in X; discriminate X|]])
    |split; [discriminate|vm_compute; reflexivity]]|]).
  destruct i; discriminate H.
Qed.
Print Assumptions C85_missing_refuted.

(** Refuted: the band says nothing about the repetitions; where they differ at every count it can have no width. *)
Definition ex_even : list trow := flat_map (fun x => [ex_row x 0; ex_row x 2]) (seq 1 10).
Theorem C85_band_refuted : exists m d t rows c i x v s, curve m d t rows = Some c /\ nth_error c i = Some (x, Some v, Some s) /\
  s = 0%R /\ values_at (m, d, t) x (map entry_of rows) [0; 2].
Proof.
  destruct (curve_point "dm_ais" 1 "normal" ex_even 9 10 (repeat (2 # 2) 10) eq_refl eq_refl) as (c & E & N).
  exists "dm_ais"%string, 1%nat, "normal"%string, ex_even, c, 9%nat, 10%nat. do 2 eexists. split; [exact E|].
  split; [exact N|]. split; [apply band_zero; vm_compute; reflexivity|].
  repeat (first [apply va_nil|apply va_take; [reflexivity|reflexivity|reflexivity|]|apply va_skip; [intros _ X; vm_compute in X; discriminate X|]]).
Qed.
Print Assumptions C85_band_refuted.

(** Refuted: even of the ten averages it is not the standard deviation. *)
Definition ex_swing : list trow := map (fun x => ex_row x (if Nat.even x then 0 else 6)) (seq 1 10).
Theorem C85_band_root_refuted : exists m d t rows c i x v s w, curve m d t rows = Some c /\ nth_error c i = Some (x, Some v, Some s) /\
  length w = 10%nat /\ is_mean w v /\
  (forall j a, nth_error w j = Some a -> exists xj yj bj, nth_error c (i - 9 + j) = Some (xj, yj, bj) /\
     exists a', average_at (m, d, t) xj (map entry_of rows) a' /\ a' == a) /\
  (9 * (s * s) <> Q2R (deviations v w))%R.
Proof.
  destruct (curve_point "dm_ais" 1 "normal" ex_swing 9 10 [6; 0; 6; 0; 6; 0; 6; 0; 6; 0] eq_refl eq_refl) as (c & E & N).
  exists "dm_ais"%string, 1%nat, "normal"%string, ex_swing, c, 9%nat, 10%nat. do 2 eexists. exists [6; 0; 6; 0; 6; 0; 6; 0; 6; 0].
  split; [exact E|]. split; [exact N|]. split; [reflexivity|]. split; [split; [discriminate|vm_compute; reflexivity]|].
  split.
  - intros j a H.
    assert (X : nth_error (counts (picked "dm_ais" 1 "normal" ex_swing)) j = Some (S j)).
    { do 10 (destruct j as [|j]; [reflexivity|]). destruct j; discriminate H. }
    destruct (curve_average _ _ _ _ _ _ _ E X) as (y & b & P). exists (S j), y, b. split; [exact P|]. exists a. split; [|reflexivity].
    apply group_mean_some. clear N E P X.
    do 10 (destruct j as [|j]; [injection H as <-; vm_compute; reflexivity|]). destruct j; discriminate H.
  - match goal with |- (9 * (sqrt (sqrt (Q2R ?v)) * _) <> Q2R ?d)%R =>
      replace (Q2R v) with 10%R by (symmetry; transitivity (Q2R 10); [apply Qeq_eqR; vm_compute; reflexivity|unfold Q2R; simpl; lra]);
      replace (Q2R d) with 90%R by (symmetry; transitivity (Q2R 90); [apply Qeq_eqR; vm_compute; reflexivity|unfold Q2R; simpl; lra]) end.
    rewrite sqrt_sqrt by apply sqrt_pos. intros E0. assert (X : sqrt 10 = 10%R) by lra.
    pose proof (sqrt_sqrt 10 ltac:(lra)) as Y. rewrite X in Y. lra.
Qed.
Print Assumptions C85_band_root_refuted.
