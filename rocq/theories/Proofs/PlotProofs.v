(** Lemmas about the plotted curves. *)
From Coq Require Import String List Bool Arith Lia QArith Lqa Reals.
Import ListNotations.
From Verif Require Import Prelude.QBase Model.Plots Spec.PlotSpec.
Open Scope Q_scope.

Definition entry_of (r : trow) : entry := (((t_method r, t_dims r), t_target r), t_x r, t_y r).

Lemma picked_in m d t rows r : In r (picked m d t rows) <-> In r rows /\ e_key (entry_of r) = (m, d, t).
Proof.
  unfold picked. rewrite filter_In, !andb_true_iff, !String.eqb_eq, Nat.eqb_eq. unfold entry_of, e_key. simpl.
  split; [intros (I & (A & B) & C); subst; auto|]. intros (I & E). inversion E; subst. auto.
Qed.
Lemma picked_cons m d t r rows : e_key (entry_of r) = (m, d, t) -> picked m d t (r :: rows) = r :: picked m d t rows.
Proof.
  intros E. unfold entry_of, e_key in E. simpl in E. inversion E; subst. unfold picked. simpl.
  now rewrite !String.eqb_refl, Nat.eqb_refl.
Qed.
Lemma picked_skip m d t r rows : e_key (entry_of r) <> (m, d, t) -> picked m d t (r :: rows) = picked m d t rows.
Proof.
  intros E. unfold picked. cbn [filter]. destruct (_ && _) eqn:X; [|reflexivity].
  rewrite !andb_true_iff, !String.eqb_eq, Nat.eqb_eq in X. destruct X as ((A & B) & C). exfalso. apply E.
  unfold entry_of, e_key. simpl. now rewrite A, B, C.
Qed.

Fixpoint sorted (l : list nat) : Prop :=
  match l with [] => True | x :: r => Forall (fun y => (x < y)%nat) r /\ sorted r end.
Lemma insert_in x l y : In y (insert_count x l) <-> y = x \/ In y l.
Proof.
  induction l as [|a l IH]; simpl; [intuition|]. destruct (Nat.ltb_spec x a); [simpl; intuition|].
  destruct (Nat.eqb_spec x a); simpl; [subst; intuition|]. rewrite IH. intuition.
Qed.
Lemma insert_sorted x l : sorted l -> sorted (insert_count x l).
Proof.
  induction l as [|a l IH]; simpl; [auto|]. intros (F & S0). destruct (Nat.ltb_spec x a).
  - simpl. split; [|auto]. constructor; [assumption|]. eapply Forall_impl; [|exact F]. simpl. intros; lia.
  - destruct (Nat.eqb_spec x a); [simpl; auto|]. simpl. split; [|auto]. apply Forall_forall. intros y I. apply insert_in in I.
    rewrite Forall_forall in F. destruct I as [->|I]; [lia|auto].
Qed.
Lemma counts_sorted rows : sorted (counts rows).
Proof. unfold counts. induction (map t_x rows); simpl; [exact I|]. now apply insert_sorted. Qed.
Lemma counts_in rows x : In x (counts rows) <-> exists r, In r rows /\ t_x r = x.
Proof.
  unfold counts. transitivity (In x (map t_x rows)).
  - induction (map t_x rows) as [|a l IH]; simpl; [tauto|]. rewrite insert_in, IH. intuition.
  - rewrite in_map_iff. split; intros (r & A & B); exists r; auto.
Qed.
Lemma sorted_increasing l : sorted l -> increasing l.
Proof.
  induction l as [|a l IH]; intros S0 i j x y L A B; [destruct i; discriminate|]. destruct S0 as (F & S0).
  destruct j as [|j]; [lia|]. simpl in B. destruct i as [|i].
  - simpl in A. injection A as <-. rewrite Forall_forall in F. apply F. eapply nth_error_In; eassumption.
  - simpl in A. apply (IH S0 i j); [lia|assumption|assumption].
Qed.

Definition group_values (x : nat) (rows : list trow) : list Q := present (map t_y (filter (fun r => Nat.eqb (t_x r) x) rows)).
Lemma group_values_spec m d t x rows : values_at (m, d, t) x (map entry_of rows) (group_values x (picked m d t rows)).
Proof.
  induction rows as [|r rows IH]; [constructor|]. simpl map.
  assert (Dk : e_key (entry_of r) = (m, d, t) \/ e_key (entry_of r) <> (m, d, t)).
  { unfold e_key, entry_of. simpl. destruct (string_dec (t_method r) m) as [->|N]; [|right; congruence].
    destruct (Nat.eq_dec (t_dims r) d) as [->|N]; [|right; congruence]. destruct (string_dec (t_target r) t) as [->|N]; [|right; congruence].
    now left. }
  destruct Dk as [K|K].
  - rewrite (picked_cons _ _ _ _ _ K). unfold group_values. cbn [filter]. destruct (Nat.eqb_spec (t_x r) x) as [X|X].
    + cbn [map]. destruct (t_y r) as [v|] eqn:Y; cbn [present flat_map app].
      * apply va_take; [assumption|assumption|exact Y|exact IH].
      * apply va_skip; [intros _ _; exact Y|exact IH].
    + apply va_skip; [intros _ E; elim X; exact E|exact IH].
  - rewrite (picked_skip _ _ _ _ _ K). apply va_skip; [intros E; contradiction|exact IH].
Qed.
Lemma values_in k x tab l : values_at k x tab l -> forall v, In v l -> exists e, about k tab e /\ e_count e = x /\ e_value e = Some v.
Proof.
  induction 1 as [|e tab v l K X V H IH|e tab l N H IH]; intros u I; [destruct I| |].
  - destruct I as [<-|I]; [exists e; repeat split; [left; reflexivity|assumption..]|].
    destruct (IH u I) as (e' & (A & B) & C). exists e'. split; [split; [right; exact A|exact B]|exact C].
  - destruct (IH u I) as (e' & (A & B) & C). exists e'. split; [split; [right; exact A|exact B]|exact C].
Qed.

Lemma fold_sum l : fold_right Qplus 0 l == Qsum l.
Proof. induction l as [|a l IH]; simpl; [reflexivity|]. rewrite IH. reflexivity. Qed.
Lemma mean_spec l : l <> [] -> is_mean l (mean l).
Proof.
  intros N. split; [assumption|]. rewrite fold_sum. unfold mean, Qnat. apply Qmult_div_r.
  destruct l as [|a l]; [congruence|]. intros E. unfold Qeq in E. cbn [length inject_Z Qnum Qden] in E. lia.
Qed.
Lemma sum_bounds lo hi l : (forall v, In v l -> lo <= v <= hi) -> Qnat (length l) * lo <= Qsum l <= Qnat (length l) * hi.
Proof.
  induction l as [|a l IH]; intros H; [unfold Qnat; cbn [length Z.of_nat Qsum]; change (inject_Z 0) with 0; split; lra|].
  assert (E : Qnat (length (a :: l)) == 1 + Qnat (length l)).
  { unfold Qnat. cbn [length]. rewrite Nat2Z.inj_succ. unfold Z.succ. rewrite inject_Z_plus. change (inject_Z 1) with 1. ring. }
  rewrite E. cbn [Qsum]. destruct (H a (or_introl eq_refl)) as (A1 & A2). destruct (IH (fun v I => H v (or_intror I))) as (B1 & B2). split; lra.
Qed.
Lemma mean_bounds lo hi l : l <> [] -> (forall v, In v l -> lo <= v <= hi) -> lo <= mean l <= hi.
Proof.
  intros N H. destruct (mean_spec l N) as (_ & E). rewrite fold_sum in E. destruct (sum_bounds lo hi l H) as (B1 & B2).
  change (inject_Z (Z.of_nat (length l))) with (Qnat (length l)) in E. rewrite <- E in B1, B2.
  assert (P : 0 < Qnat (length l)).
  { destruct l as [|a l]; [congruence|]. unfold Qnat, Qlt. cbn [length inject_Z Qnum Qden]. lia. }
  split; (apply Qmult_le_l with (z := Qnat (length l)); [exact P|lra]).
Qed.

Lemma group_mean_some m d t rows x a : group_mean x (picked m d t rows) = Some a -> average_at (m, d, t) x (map entry_of rows) a.
Proof.
  unfold group_mean. fold (group_values x (picked m d t rows)). pose proof (group_values_spec m d t x rows) as V.
  destruct (group_values x (picked m d t rows)) as [|v l]; [discriminate|]. intros E. injection E as <-. exists (v :: l). split; [exact V|].
  apply mean_spec. discriminate.
Qed.
Lemma group_mean_none m d t rows x : group_mean x (picked m d t rows) = None -> values_at (m, d, t) x (map entry_of rows) [].
Proof.
  unfold group_mean. fold (group_values x (picked m d t rows)). pose proof (group_values_spec m d t x rows) as V.
  destruct (group_values x (picked m d t rows)) as [|v l]; [intros _; exact V|discriminate].
Qed.

Lemma present_full l : length (present l) = length l -> forall j, nth_error l j = option_map Some (nth_error (present l) j).
Proof.
  assert (Le : forall l, (length (present l) <= length l)%nat).
  { clear. induction l as [|[v|] l IH]; simpl; lia. }
  induction l as [|[v|] l IH]; intros E j.
  - destruct j; reflexivity.
  - simpl in E. destruct j; [reflexivity|]. apply IH. lia.
  - simpl in E. specialize (Le l). lia.
Qed.
Lemma present_less l : length (present l) <> length l -> exists j, nth_error l j = Some None.
Proof.
  induction l as [|[v|] l IH]; intros E; [now elim E| |].
  - destruct IH as (j & H); [intros X; apply E; simpl; now rewrite X|]. now exists (S j).
  - now exists 0%nat.
Qed.
Lemma nth_skipn {A} n (l : list A) j : nth_error (skipn n l) j = nth_error l (n + j).
Proof. revert l. induction n as [|n IH]; intros l; [reflexivity|]. destruct l; [now destruct j|]. apply IH. Qed.
Lemma nth_firstn {A} n (l : list A) j : (j < n)%nat -> nth_error (firstn n l) j = nth_error l j.
Proof.
  revert l j. induction n as [|n IH]; intros l j L; [lia|]. destruct l; [now destruct j|]. destruct j; [reflexivity|].
  simpl. apply IH. lia.
Qed.
Lemma window_some l i w : window l i = Some w ->
  (9 <= i)%nat /\ length w = 10%nat /\ forall j a, nth_error w j = Some a -> nth_error l (i - 9 + j) = Some (Some a).
Proof.
  unfold window. cbv zeta. remember (firstn 10 (skipn (S i - 10) l)) as p eqn:Ep.
  destruct (_ && _) eqn:E; [|discriminate]. rewrite andb_true_iff, Nat.leb_le, Nat.eqb_eq in E. destruct E as (L & N).
  intros X. injection X as <-. split; [lia|]. split; [exact N|]. intros j a H.
  assert (Lp : length p = 10%nat).
  { assert (length p <= 10)%nat by (rewrite Ep; apply firstn_le_length). assert (length (present p) <= length p)%nat.
    { clear. induction p as [|[v|] p IH]; simpl in *; lia. }
    lia. }
  pose proof (present_full p ltac:(congruence) j) as Q0. rewrite H in Q0. simpl in Q0.
  assert (J : (j < 10)%nat). { assert (X : nth_error (present p) j <> None) by congruence. apply nth_error_Some in X. lia. }
  rewrite Ep, nth_firstn in Q0 by exact J. rewrite nth_skipn in Q0. replace (i - 9 + j)%nat with (S i - 10 + j)%nat by lia. exact Q0.
Qed.
Lemma window_none l i : (i < length l)%nat -> window l i = None ->
  (i < 9)%nat \/ exists j, (i - 9 <= j <= i)%nat /\ nth_error l j = Some None.
Proof.
  intros Li. unfold window. destruct (_ && _) eqn:E; [discriminate|]. intros _. rewrite andb_false_iff, Nat.leb_gt, Nat.eqb_neq in E.
  destruct (Nat.lt_ge_cases i 9) as [A|A]; [now left|right]. destruct E as [E|E]; [lia|].
  set (p := firstn 10 (skipn (S i - 10) l)) in *.
  assert (Lp : length p = 10%nat). { unfold p. rewrite firstn_length, skipn_length. lia. }
  destruct (present_less p) as (j & H); [congruence|].
  assert (J : (j < 10)%nat). { assert (X : nth_error p j <> None) by congruence. apply nth_error_Some in X. lia. }
  unfold p in H. rewrite nth_firstn in H by exact J. rewrite nth_skipn in H. exists (S i - 10 + j)%nat. split; [lia|exact H].
Qed.

(** The points of a curve. *)
Definition point_at (sel : list trow) (i x : nat) : nat * option Q * option R :=
  (x, rolling_mean (group_means sel) i, rolling_err (group_means sel) i).
Lemma curve_some m d t rows c : curve m d t rows = Some c -> picked m d t rows <> [] /\
  c = map (fun p => point_at (picked m d t rows) (fst p) (snd p)) (combine (seq 0 (length (counts (picked m d t rows)))) (counts (picked m d t rows))).
Proof.
  unfold curve. destruct (picked m d t rows) as [|r sel] eqn:E; [discriminate|]. intros X. injection X as <-. split; [discriminate|reflexivity].
Qed.
Lemma combine_nth {A} (l : list A) s i : nth_error (combine (seq s (length l)) l) i = option_map (pair (s + i)%nat) (nth_error l i).
Proof.
  revert s i. induction l as [|a l IH]; intros s i; [now destruct i|]. destruct i as [|i]; simpl; [now rewrite Nat.add_0_r|].
  rewrite IH. now rewrite Nat.add_succ_r.
Qed.
Lemma curve_nth m d t rows c : curve m d t rows = Some c -> forall i,
  nth_error c i = option_map (point_at (picked m d t rows) i) (nth_error (counts (picked m d t rows)) i).
Proof.
  intros E i. destruct (curve_some _ _ _ _ _ E) as (_ & ->). rewrite nth_error_map, combine_nth.
  destruct (nth_error (counts _) i); reflexivity.
Qed.
Lemma curve_xs m d t rows c : curve m d t rows = Some c -> map (fun p => fst (fst p)) c = counts (picked m d t rows).
Proof.
  intros E. destruct (curve_some _ _ _ _ _ E) as (_ & ->). rewrite map_map. unfold point_at. simpl.
  generalize (counts (picked m d t rows)) as l, 0%nat as s. induction l as [|a l IH]; intros s; [reflexivity|]. simpl. now rewrite IH.
Qed.
Lemma curve_group m d t rows c j a : curve m d t rows = Some c -> nth_error (group_means (picked m d t rows)) j = Some a ->
  exists x y b, nth_error c j = Some (x, y, b) /\ group_mean x (picked m d t rows) = a.
Proof.
  intros E H. unfold group_means in H. rewrite nth_error_map in H. pose proof (curve_nth _ _ _ _ _ E j) as Cn.
  destruct (nth_error (counts (picked m d t rows)) j) as [x|] eqn:N; [|discriminate]. injection H as H.
  simpl in Cn. exists x. eexists. eexists. split; [exact Cn|exact H].
Qed.

Lemma points_of m d t rows :
  (curve m d t rows = None <-> forall e, ~ about (m, d, t) (map entry_of rows) e) /\
  forall c, curve m d t rows = Some c -> increasing (map (fun p => fst (fst p)) c) /\
    forall x, In x (map (fun p => fst (fst p)) c) <-> exists e, about (m, d, t) (map entry_of rows) e /\ e_count e = x.
Proof.
  split.
  - split.
    + intros E e (I & K). apply in_map_iff in I. destruct I as (r & <- & I).
      assert (P : In r (picked m d t rows)) by (apply picked_in; auto). unfold curve in E.
      destruct (picked m d t rows); [destruct P|discriminate].
    + intros H. unfold curve. destruct (picked m d t rows) as [|r sel] eqn:E; [reflexivity|]. exfalso.
      assert (P : In r (picked m d t rows)) by (rewrite E; left; reflexivity). apply picked_in in P. destruct P as (I & K).
      apply (H (entry_of r)). split; [now apply in_map|exact K].
  - intros c E. rewrite (curve_xs _ _ _ _ _ E). split; [apply sorted_increasing, counts_sorted|]. intros x. rewrite counts_in. split.
    + intros (r & I & X). apply picked_in in I. destruct I as (I & K). exists (entry_of r). split; [split; [now apply in_map|exact K]|exact X].
    + intros (e & (I & K) & X). apply in_map_iff in I. destruct I as (r & <- & I). exists r. split; [apply picked_in; auto|exact X].
Qed.

Lemma value_of m d t rows c i x y b : curve m d t rows = Some c -> nth_error c i = Some (x, y, b) ->
  (forall v, y = Some v -> (9 <= i)%nat /\ exists w, length w = 10%nat /\ is_mean w v /\ b = Some (sqrt (sqrt (Q2R (variance w)))) /\ v = mean w /\
     forall j a, nth_error w j = Some a -> exists xj yj bj, nth_error c (i - 9 + j) = Some (xj, yj, bj) /\
       average_at (m, d, t) xj (map entry_of rows) a) /\
  (y = None -> b = None /\ ((i < 9)%nat \/ exists j xj yj bj, (i - 9 <= j <= i)%nat /\ nth_error c j = Some (xj, yj, bj) /\
     values_at (m, d, t) xj (map entry_of rows) [])).
Proof.
  intros E H. pose proof (curve_nth _ _ _ _ _ E i) as Cn. rewrite H in Cn.
  destruct (nth_error (counts (picked m d t rows)) i) as [x0|] eqn:N; [|discriminate]. unfold point_at in Cn. simpl in Cn.
  injection Cn as -> Ey Eb. subst y b. unfold rolling_mean, rolling_err.
  destruct (window (group_means (picked m d t rows)) i) as [w|] eqn:W.
  - split; [|discriminate]. intros v Ev. injection Ev as <-. destruct (window_some _ _ _ W) as (A & L & F). split; [exact A|].
    exists w. split; [exact L|]. split; [apply mean_spec; destruct w; [discriminate|discriminate]|]. split; [reflexivity|]. split; [reflexivity|].
    intros j a Ha. apply F in Ha. destruct (curve_group _ _ _ _ _ _ _ E Ha) as (xj & yj & bj & P & G). exists xj, yj, bj. split; [exact P|].
    now apply group_mean_some.
  - split; [discriminate|]. intros _. split; [reflexivity|].
    assert (Li : (i < length (group_means (picked m d t rows)))%nat).
    { unfold group_means. rewrite map_length. apply nth_error_Some. congruence. }
    destruct (window_none _ _ Li W) as [A|(j & J & G)]; [now left|right].
    destruct (curve_group _ _ _ _ _ _ _ E G) as (xj & yj & bj & P & G'). exists j, xj, yj, bj. split; [exact J|]. split; [exact P|].
    now apply group_mean_none.
Qed.

Lemma average_bounds k x tab a lo hi : (forall e v, about k tab e -> e_value e = Some v -> lo <= v <= hi) -> average_at k x tab a -> lo <= a <= hi.
Proof.
  intros H (l & V & (N & E)). assert (B : forall v, In v l -> lo <= v <= hi).
  { intros v I. destruct (values_in _ _ _ _ V v I) as (e & A & _ & Ev). eapply H; eassumption. }
  pose proof (mean_bounds lo hi l N B) as M. destruct (mean_spec l N) as (_ & E').
  assert (P : 0 < inject_Z (Z.of_nat (length l))).
  { destruct l as [|u l]; [congruence|]. unfold Qlt. cbn [length inject_Z Qnum Qden]. lia. }
  assert (X : a == mean l). { apply (Qmult_inj_l _ _ (inject_Z (Z.of_nat (length l)))); [lra|]. rewrite E, E'. reflexivity. }
  rewrite X. exact M.
Qed.
Lemma range_of m d t rows c i x v b lo hi : curve m d t rows = Some c -> nth_error c i = Some (x, Some v, b) ->
  (forall e u, about (m, d, t) (map entry_of rows) e -> e_value e = Some u -> lo <= u <= hi) -> lo <= v <= hi.
Proof.
  intros E H B. destruct (value_of _ _ _ _ _ _ _ _ _ E H) as (S0 & _). destruct (S0 v eq_refl) as (_ & w & L & M & _ & -> & F).
  apply mean_bounds; [destruct w; [discriminate|discriminate]|]. intros u I. apply In_nth_error in I. destruct I as (j & J).
  destruct (F j u J) as (xj & yj & bj & _ & A). eapply average_bounds; eassumption.
Qed.

Lemma picked_app m d t l1 l2 : picked m d t (l1 ++ l2) = picked m d t l1 ++ picked m d t l2.
Proof. apply filter_app. Qed.
Lemma other_rows m d t l1 r l2 : e_key (entry_of r) <> (m, d, t) -> curve m d t (l1 ++ r :: l2) = curve m d t (l1 ++ l2).
Proof. intros K. unfold curve. rewrite !picked_app, (picked_skip _ _ _ _ _ K). reflexivity. Qed.

Lemma curve_point m d t rows i x w : nth_error (counts (picked m d t rows)) i = Some x ->
  window (group_means (picked m d t rows)) i = Some w ->
  exists c, curve m d t rows = Some c /\ nth_error c i = Some (x, Some (mean w), Some (sqrt (sqrt (Q2R (variance w))))).
Proof.
  intros N W. destruct (curve m d t rows) as [c|] eqn:E.
  - exists c. split; [reflexivity|]. rewrite (curve_nth _ _ _ _ _ E i), N. simpl. unfold point_at, rolling_mean, rolling_err. now rewrite W.
  - unfold curve in E. destruct (picked m d t rows) as [|r sel]; [|discriminate]. destruct i; discriminate N.
Qed.
Lemma curve_average m d t rows c j x : curve m d t rows = Some c -> nth_error (counts (picked m d t rows)) j = Some x ->
  exists y b, nth_error c j = Some (x, y, b).
Proof. intros E N. rewrite (curve_nth _ _ _ _ _ E j), N. do 2 eexists. reflexivity. Qed.
