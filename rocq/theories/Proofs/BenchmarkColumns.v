(** The rows of every execution carry one result per configured metric, in order; columns of the file. *)
From Coq Require Import String List Bool Arith NArith ZArith Lia QArith.
Import ListNotations.
From Verif Require Import Prelude.Py Prelude.QBase Prelude.QFacts Model.TableFormat Model.Benchmark Spec.TableSpec Spec.BenchTableSpec
  Proofs.BenchmarkProofs Proofs.TableText Proofs.TableNumbers Proofs.TableRows.
Open Scope list_scope.

Lemma known_kind : forall m, In m known -> exists k, kind_of m = Some k.
Proof. intros m H. repeat (destruct H as [<-|H]; [eexists; reflexivity|]). destruct H. Qed.

Lemma known_word : forall m, In m known -> word m.
Proof. intros m H. repeat (destruct H as [<-|H]; [repeat split; discriminate|]). destruct H. Qed.

Lemma kind_name_inj : forall j k, kind_name j = kind_name k -> j = k.
Proof. intros [] []; try reflexivity; discriminate. Qed.

Lemma kind_of_inj : forall a b k, kind_of a = Some k -> kind_of b = Some k -> a = b.
Proof.
  assert (X : forall a k, kind_of a = Some k -> a = match k with KLD => "KLD" | JSD => "JSD" | EVMSE => "EVMSE" | ELAPSED => "T" | MEMORY => "MEM" end%string).
  { intros a k. unfold kind_of.
    destruct (String.eqb a "KLD") eqn:E1; [apply String.eqb_eq in E1; intros [= <-]; exact E1|].
    destruct (String.eqb a "JSD") eqn:E2; [apply String.eqb_eq in E2; intros [= <-]; exact E2|].
    destruct (String.eqb a "NESS"); [discriminate|].
    destruct (String.eqb a "EVMSE") eqn:E3; [apply String.eqb_eq in E3; intros [= <-]; exact E3|].
    destruct (String.eqb a "T") eqn:E4; [apply String.eqb_eq in E4; intros [= <-]; exact E4|].
    destruct (String.eqb a "MEM") eqn:E5; [apply String.eqb_eq in E5; intros [= <-]; exact E5|discriminate]. }
  intros a b k A B. rewrite (X a k A), (X b k B). reflexivity.
Qed.

Lemma labels_ok : forall m k, kind_of m = Some k -> In (m, kind_name k) labels.
Proof.
  intros m k. unfold kind_of.
  destruct (String.eqb m "KLD") eqn:E1; [apply String.eqb_eq in E1; intros [= <-]; subst m; cbn; auto|].
  destruct (String.eqb m "JSD") eqn:E2; [apply String.eqb_eq in E2; intros [= <-]; subst m; cbn; auto|].
  destruct (String.eqb m "NESS"); [discriminate|].
  destruct (String.eqb m "EVMSE") eqn:E3; [apply String.eqb_eq in E3; intros [= <-]; subst m; cbn; auto|].
  destruct (String.eqb m "T") eqn:E4; [apply String.eqb_eq in E4; intros [= <-]; subst m; cbn; auto|].
  destruct (String.eqb m "MEM") eqn:E5; [apply String.eqb_eq in E5; intros [= <-]; subst m; cbn; auto 6|discriminate].
Qed.

Lemma instances_map : forall ms, (forall m, In m ms -> In m known) ->
  map (@Some kind) (instances ms) = map kind_of ms.
Proof.
  induction ms as [|m ms IH]; intros H; [reflexivity|]. cbn [instances map].
  destruct (known_kind m (H m (or_introl eq_refl))) as (k & E). rewrite E. cbn [map]. f_equal.
  apply IH. intros x I. apply H. now right.
Qed.

Lemma instances_in : forall ms k, In k (instances ms) -> exists m, In m ms /\ kind_of m = Some k.
Proof.
  induction ms as [|m ms IH]; intros k I; [destruct I|]. cbn [instances] in I. destruct (kind_of m) as [j|] eqn:E.
  - destruct I as [<-|I]; [exists m; split; [now left | exact E]|]. destruct (IH k I) as (x & X & Y). exists x. split; [now right | exact Y].
  - destruct (IH k I) as (x & X & Y). exists x. split; [now right | exact Y].
Qed.

Lemma instances_nodup : forall ms, NoDup ms -> NoDup (map kind_name (instances ms)).
Proof.
  intros ms H. induction H as [|m ms Nin Nd IH]; [constructor|]. cbn [instances].
  destruct (kind_of m) as [k|] eqn:E; [|exact IH]. cbn [map]. constructor; [|exact IH].
  intros I. apply in_map_iff in I. destruct I as (j & Ej & I). apply kind_name_inj in Ej. subst j.
  destruct (instances_in _ _ I) as (x & X & Y). rewrite (kind_of_inj _ _ _ E Y) in Nin. contradiction.
Qed.

Lemma dict_put_new : forall k v d, ~ In k (map fst d) -> dict_put k v d = d ++ [(k, v)].
Proof.
  induction d as [|[k' v'] d IH]; intros H; [reflexivity|]. cbn [dict_put].
  destruct (String.eqb k k') eqn:E; [apply String.eqb_eq in E; exfalso; apply H; now left|].
  cbn [app]. f_equal. apply IH. intros I. apply H. now right.
Qed.

Section World.
Context {W : Type}.
Notation bstate := (bstate W).
Notation bench := (bench W).

Lemma compute_keys : forall (B : bench) ks i w d w' d',
  NoDup (map fst d ++ map kind_name ks) -> compute_all B i ks w d = Ok (w', d') ->
  map fst d' = map fst d ++ map kind_name ks.
Proof.
  induction ks as [|k ks IH]; intros i w d w' d' N E; cbn [compute_all] in E.
  - injection E as _ <-. now rewrite app_nil_r.
  - destruct (b_compute B i k w) as [[w1 v]|e]; [|discriminate].
    cbn [map] in N. pose proof (NoDup_remove_2 _ _ _ N) as X.
    assert (Y : ~ In (kind_name k) (map fst d)) by (intros I; apply X; apply in_or_app; now left).
    rewrite dict_put_new in E by assumption.
    assert (N' : NoDup (map fst (d ++ [(kind_name k, v)]) ++ map kind_name ks)) by (rewrite map_app, <- app_assoc; exact N).
    rewrite (IH _ _ _ _ _ N' E), map_app, <- app_assoc. reflexivity.
Qed.

(** Rows of bench B with metric list ms. *)
Definition good_row (B : bench) (ms : list string) (r : row) : Prop :=
  r_method r = b_method B /\ r_target r = b_target B /\ r_dims r = b_dims B /\
  (NoDup ms -> map fst (r_results r) = map kind_name (instances ms)).

Definition grown (B : bench) (ms : list string) (s s' : bstate) : Prop :=
  exists rs, bs_rows s' = bs_rows s ++ rs /\ Forall (good_row B ms) rs.

Lemma grown_refl : forall B ms s s', bs_rows s' = bs_rows s -> grown B ms s s'.
Proof. intros B ms s s' E. exists []. rewrite app_nil_r. split; [exact E | constructor]. Qed.
Lemma grown_trans : forall B ms s1 s2 s3, grown B ms s1 s2 -> grown B ms s2 s3 -> grown B ms s1 s3.
Proof.
  intros B ms s1 s2 s3 (r1 & E1 & F1) (r2 & E2 & F2). exists (r1 ++ r2). split; [rewrite E2, E1, app_assoc; reflexivity|].
  apply Forall_app. now split.
Qed.

Lemma turn_grown : forall (B : bench) C n s, grown B (c_metrics C) s (out_state (bench_turn B C n s)).
Proof.
  intros B C n s. destruct (bench_turn B C n s) as [s'|s'|e s'] eqn:E.
  - destruct (turn_done _ _ _ _ _ E) as (_ & w1 & w2 & _ & _ & _ & d & K & R). cbn [out_state].
    destruct (c_file C); [|apply grown_refl; exact R].
    destruct R as (r & R & M). exists [r]. split; [exact R|]. constructor; [|constructor].
    destruct (make_row_ok _ _ _ _ _ M) as (A1 & _ & A3 & A4 & A5 & _).
    repeat split; try assumption. intros Nd. rewrite A3.
    exact (compute_keys B _ 0 _ [] _ _ (instances_nodup _ Nd) K).
  - unfold bench_turn in E. cbv zeta in E. cbn [out_state].
    destruct (b_call B n (c_time C) _) as [w2|w2|e w2]; try discriminate.
    + destruct (compute_all B 0 _ _ []) as [[w4 d]|e]; [|discriminate].
      destruct (c_file C); [|discriminate]. destruct (make_row B d (b_len B w2) w4); discriminate.
    + injection E as <-. now apply grown_refl.
  - unfold bench_turn in E. cbv zeta in E. cbn [out_state].
    destruct (b_call B n (c_time C) _) as [w2|w2|e' w2]; try discriminate.
    + destruct (compute_all B 0 _ _ []) as [[w4 d]|e']; [|injection E as _ <-; now apply grown_refl].
      destruct (c_file C); [|discriminate]. destruct (make_row B d (b_len B w2) w4); [discriminate|].
      injection E as _ <-. now apply grown_refl.
    + injection E as _ <-. now apply grown_refl.
Qed.

Lemma loop_grown : forall fuel (B : bench) C n s, grown B (c_metrics C) s (out_state (bench_loop fuel B C n s)).
Proof.
  induction fuel as [|f IH]; intros B C n s; cbn [bench_loop].
  - destruct (bs_len s <? c_max C)%nat; now apply grown_refl.
  - destruct (bs_len s <? c_max C)%nat; [|now apply grown_refl].
    pose proof (turn_grown B C n s) as T. destruct (bench_turn B C n s) as [s1|s1|e s1]; try exact T.
    destruct (Qltb (c_time C) 0); [exact T|]. exact (grown_trans _ _ _ _ _ T (IH _ _ _ _)).
Qed.

Lemma rep_grown : forall fuel (B : bench) C s, grown B (c_metrics C) s (out_state (bench_rep fuel B C s)).
Proof.
  intros fuel B C s. unfold bench_rep. cbv zeta.
  match goal with |- context [bench_loop fuel B C ?n ?x] => pose proof (loop_grown fuel B C n x) as T; destruct (bench_loop fuel B C n x) as [s1|s1|e s1] end;
  try exact T. destruct (c_max C =? 0)%nat; exact T.
Qed.

Lemma reps_grown : forall k fuel (B : bench) C s, grown B (c_metrics C) s (out_state (bench_reps k fuel B C s)).
Proof.
  induction k as [|k IH]; intros fuel B C s; cbn [bench_reps]; [now apply grown_refl|].
  pose proof (rep_grown fuel B C s) as T. destruct (bench_rep fuel B C s) as [s1|s1|e s1]; try exact T.
  exact (grown_trans _ _ _ _ _ T (IH _ _ _ _)).
Qed.

Lemma evaluate_grown : forall fuel (B : bench) C s, grown B (c_metrics C) s (out_state (evaluate_method fuel B C s)).
Proof.
  intros fuel B C s. unfold evaluate_method. cbv zeta. destruct (0 <=? c_seedv C)%Z.
  - match goal with |- context [bench_reps ?k fuel B C ?x] => exact (reps_grown k fuel B C x) end.
  - apply reps_grown.
Qed.

Lemma jobs_rows : forall fuel ms time reps seed (js : list (job W)) s,
  exists rs, bs_rows (out_state (run_jobs fuel ms time reps seed js s)) = bs_rows s ++ rs /\
             Forall (fun r => exists j, In j js /\ good_row (j_bench j) ms r) rs.
Proof.
  intros fuel ms time reps seed. induction js as [|j js IH]; intros s; cbn [run_jobs].
  - exists []. rewrite app_nil_r. split; [reflexivity|constructor].
  - cbv zeta. set (s0 := mkB _ _ (bs_rows s) (ghost_calls s)).
    destruct (evaluate_grown fuel (j_bench j) (job_config ms time reps seed j) s0) as (r1 & E1 & F1).
    change (c_metrics (job_config ms time reps seed j)) with ms in F1. change (bs_rows s0) with (bs_rows s) in E1.
    assert (F1' : Forall (fun r => exists j0, In j0 (j :: js) /\ good_row (j_bench j0) ms r) r1).
    { eapply Forall_impl; [|exact F1]. intros r G. exists j. split; [now left | exact G]. }
    destruct (evaluate_method fuel (j_bench j) (job_config ms time reps seed j) s0) as [s1|s1|e s1]; cbn [out_state] in *;
      try (exists r1; now split).
    destruct (IH s1) as (r2 & E2 & F2). exists (r1 ++ r2). split; [rewrite E2, E1, app_assoc; reflexivity|].
    apply Forall_app. split; [exact F1'|]. eapply Forall_impl; [|exact F2].
    intros r (j' & I & G). exists j'. split; [now right | exact G].
Qed.

Lemma fixed_shown : forall p v, (1 <= p)%nat -> shown p (fixed p v) v.
Proof. intros p [q| | |] P; try reflexivity. now apply fixed_shows. Qed.
Lemma fmt_d_read : forall w n, read_nat (fmt_d w n) = Some (N.of_nat n).
Proof. intros. apply read_padded. Qed.

Lemma nth_mid : forall (A : Type) (a b c : list A) i, (length a + i < length a + length b)%nat ->
  nth_error (a ++ b ++ c) (length a + i) = nth_error b i.
Proof. intros A a b c i H. rewrite nth_error_app2 by lia. rewrite nth_error_app1 by lia. f_equal. lia. Qed.
Lemma nth_end : forall (A : Type) (a b c : list A) i,
  nth_error (a ++ b ++ c) (i + (length a + length b)) = nth_error c i.
Proof. intros A a b c i. rewrite nth_error_app2 by lia. rewrite nth_error_app2 by lia. f_equal. lia. Qed.

Lemma good_reads : forall (B : bench) ms r, NoDup ms -> (forall m, In m ms -> In m known) ->
  good_row B ms r -> reads_as ms r (row_fields r).
Proof.
  intros B ms r Nd K (_ & _ & _ & G). specialize (G Nd).
  assert (L : length (r_results r) = length ms).
  { rewrite <- (map_length fst), G, map_length, <- (map_length (@Some kind)), instances_map by assumption. apply map_length. }
  unfold reads_as, row_fields.
  set (mid := map (fun kv => fixed 5 (snd kv)) (r_results r)).
  set (fin := [fixed 3 (r_ness r); _; _; _; _; _; _]).
  assert (Lm : length mid = length ms) by (unfold mid; rewrite map_length; exact L).
  assert (E : forall i, nth_error (([fmt_d 2 (r_dims r); fmt_d 4 (r_count r)] ++ mid ++ fin)) (i + (2 + length ms)) = nth_error fin i).
  { intros i. rewrite <- Lm. exact (nth_end _ [fmt_d 2 (r_dims r); fmt_d 4 (r_count r)] mid fin i). }
  split; [unfold headings; rewrite !app_length, Lm; reflexivity|].
  split; [eexists; split; [reflexivity | apply fmt_d_read]|].
  split; [eexists; split; [reflexivity | apply fmt_d_read]|].
  split.
  { intros i m H. assert (Hi : (i < length ms)%nat) by (apply nth_error_Some; now rewrite H).
    pose proof (nth_error_In _ _ H) as Hin. destruct (known_kind m (K m Hin)) as (k & Ek).
    destruct (nth_error (r_results r) i) as [[key v]|] eqn:R.
    2:{ exfalso. apply nth_error_None in R. lia. }
    exists (kind_name k), v, (fixed 5 v).
    split; [apply (labels_ok m k Ek)|].
    assert (Key : key = kind_name k).
    { assert (X : nth_error (map fst (r_results r)) i = Some key) by (rewrite (map_nth_error fst _ _ R); reflexivity).
      rewrite G in X.
      assert (Y : nth_error (map (@Some kind) (instances ms)) i = Some (Some k)).
      { rewrite instances_map by assumption. rewrite (map_nth_error kind_of _ _ H), Ek. reflexivity. }
      destruct (nth_error (instances ms) i) as [k'|] eqn:I.
      - rewrite (map_nth_error kind_name _ _ I) in X. rewrite (map_nth_error (@Some kind) _ _ I) in Y. injection X as <-. injection Y as ->. reflexivity.
      - rewrite nth_error_map, I in Y. discriminate. }
    split; [now rewrite <- Key|].
    split; [|apply fixed_shown; lia].
    change (2 + i)%nat with (length [fmt_d 2 (r_dims r); fmt_d 4 (r_count r)] + i)%nat. rewrite nth_mid by (rewrite Lm; cbn; lia).
    unfold mid. rewrite (map_nth_error _ _ _ R). reflexivity. }
  split; [eexists; split; [exact (E 0%nat) | apply fixed_shown; lia]|].
  split; [exact (E 1%nat)|]. split; [exact (E 2%nat)|].
  split; [eexists; split; [exact (E 3%nat) | apply fixed_shown; lia]|].
  split; [eexists; split; [exact (E 4%nat) | apply fmt_d_read]|].
  split; [eexists; split; [exact (E 5%nat) | apply fmt_d_read]|].
  eexists; split; [exact (E 6%nat) | apply fmt_d_read].
Qed.

Theorem run_table : forall fuel ms time reps seed (js : list (job W)) w o text,
  run fuel ms time reps seed js w = (o, text) ->
  NoDup ms -> (forall m, In m ms -> In m known) ->
  (forall j, In j js -> word (b_method (j_bench j)) /\ word (b_target (j_bench j))) ->
  (forall r q, In r (bs_rows (out_state o)) -> r_ness r = Fin q -> -999 <= q /\ q <= 9999) ->
  exists lines, table text = headings ms :: lines /\ Forall2 (reads_as ms) (bs_rows (out_state o)) lines.
Proof.
  intros fuel ms time reps seed js w o text H Nd K Nm Ns. unfold run in H. injection H as Ho Ht.
  destruct (jobs_rows fuel ms time reps seed js (mkB w 0 [] [])) as (rs & E & F). rewrite Ho in E. cbn [bs_rows app] in E.
  rewrite Ho in Ht. rewrite E in *. clear E. subst text.
  exists (map row_fields rs). split.
  - apply file_table.
    + apply Forall_forall. intros m I. apply known_word. now apply K.
    + apply Forall_forall. intros r I. rewrite Forall_forall in F. destruct (F r I) as (j & J & (A & B & _)).
      rewrite A, B. destruct (Nm j J) as (N1 & N2). split; [exact N1|]. split; [exact N2|].
      destruct (r_ness r) as [q| | |] eqn:Q; try (cbn; lia).
      destruct (Ns r q I Q) as (Q1 & Q2). now apply short3.
  - clear Ho Ns. induction F as [|r rs (j & _ & G) F IH]; [constructor|]. cbn [map]. constructor; [|exact IH].
    exact (good_reads _ _ _ Nd K G).
Qed.

End World.
