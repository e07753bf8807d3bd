(** Arrays handed out are left alone. *)
From Coq Require Import List Bool Arith Lia ZArith QArith.
Import ListNotations.
From Verif Require Import Prelude.Py Prelude.QBase Model.Population Model.Arrays Spec.ArraysSpec Prelude.QFacts.

Definition valid (h : heap) (r : aref) : Prop := (a_buf r < length h)%nat.
(** Memory grows and what was there stays. *)
Definition grows (h h' : heap) : Prop := exists t, h' = h ++ t.
Lemma grows_refl h : grows h h.
Proof. exists []. now rewrite app_nil_r. Qed.
Lemma grows_trans h1 h2 h3 : grows h1 h2 -> grows h2 h3 -> grows h1 h3.
Proof. intros (t & ->) (u & ->). exists (t ++ u). now rewrite app_assoc. Qed.
Lemma grows_read h h' r : grows h h' -> valid h r -> read h' r = read h r.
Proof. intros (t & ->) V. unfold read. now rewrite nth_error_app1. Qed.
Lemma grows_valid h h' r : grows h h' -> valid h r -> valid h' r.
Proof. intros (t & ->) V. unfold valid in *. rewrite app_length. lia. Qed.
Lemma fresh_grows h b : grows h (fst (fresh h b)) /\ valid (fst (fresh h b)) (snd (fresh h b)) /\ read (fst (fresh h b)) (snd (fresh h b)) = b.
Proof.
  unfold fresh; simpl. split; [now exists [b]|]. split; [unfold valid; simpl; rewrite app_length; simpl; lia|]. unfold read. simpl. rewrite nth_error_app2, Nat.sub_diag by lia. reflexivity.
Qed.
Lemma join_grows h o n : valid h n -> grows h (fst (join h o n)) /\ valid (fst (join h o n)) (snd (join h o n)) /\ read (fst (join h o n)) (snd (join h o n)) = read h o ++ read h n.
Proof.
  intros V. unfold join. destruct (read h o) as [|x l]; simpl; [split; [apply grows_refl|auto]|]. exact (fresh_grows h ((x :: l) ++ read h n)).
Qed.
Lemma fresh_arrays_grows h : grows h (fst (fresh_arrays h)) /\ valid (fst (fresh_arrays h)) (f_samples (snd (fresh_arrays h))) /\ valid (fst (fresh_arrays h)) (f_weights (snd (fresh_arrays h))).
Proof.
  unfold fresh_arrays, fresh, valid; simpl. split; [exists [[]; []]; now rewrite <- app_assoc|]. rewrite !app_length; simpl. lia.
Qed.
Lemma fresh_rows_grows xs : forall h, grows h (fst (fresh_rows h xs)) /\ Forall (valid (fst (fresh_rows h xs))) (snd (fresh_rows h xs)).
Proof.
  induction xs as [|x xs IH]; intros h; [split; [apply grows_refl|constructor]|]. cbn [fresh_rows]. pose proof (fresh_grows h [x]) as (G0 & V0 & _). destruct (fresh h [x]) as [h1 a]. cbn [fst snd] in *.
  specialize (IH h1). destruct (fresh_rows h1 xs) as [h2 l]. cbn [fst snd] in *. destruct IH as (G & F). split; [exact (grows_trans _ _ _ G0 G)|]. constructor; auto. exact (grows_valid _ _ _ G V0).
Qed.

(** * Objects that never assign rows *)
Section Grow.
Context {E S : Type}.
Variables (step : E -> heap -> S -> heap * S * list aref) (ok : heap -> S -> Prop).
Hypothesis Hok : forall e h s, ok h s -> let '(h', s', outs) := step e h s in grows h h' /\ ok h' s' /\ Forall (valid h') outs.
Hypothesis Hput : forall h s r i v, ok h s -> ok (put_row h r i v) s.
Lemma put_valid h r i v r' : valid h r' <-> valid (put_row h r i v) r'.
Proof.
  unfold put_row, valid. destruct (nth_error h (a_buf r)); [|tauto]. destruct (a_row r); [destruct (i =? 0)%nat; [|tauto]|]; now rewrite upd_length.
Qed.
Definition hok (x : hist) : Prop := ok (h_heap x) (h_self x) /\ Forall (valid (h_heap x)) (h_outs x).
Lemma run_op_ok x o : hok x -> hok (run_op step x o) /\ match o with Do _ => grows (h_heap x) (h_heap (run_op step x o)) /\ incl (h_outs x) (h_outs (run_op step x o)) | _ => True end.
Proof.
  intros (O & V). destruct o as [e|k i v]; unfold run_op.
  - pose proof (Hok e _ _ O) as H. destruct (step e (h_heap x) (h_self x)) as [[h s] outs]. destruct H as (G & O1 & V1). unfold hok, h_heap, h_self, h_outs in *; simpl. repeat split; auto.
    + apply Forall_app. split; auto. eapply Forall_impl; [|exact V]. intros r. exact (grows_valid _ _ r G).
    + apply incl_appl, incl_refl.
  - split; [|exact I]. unfold hok; simpl. unfold h_heap, h_self, h_outs in *. simpl. destruct (nth_error (snd x) k); simpl; auto. split; [now apply Hput|]. eapply Forall_impl; [|exact V]. intros r. apply put_valid.
Qed.
Lemma run_ok ops : forall x, hok x -> hok (run step ops x).
Proof. unfold run. induction ops as [|o ops IH]; intros x H; simpl; auto. apply IH. now apply run_op_ok. Qed.
Lemma run_grows es : forall x, hok x -> grows (h_heap x) (h_heap (run step (map Do es) x)).
Proof.
  unfold run. induction es as [|e es IH]; intros x H; [apply grows_refl|]. cbn [map fold_left]. destruct (run_op_ok x (Do e) H) as (H1 & G & _). eapply grows_trans; [exact G|]. now apply IH.
Qed.
Lemma grow_keeps c : ok (fst c) (snd c) -> keeps step c.
Proof.
  intros O ops es r x y R. assert (H : hok x) by (apply run_ok; split; [exact O|constructor]). eapply grows_read; [now apply run_grows|]. destruct H as (_ & V). rewrite Forall_forall in V. auto.
Qed.
End Grow.

Definition ok_arr (h : heap) (s : arrays) : Prop := valid h (f_samples s) /\ valid h (f_weights s).
Lemma ok_grows h h' s : grows h h' -> ok_arr h s -> ok_arr h' s.
Proof. intros G (A & B). split; eapply grows_valid; eauto. Qed.
Lemma put_ok h s r i v : ok_arr h s -> ok_arr (put_row h r i v) s.
Proof. intros (A & B). split; now apply put_valid. Qed.
Lemma mk_ok h a b : valid h a -> valid h b -> ok_arr h (mkArr a b).
Proof. now split. Qed.

(** Rejection sampling. *)
Lemma rej_round_ok h s r : ok_arr h s -> let (h', s') := rej_round_arr (h, s) r in
  grows h h' /\ ok_arr h' s' /\ read h' (f_samples s') = read h (f_samples s) ++ fst r /\ read h' (f_weights s') = read h (f_weights s) ++ snd r.
Proof.
  intros (A & B). unfold rej_round_arr. pose proof (fresh_grows h (fst r)) as (G1 & V1 & R1). destruct (fresh h (fst r)) as [h1 x]. cbn [fst snd] in *.
  pose proof (join_grows h1 (f_samples s) x V1) as (G2 & V2 & R2). destruct (join h1 (f_samples s) x) as [h2 sa]. cbn [fst snd] in *.
  pose proof (fresh_grows h2 (snd r)) as (G3 & V3 & R3). destruct (fresh h2 (snd r)) as [h3 w]. cbn [fst snd] in *.
  pose proof (join_grows h3 (f_weights s) w V3) as (G4 & V4 & R4). destruct (join h3 (f_weights s) w) as [h4 we]. cbn [fst snd f_samples f_weights] in *.
  assert (G34 : grows h2 h4) by (eapply grows_trans; eauto). assert (G13 : grows h h3) by (eapply grows_trans; [exact G1|eapply grows_trans; eauto]).
  split; [eapply grows_trans; eauto|]. split; [apply mk_ok; auto; eapply grows_valid; eauto|]. split.
  - rewrite (grows_read h2 h4) by auto. rewrite R2, R1. now rewrite (grows_read h h1).
  - rewrite R4, R3. now rewrite (grows_read h h3).
Qed.
Lemma rej_rounds_ok rounds : forall h s, ok_arr h s -> let (h', s') := fold_left rej_round_arr rounds (h, s) in
  grows h h' /\ ok_arr h' s' /\ read h' (f_samples s') = read h (f_samples s) ++ concat (map fst rounds) /\ read h' (f_weights s') = read h (f_weights s) ++ concat (map snd rounds).
Proof.
  induction rounds as [|r rounds IH]; intros h s O; cbn [fold_left map concat]; [rewrite !app_nil_r; split; [apply grows_refl|auto]|].
  pose proof (rej_round_ok h s r O) as H. destruct (rej_round_arr (h, s) r) as [h1 s1]. destruct H as (G & O1 & R1 & R2). specialize (IH h1 s1 O1). destruct (fold_left rej_round_arr rounds (h1, s1)) as [h2 s2].
  destruct IH as (G2 & O2 & R3 & R4). split; [eapply grows_trans; eauto|]. split; auto. rewrite R3, R4, R1, R2, !app_assoc. auto.
Qed.
Lemma rej_ok e h s : ok_arr h s -> let '(h', s', outs) := rej_arr e h s in grows h h' /\ ok_arr h' s' /\ Forall (valid h') outs.
Proof.
  intros O. destruct e as [rounds returns|xs|]; cbn [rej_arr].
  - pose proof (rej_rounds_ok rounds h s O) as H. destruct (fold_left rej_round_arr rounds (h, s)) as [h1 s1]. destruct H as (G & O1 & _).
    match goal with |- context [fresh h1 ?b] => pose proof (fresh_grows h1 b) as (G2 & V2 & _); destruct (fresh h1 b) as [h2 w] end. cbn [fst snd] in *.
    assert (Vs : valid h2 (f_samples s1)) by (eapply grows_valid; [exact G2|apply O1]). split; [eapply grows_trans; eauto|]. split; [now apply mk_ok|]. destruct returns; repeat constructor; auto.
  - pose proof (fresh_grows h xs) as (G2 & V2 & _). destruct (fresh h xs) as [h2 w]. cbn [fst snd] in *. split; auto. split; [eapply ok_grows; eauto|]. repeat constructor; auto.
  - pose proof (fresh_arrays_grows h) as (G & A & B). destruct (fresh_arrays h) as [h1 s1]. cbn [fst snd] in *. repeat split; auto.
Qed.

(** Metropolis-Hastings. *)
Section MH.
Variables (lo hi : vec).
Lemma moves_ok mv : forall h c, valid h c -> let (h', c') := fold_left (mh_move lo hi) mv (h, c) in grows h h' /\ valid h' c'.
Proof.
  induction mv as [|d mv IH]; intros h c V; cbn [fold_left]; [split; [apply grows_refl|auto]|]. destruct d as [d|]; cbn [mh_move fst snd]; [|now apply IH].
  match goal with |- context [fresh h ?b] => pose proof (fresh_grows h b) as (G2 & V2 & _); destruct (fresh h b) as [h2 w] end. cbn [fst snd] in *. specialize (IH h2 w V2).
  destruct (fold_left (mh_move lo hi) mv (h2, w)) as [h3 c3]. destruct IH as (G3 & V3). split; auto. eapply grows_trans; eauto.
Qed.
Lemma chain_ok run : forall h c a, valid h c -> valid h a -> let '(h', c', a') := fold_left (mh_chain lo hi) run (h, c, a) in grows h h' /\ valid h' c' /\ valid h' a'.
Proof.
  induction run as [|mv run IH]; intros h c a V W; cbn [fold_left]; [split; [apply grows_refl|auto]|]. cbn [mh_chain].
  pose proof (moves_ok mv h c V) as H. destruct (fold_left (mh_move lo hi) mv (h, c)) as [h1 c1]. destruct H as (G1 & V1).
  pose proof (join_grows h1 a c1 V1) as (G2 & V2 & _). destruct (join h1 a c1) as [h2 a2]. cbn [fst snd] in *.
  assert (V3 : valid h2 c1) by (eapply grows_valid; eauto). specialize (IH h2 c1 a2 V3 V2). destruct (fold_left (mh_chain lo hi) run (h2, c1, a2)) as [[h3 c3] a3]. destruct IH as (G3 & V4 & V5).
  split; auto. eapply grows_trans; [exact G1|]. eapply grows_trans; eauto.
Qed.
Lemma mh_run_ok run h c a : valid h c -> valid h a -> let '(h', c', a') := mh_run_arr lo hi (h, c, a) run in grows h h' /\ valid h' c' /\ valid h' a'.
Proof.
  intros V W. cbn [mh_run_arr]. pose proof (fresh_grows h []) as (G1 & V1 & _). destruct (fresh h []) as [h1 e]. cbn [fst snd] in *.
  pose proof (chain_ok run h1 c e (grows_valid _ _ _ G1 V) V1) as H. destruct (fold_left (mh_chain lo hi) run (h1, c, e)) as [[h2 c2] s2]. destruct H as (G2 & V2 & V3).
  pose proof (join_grows h2 a s2 V3) as (G3 & V4 & _). destruct (join h2 a s2) as [h3 r]. cbn [fst snd] in *. split; [eapply grows_trans; [exact G1|eapply grows_trans; eauto]|]. split; auto. eapply grows_valid; eauto.
Qed.
Lemma mh_runs_ok runs : forall h c a, valid h c -> valid h a -> let '(h', c', a') := fold_left (mh_run_arr lo hi) runs (h, c, a) in grows h h' /\ valid h' c' /\ valid h' a'.
Proof.
  induction runs as [|run runs IH]; intros h c a V W; cbn [fold_left]; [split; [apply grows_refl|auto]|]. pose proof (mh_run_ok run h c a V W) as H. destruct (mh_run_arr lo hi (h, c, a) run) as [[h1 c1] a1]. destruct H as (G & V1 & W1).
  specialize (IH h1 c1 a1 V1 W1). destruct (fold_left (mh_run_arr lo hi) runs (h1, c1, a1)) as [[h2 c2] a2]. destruct IH as (G2 & IH). split; auto. eapply grows_trans; eauto.
Qed.
Definition ok_mh (h : heap) (s : mh_arrays) : Prop := valid h (m_cur s) /\ ok_arr h (m_own s).
Lemma mh_ok e h s : ok_mh h s -> let '(h', s', outs) := mh_arr lo hi e h s in grows h h' /\ ok_mh h' s' /\ Forall (valid h') outs.
Proof.
  intros (C & O). destruct e as [draws returns|runs|]; cbn [mh_arr].
  - assert (H : forall draws h c a, valid h c -> valid h a -> let '(h', c', a') := fold_left (fun hca mv => mh_run_arr lo hi hca [mv]) draws (h, c, a) in grows h h' /\ valid h' c' /\ valid h' a').
    { clear. induction draws as [|mv draws IH]; intros h c a V W; cbn [fold_left]; [split; [apply grows_refl|auto]|]. pose proof (mh_run_ok [mv] h c a V W) as H. destruct (mh_run_arr lo hi (h, c, a) [mv]) as [[h1 c1] a1]. destruct H as (G & V1 & W1).
      specialize (IH h1 c1 a1 V1 W1). destruct (fold_left _ draws (h1, c1, a1)) as [[h2 c2] a2]. destruct IH as (G2 & IH). split; auto. eapply grows_trans; eauto. }
    specialize (H draws h (m_cur s) (f_samples (m_own s)) C (proj1 O)). destruct (fold_left _ draws _) as [[h1 c1] sa]. destruct H as (G & V1 & V2).
    match goal with |- context [fresh h1 ?b] => pose proof (fresh_grows h1 b) as (G2 & V3 & _); destruct (fresh h1 b) as [h2 w] end. cbn [fst snd] in *.
    assert (valid h2 sa) by (eapply grows_valid; eauto). split; [eapply grows_trans; eauto|]. split; [split; [eapply grows_valid; eauto|now apply mk_ok]|]. destruct returns; repeat constructor; auto.
  - pose proof (fresh_grows h []) as (G1 & V1 & _). destruct (fresh h []) as [h1 r0]. cbn [fst snd] in *. pose proof (mh_runs_ok runs h1 (m_cur s) r0 (grows_valid _ _ _ G1 C) V1) as H.
    destruct (fold_left _ runs _) as [[h2 c2] r]. destruct H as (G2 & V2 & V3). assert (G : grows h h2) by (eapply grows_trans; eauto). split; auto. split; [split; [exact V2|eapply ok_grows; eauto]|]. repeat constructor; auto.
  - pose proof (fresh_arrays_grows h) as (G & A & B). destruct (fresh_arrays h) as [h1 s1]. cbn [fst snd] in *. repeat split; auto. eapply grows_valid; eauto.
Qed.
End MH.
Lemma put_ok_mh h s r i v : ok_mh h s -> ok_mh (put_row h r i v) s.
Proof. intros (C & O). split; [now apply put_valid|now apply put_ok]. Qed.

(** The population samplers. *)
Section Pop.
Variables (kind : pop_kind) (lo hi : vec).
Definition ok_pop (h : heap) (s : pop_arrays) : Prop := Forall (valid h) (q_means s) /\ ok_arr h (q_own s).
Lemma valids_grow h h' l : grows h h' -> Forall (valid h) l -> Forall (valid h') l.
Proof. intros G. apply Forall_impl. intros r. now apply grows_valid. Qed.
Lemma walks_ok walks : forall means h, Forall (valid h) means -> let (h', m') := pop_walks lo hi h means walks in grows h h' /\ Forall (valid h') m'.
Proof.
  induction walks as [|w walks IH]; intros [|m ms] h F; cbn [pop_walks]; try (split; [apply grows_refl|exact F]). inversion F; subst.
  pose proof (moves_ok lo hi w h m H1) as H. destruct (fold_left (mh_move lo hi) w (h, m)) as [h1 m1]. destruct H as (G1 & V1).
  specialize (IH ms h1 (valids_grow _ _ _ G1 H2)). destruct (pop_walks lo hi h1 ms walks) as [h2 l]. destruct IH as (G2 & F2). split; [eapply grows_trans; eauto|]. constructor; auto. eapply grows_valid; eauto.
Qed.
Lemma adapt_ok h new t means : valid h new -> Forall (valid h) means -> let (h', m') := pop_adapt_arr kind lo hi h new t means in grows h h' /\ Forall (valid h') m'.
Proof.
  intros V F. unfold pop_adapt_arr. destruct kind.
  - split; [apply grows_refl|]. induction (qt_picks t); simpl; constructor; auto.
  - now apply walks_ok.
  - pose proof (fresh_rows_grows (qt_fit t (read h new)) h) as H. destruct (fresh_rows h _) as [h2 l]. exact H.
Qed.
Lemma pop_turn_ok h s t : ok_pop h s -> let (h', s') := pop_turn_arr kind lo hi (h, s) t in grows h h' /\ ok_pop h' s' /\
  read h' (f_samples (q_own s')) = read h (f_samples (q_own s)) ++ pop_rows h (q_means s) (qt_draws t) /\ read h' (f_weights (q_own s')) = read h (f_weights (q_own s)) ++ qt_weights t.
Proof.
  intros (M & O). unfold pop_turn_arr. pose proof (fresh_grows h (pop_rows h (q_means s) (qt_draws t))) as (G1 & V1 & R1). destruct (fresh h _) as [h1 new]. cbn [fst snd] in *.
  pose proof (fresh_grows h1 (qt_weights t)) as (G2 & V2 & R2). destruct (fresh h1 _) as [h2 nw]. cbn [fst snd] in *. assert (V1' : valid h2 new) by (eapply grows_valid; eauto). assert (G02 : grows h h2) by (eapply grows_trans; eauto).
  pose proof (adapt_ok h2 new t (q_means s) V1' (valids_grow _ _ _ G02 M)) as H. destruct (pop_adapt_arr kind lo hi h2 new t (q_means s)) as [h3 means]. destruct H as (G3 & M3).
  assert (V3 : valid h3 new) by (eapply grows_valid; eauto). assert (W3 : valid h3 nw) by (eapply grows_valid; eauto). assert (G03 : grows h h3) by (eapply grows_trans; eauto).
  pose proof (join_grows h3 (f_samples (q_own s)) new V3) as (G4 & V4 & R4). destruct (join h3 (f_samples (q_own s)) new) as [h4 sa]. cbn [fst snd] in *.
  assert (W4 : valid h4 nw) by (eapply grows_valid; eauto). assert (G04 : grows h h4) by (eapply grows_trans; eauto).
  pose proof (join_grows h4 (f_weights (q_own s)) nw W4) as (G5 & V5 & R5). destruct (join h4 (f_weights (q_own s)) nw) as [h5 we]. cbn [fst snd f_samples f_weights q_own q_means] in *.
  assert (G35 : grows h3 h5) by (eapply grows_trans; eauto). split; [eapply grows_trans; eauto|]. split; [split; [eapply valids_grow; eauto|apply mk_ok; [exact (grows_valid _ _ _ G5 V4)|exact V5]]|]. destruct O as (Os & Ow). split.
  - rewrite (grows_read h4 h5) by auto. rewrite R4, (grows_read h h3), (grows_read h2 h3), (grows_read h1 h2), R1 by auto. reflexivity.
  - rewrite R5, (grows_read h h4) by auto. rewrite (grows_read h2 h4) by (auto; eapply grows_trans; eauto). now rewrite R2.
Qed.
Lemma pop_turns_ok turns : forall h s, ok_pop h s -> let (h', s') := fold_left (pop_turn_arr kind lo hi) turns (h, s) in grows h h' /\ ok_pop h' s'.
Proof.
  induction turns as [|t turns IH]; intros h s O; cbn [fold_left]; [split; [apply grows_refl|auto]|]. pose proof (pop_turn_ok h s t O) as H. destruct (pop_turn_arr kind lo hi (h, s) t) as [h1 s1]. destruct H as (G & O1 & _).
  specialize (IH h1 s1 O1). destruct (fold_left _ turns (h1, s1)) as [h2 s2]. destruct IH as (G2 & O2). split; auto. eapply grows_trans; eauto.
Qed.
Lemma pop_ok e h s : ok_pop h s -> let '(h', s', outs) := pop_arr kind lo hi e h s in grows h h' /\ ok_pop h' s' /\ Forall (valid h') outs.
Proof.
  intros O. destruct e as [turns returns|draws|centres]; cbn [pop_arr].
  - pose proof (pop_turns_ok turns h s O) as H. destruct (fold_left _ turns (h, s)) as [h1 s1]. destruct H as (G & O1).
    assert (K : forall b, grows h (fst (fresh h1 b)) /\ ok_pop (fst (fresh h1 b)) s1 /\ Forall (valid (fst (fresh h1 b))) [f_samples (q_own s1); snd (fresh h1 b)]).
    { intros b. pose proof (fresh_grows h1 b) as (G2 & V2 & _). destruct O1 as (M1 & A1 & B1). split; [eapply grows_trans; eauto|]. split; [exact (conj (valids_grow _ _ _ G2 M1) (ok_grows _ _ _ G2 (conj A1 B1)))|].
      repeat constructor; auto. eapply grows_valid; eauto. }
    destruct kind.
    1,2: specialize (K (wnorm (read h1 (f_weights (q_own s1))))); destruct (fresh h1 _) as [h2 w]; cbn [fst snd] in K; destruct K as (K1 & K2 & K3); (split; [exact K1|split; [exact K2|destruct returns; auto]]).
    destruct O1 as (M1 & A1 & B1). split; auto. split; [exact (conj M1 (conj A1 B1))|]. destruct returns; repeat constructor; auto.
  - match goal with |- context [fresh h ?b] => pose proof (fresh_grows h b) as (G2 & V3 & _); destruct (fresh h b) as [h2 w] end. cbn [fst snd] in *. destruct O as (M & O). split; auto. split; [split; [eapply valids_grow; eauto|eapply ok_grows; eauto]|]. repeat constructor; auto.
  - pose proof (fresh_arrays_grows h) as (G & A & B). destruct (fresh_arrays h) as [h1 own]. cbn [fst snd] in *. pose proof (fresh_rows_grows centres h1) as (G2 & F). destruct (fresh_rows h1 centres) as [h2 l]. cbn [fst snd] in *.
    split; [eapply grows_trans; eauto|]. split; [split; auto; split; eapply grows_valid; eauto|constructor].
Qed.
Lemma put_ok_pop h s r i v : ok_pop h s -> ok_pop (put_row h r i v) s.
Proof. intros (M & O). split; [|now apply put_ok]. eapply Forall_impl; [|exact M]. intros x. apply put_valid. Qed.
End Pop.

(** HiDaisee. *)
Definition ok_hd (h : heap) (s : hd_arrays) : Prop := ok_arr h (hd_own s).
Lemma hd_ok e h s : ok_hd h s -> let '(h', s', outs) := hd_arr e h s in grows h h' /\ ok_hd h' s' /\ Forall (valid h') outs.
Proof.
  intros O. destruct e as [n turn returns|f|]; cbn [hd_arr].
  - set (nodes := Nat.iter _ turn _). destruct returns; [|split; [apply grows_refl|split; [exact O|constructor]]].
    pose proof (fresh_grows h (map fst nodes)) as (G1 & V1 & _). destruct (fresh h (map fst nodes)) as [h1 x]. pose proof (fresh_grows h1 (map snd nodes)) as (G2 & V2 & _). destruct (fresh h1 _) as [h2 w]. cbn [fst snd] in *.
    assert (valid h2 x) by (eapply grows_valid; eauto). split; [eapply grows_trans; eauto|]. split; [now apply mk_ok|]. repeat constructor; auto.
  - match goal with |- context [fresh h ?b] => pose proof (fresh_grows h b) as (G2 & V3 & _); destruct (fresh h b) as [h2 w] end. cbn [fst snd] in *. split; auto. split; [eapply ok_grows; eauto|]. repeat constructor; auto.
  - pose proof (fresh_arrays_grows h) as (G & A & B). destruct (fresh_arrays h) as [h1 s1]. cbn [fst snd] in *. repeat split; auto.
Qed.
