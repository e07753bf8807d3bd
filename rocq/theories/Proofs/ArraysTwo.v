(** Two runs, one with assignments by the caller and one without; and objects that assign rows. *)
From Coq Require Import List Bool Arith Lia ZArith QArith.
Import ListNotations.
From Verif Require Import Prelude.Py Prelude.QBase Model.Population Model.Arrays Spec.ArraysSpec Prelude.QFacts Proofs.ArraysKeep.

Lemma put_length h r i v : length (put_row h r i v) = length h.
Proof. unfold put_row. destruct (nth_error h (a_buf r)); auto. destruct (a_row r); [destruct (i =? 0)%nat; auto|]; apply upd_length. Qed.
Lemma put_other h r i v b : b <> a_buf r -> nth_error (put_row h r i v) b = nth_error h b.
Proof. intros N. unfold put_row. destruct (nth_error h (a_buf r)); auto. destruct (a_row r); [destruct (i =? 0)%nat; auto|]; apply upd_nth_error_neq; auto. Qed.
Definition lens (h : heap) (b : nat) : option nat := option_map (@length vec) (nth_error h b).
Lemma put_lens h r i v b : lens (put_row h r i v) b = lens h b.
Proof.
  unfold lens. destruct (Nat.eq_dec b (a_buf r)) as [->|N]; [|now rewrite put_other]. unfold put_row. destruct (nth_error h (a_buf r)) as [bf|] eqn:E; [|now rewrite E].
  assert (L : (a_buf r < length h)%nat) by (apply nth_error_Some; now rewrite E).
  destruct (a_row r); [destruct (i =? 0)%nat; [|now rewrite E]|]; (rewrite upd_nth_error_eq by exact L; simpl; now rewrite upd_length).
Qed.
Lemma read_len h r : length (read h r) = match lens h (a_buf r) with None => O | Some n => match a_row r with None => n | Some k => if (k <? n)%nat then 1%nat else O end end.
Proof.
  unfold read, lens. destruct (nth_error h (a_buf r)) as [b|]; simpl; auto. destruct (a_row r) as [k|]; auto. destruct (nth_error b k) eqn:E.
  - assert (k < length b)%nat by (apply nth_error_Some; now rewrite E). now replace (k <? length b)%nat with true by (symmetry; apply Nat.ltb_lt; lia).
  - apply nth_error_None in E. now replace (k <? length b)%nat with false by (symmetry; apply Nat.ltb_ge; lia).
Qed.
Lemma put_read_len h r i v r' : length (read (put_row h r i v) r') = length (read h r').
Proof. now rewrite !read_len, put_lens. Qed.
Lemma put_read_other h r i v r' : a_buf r' <> a_buf r -> read (put_row h r i v) r' = read h r'.
Proof. intros N. unfold read. now rewrite put_other. Qed.

(** * Agreement of two memories *)
Definition agree (P : nat -> Prop) (h h' : heap) : Prop :=
  length h = length h' /\ (forall b, lens h b = lens h' b) /\ (forall b, P b -> (b < length h)%nat /\ nth_error h b = nth_error h' b).
Lemma agree_weaken (P Q : nat -> Prop) h h' : (forall b, Q b -> P b) -> agree P h h' -> agree Q h h'.
Proof. intros I (A & B & C). split; auto. Qed.
Lemma agree_read P h h' r : agree P h h' -> P (a_buf r) -> read h r = read h' r.
Proof. intros (_ & _ & C) Hp. unfold read. now rewrite (proj2 (C _ Hp)). Qed.
Lemma agree_len P h h' r : agree P h h' -> length (read h r) = length (read h' r).
Proof. intros (_ & B & _). now rewrite !read_len, B. Qed.
Lemma fresh_shape P h h' b b' : agree P h h' -> length b = length b' -> agree P (fst (fresh h b)) (fst (fresh h' b')) /\ snd (fresh h b) = snd (fresh h' b').
Proof.
  intros (A & B & C) L. unfold fresh; simpl. split; [|now rewrite A]. split; [rewrite !app_length; simpl; lia|]. split.
  - intros k. unfold lens. destruct (lt_dec k (length h)); [rewrite !nth_error_app1 by lia; apply B|]. rewrite !nth_error_app2 by lia. rewrite A. destruct (k - length h')%nat as [|j]; simpl; [congruence|]. destruct j; reflexivity.
  - intros k Hk. destruct (C k Hk) as (V & N). rewrite app_length. split; [simpl; lia|]. rewrite !nth_error_app1 by lia. exact N.
Qed.
Lemma fresh_same P h h' b : agree P h h' -> agree (fun k => P k \/ k = length h) (fst (fresh h b)) (fst (fresh h' b)) /\ snd (fresh h b) = snd (fresh h' b).
Proof.
  intros H. destruct (fresh_shape P h h' b b H eq_refl) as ((A & B & C) & E). split; [|exact E]. split; auto. split; auto. intros k [Hk| ->]; [auto|]. unfold fresh; simpl. rewrite app_length; simpl. split; [lia|].
  destruct H as (L & _). rewrite nth_error_app2, Nat.sub_diag by lia. rewrite nth_error_app2 by lia. now rewrite L, Nat.sub_diag.
Qed.
Lemma join_shape P h h' o n : agree P h h' -> agree P (fst (join h o n)) (fst (join h' o n)) /\ snd (join h o n) = snd (join h' o n).
Proof.
  intros H. unfold join. pose proof (agree_len _ _ _ o H) as L. pose proof (agree_len _ _ _ n H) as L2. destruct (read h o) as [|x l], (read h' o) as [|x' l']; try discriminate L; simpl; [auto|].
  apply (fresh_shape P h h' ((x :: l) ++ read h n) ((x' :: l') ++ read h' n) H). simpl. rewrite !app_length. simpl in L. lia.
Qed.
Lemma join_where h o n : a_buf (snd (join h o n)) = a_buf n /\ fst (join h o n) = h \/ a_buf (snd (join h o n)) = length h /\ length (fst (join h o n)) = S (length h).
Proof. unfold join. destruct (read h o); simpl; [now left|]. right. rewrite app_length; simpl. split; [reflexivity|lia]. Qed.
Lemma join_same P h h' o n : agree P h h' -> P (a_buf o) -> P (a_buf n) -> agree (fun k => P k \/ k = a_buf (snd (join h o n))) (fst (join h o n)) (fst (join h' o n)) /\ snd (join h o n) = snd (join h' o n).
Proof.
  intros H O N. unfold join. rewrite <- (agree_read P h h' o H O). destruct (read h o) as [|x l]; cbn [fst snd].
  - split; auto. eapply agree_weaken; [|exact H]. intros k [Hk| ->]; auto.
  - rewrite <- (agree_read P h h' n H N). apply (fresh_same P h h' ((x :: l) ++ read h n) H).
Qed.
Lemma put_agree P h h' r i v : agree P h h' -> ~ P (a_buf r) -> agree P (put_row h r i v) h'.
Proof.
  intros (A & B & C) N. split; [now rewrite put_length|]. split; [intros b; now rewrite put_lens|]. intros b Hb. rewrite put_length, put_other by (intros ->; auto). auto.
Qed.
Lemma put_both P h h' r i v : agree P h h' -> P (a_buf r) -> agree P (put_row h r i v) (put_row h' r i v).
Proof.
  intros (A & B & C) N. split; [now rewrite !put_length|]. split; [intros b; now rewrite !put_lens|]. intros b Hb. rewrite !put_length. split; [now apply C|].
  destruct (Nat.eq_dec b (a_buf r)) as [->|Nb]; [|rewrite !put_other by auto; now apply C]. destruct (C _ N) as (V & E). unfold put_row. rewrite <- E. destruct (nth_error h (a_buf r)) as [bf|] eqn:E1; [|congruence].
  destruct (a_row r); [destruct (i =? 0)%nat; [|congruence]|]; rewrite !upd_nth_error_eq by lia; reflexivity.
Qed.

(** * Two runs of an object with private arrays *)
Section Two.
Context {E S : Type}.
Variables (step : E -> heap -> S -> heap * S * list aref) (ok : heap -> S -> Prop) (priv : S -> nat -> Prop).
Hypothesis Hstep : forall e h h' s, ok h s -> ok h' s -> agree (priv s) h h' ->
  let '(h1, s1, o1) := step e h s in let '(h2, s2, o2) := step e h' s in
  s1 = s2 /\ o1 = o2 /\ agree (priv s1) h1 h2 /\ ok h1 s1 /\ ok h2 s2 /\ (length h <= length h1)%nat /\
  (forall b, priv s1 b -> priv s b \/ (length h <= b)%nat) /\ (forall r, In r o1 -> valid h1 r /\ ~ priv s1 (a_buf r)).
Hypothesis Hput : forall h s r i v, ok h s -> ok (put_row h r i v) s.
Definition two (x y : @hist S) : Prop :=
  h_self x = h_self y /\ h_outs x = h_outs y /\ agree (priv (h_self x)) (h_heap x) (h_heap y) /\ ok (h_heap x) (h_self x) /\ ok (h_heap y) (h_self y) /\
  (forall r, In r (h_outs x) -> valid (h_heap x) r /\ ~ priv (h_self x) (a_buf r)).
Lemma two_do e x y : two x y -> two (run_op step x (Do e)) (run_op step y (Do e)).
Proof.
  intros (A & B & C & D & F & G). unfold run_op. rewrite <- A in *. pose proof (Hstep e _ _ _ D F C) as H. destruct (step e (h_heap x) (h_self x)) as [[h1 s1] o1]. destruct (step e (h_heap y) (h_self x)) as [[h2 s2] o2].
  destruct H as (-> & -> & H1 & H2 & H3 & H4 & H5 & H6). unfold two, h_heap, h_self, h_outs in *; simpl. rewrite B in *. split; auto. split; auto. split; auto. split; auto. split; auto. intros r R. apply in_app_iff in R. destruct R as [R|R]; [|auto].
  destruct (G r R) as (V & N). split; [unfold valid in *; lia|]. intros Hp. destruct (H5 _ Hp) as [Q|Q]; [tauto|]. unfold valid in V. lia.
Qed.
Lemma two_caller k i v x y : two x y -> two (run_op step x (Caller k i v)) y.
Proof.
  intros (A & B & C & D & F & G). unfold run_op, two, h_heap, h_self, h_outs in *; simpl. destruct (nth_error (snd x) k) as [r|] eqn:N; [|auto 10]. apply nth_error_In in N. destruct (G r N) as (V & P).
  split; auto. split; auto. split; [now apply put_agree|]. split; [now apply Hput|]. split; auto. intros r' R'. split; [apply put_valid; now apply G|now apply G].
Qed.
Lemma two_run ops : forall x y, two x y -> two (run step ops x) (run step (erase ops) y).
Proof.
  unfold run. induction ops as [|o ops IH]; intros x y H; auto. destruct o as [e|k i v]; cbn [erase filter fold_left]; apply IH; [now apply two_do|now apply two_caller].
Qed.
Lemma two_made c ops : ok (fst c) (snd c) -> (forall b, priv (snd c) b -> (b < length (fst c))%nat) -> two (run step ops (made c)) (run step (erase ops) (made c)).
Proof.
  intros O P. apply two_run. unfold two, made, h_heap, h_self, h_outs; simpl. repeat split; auto; contradiction.
Qed.
End Two.

(** * Tree pyramids *)
Section Tree.
Variable dims : nat.
Definition ok_tr (h : heap) (s : tree_arrays) : Prop := valid h (tr_samples s) /\ valid h (tr_weights s).
Definition priv_tr (s : tree_arrays) (b : nat) : Prop := b = a_buf (tr_samples s) \/ b = a_buf (tr_weights s).
Lemma act_two a h h' s : ok_tr h s -> agree (priv_tr s) h h' -> let (h1, s1) := tree_act_arr dims (h, s) a in let (h2, s2) := tree_act_arr dims (h', s) a in
  s1 = s2 /\ agree (priv_tr s1) h1 h2 /\ ok_tr h1 s1 /\ (length h <= length h1)%nat /\ (forall b, priv_tr s1 b -> priv_tr s b \/ (length h <= b)%nat) /\
  (forall b, (b < length h)%nat -> ~ priv_tr s b -> nth_error h1 b = nth_error h b).
Proof.
  intros (Vx & Vw) H. assert (Rx := agree_read _ _ _ (tr_samples s) H (or_introl eq_refl)). assert (Rw := agree_read _ _ _ (tr_weights s) H (or_intror eq_refl)).
  destruct a as [k|i f|i f]; cbn [tree_act_arr].
  - rewrite <- Rx. set (bx := read h (tr_samples s) ++ _). pose proof (fresh_same _ h h' bx H) as (H1 & E1).
    assert (W1 : read (fst (fresh h bx)) (tr_weights s) = read h (tr_weights s)) by (apply grows_read; [apply fresh_grows|exact Vw]).
    assert (W2 : read (fst (fresh h' bx)) (tr_weights s) = read h (tr_weights s)). { rewrite Rw. apply grows_read; [apply fresh_grows|]. unfold valid in *. destruct H as (L & _). lia. }
    assert (B1 : snd (fresh h bx) = mkA (length h) None) by reflexivity. assert (L1 : length (fst (fresh h bx)) = S (length h)) by (unfold fresh; simpl; rewrite app_length; simpl; lia).
    assert (K1 : forall b, (b < length h)%nat -> nth_error (fst (fresh h bx)) b = nth_error h b) by (intros b Hb; unfold fresh; simpl; now rewrite nth_error_app1).
    destruct (fresh h bx) as [h1 x]. destruct (fresh h' bx) as [h1' x']. cbn [fst snd] in *. subst x x'. rewrite W1, W2.
    set (bw := read h (tr_weights s) ++ _). pose proof (fresh_same _ h1 h1' bw H1) as (H2 & E2). assert (B2 : snd (fresh h1 bw) = mkA (length h1) None) by reflexivity. assert (L2 : length (fst (fresh h1 bw)) = S (length h1)) by (unfold fresh; simpl; rewrite app_length; simpl; lia).
    assert (K2 : forall b, (b < length h1)%nat -> nth_error (fst (fresh h1 bw)) b = nth_error h1 b) by (intros b Hb; unfold fresh; simpl; now rewrite nth_error_app1).
    destruct (fresh h1 bw) as [h2 w]. destruct (fresh h1' bw) as [h2' w']. cbn [fst snd] in *. subst w w'. split; auto. split; [|split; [|split; [lia|split]]].
    + eapply agree_weaken; [|exact H2]. unfold priv_tr; simpl. intros b [-> | ->]; auto.
    + unfold ok_tr, valid; simpl. lia.
    + unfold priv_tr; simpl. intros b [-> | ->]; right; lia.
    + intros b Hb _. rewrite K2, K1 by lia. reflexivity.
  - rewrite <- Rx, <- Rw. split; auto. split; [apply put_both; [exact H|now left]|]. split; [split; now apply put_valid|]. rewrite put_length. split; [lia|]. split; [tauto|]. intros b _ N. apply put_other. intros ->. apply N. now left.
  - rewrite <- Rx, <- Rw. split; auto. split; [apply put_both; [exact H|now right]|]. split; [split; now apply put_valid|]. rewrite put_length. split; [lia|]. split; [tauto|]. intros b _ N. apply put_other. intros ->. apply N. now right.
Qed.
Lemma acts_two acts : forall h h' s, ok_tr h s -> agree (priv_tr s) h h' -> let (h1, s1) := fold_left (tree_act_arr dims) acts (h, s) in let (h2, s2) := fold_left (tree_act_arr dims) acts (h', s) in
  s1 = s2 /\ agree (priv_tr s1) h1 h2 /\ ok_tr h1 s1 /\ (length h <= length h1)%nat /\ (forall b, priv_tr s1 b -> priv_tr s b \/ (length h <= b)%nat) /\
  (forall b, (b < length h)%nat -> ~ priv_tr s b -> nth_error h1 b = nth_error h b).
Proof.
  induction acts as [|a acts IH]; intros h h' s O H; cbn [fold_left]; [split; [reflexivity|]; split; [exact H|]; split; [exact O|]; split; [lia|]; auto|].
  pose proof (act_two a h h' s O H) as T. destruct (tree_act_arr dims (h, s) a) as [h1 s1]. destruct (tree_act_arr dims (h', s) a) as [h1' s1']. destruct T as (-> & H1 & O1 & L1 & P1 & K1).
  specialize (IH h1 h1' s1' O1 H1). destruct (fold_left _ acts (h1, s1')) as [h2 s2]. destruct (fold_left _ acts (h1', s1')) as [h2' s2']. destruct IH as (-> & H2 & O2 & L2 & P2 & K2).
  split; auto. split; auto. split; auto. split; [lia|]. split.
  - intros b Hb. destruct (P2 b Hb) as [Q|Q]; [auto|right; lia].
  - intros b Hb N. rewrite K2; [auto|lia|]. intros Hp. destruct (P1 b Hp); [tauto|lia].
Qed.
Lemma fresh_len h b : length (fst (fresh h b)) = S (length h).
Proof. unfold fresh; simpl. rewrite app_length; simpl; lia. Qed.
Lemma tree_two e h h' s : ok_tr h s -> agree (priv_tr s) h h' ->
  let '(h1, s1, o1) := tree_arr dims e h s in let '(h2, s2, o2) := tree_arr dims e h' s in
  s1 = s2 /\ o1 = o2 /\ agree (priv_tr s1) h1 h2 /\ ok_tr h1 s1 /\ (length h <= length h1)%nat /\
  (forall b, priv_tr s1 b -> priv_tr s b \/ (length h <= b)%nat) /\ (forall r, In r o1 -> valid h1 r /\ ~ priv_tr s1 (a_buf r)) /\
  (forall b, (b < length h)%nat -> ~ priv_tr s b -> nth_error h1 b = nth_error h b) /\ map (read h1) o1 = map (read h2) o2.
Proof.
  intros O H. destruct e as [acts leaves returns|f|]; cbn [tree_arr].
  - pose proof (acts_two acts h h' s O H) as T. destruct (fold_left _ acts (h, s)) as [h1 s1]. destruct (fold_left _ acts (h', s)) as [h1' s1']. destruct T as (-> & H1 & O1 & L1 & P1 & K1).
    assert (Rx := agree_read _ _ _ (tr_samples s1') H1 (or_introl eq_refl)). assert (Rw := agree_read _ _ _ (tr_weights s1') H1 (or_intror eq_refl)).
    rewrite <- Rx. set (bx := select _ _). pose proof (fresh_same _ h1 h1' bx H1) as (H2 & E2). pose proof (fresh_len h1 bx) as L2. pose proof (fresh_grows h1 bx) as (G2 & V2 & R2).
    assert (B2 : snd (fresh h1 bx) = mkA (length h1) None) by reflexivity. assert (K2 : forall b, (b < length h1)%nat -> nth_error (fst (fresh h1 bx)) b = nth_error h1 b) by (intros b Hb; unfold fresh; simpl; now rewrite nth_error_app1).
    assert (W1 : read (fst (fresh h1 bx)) (tr_weights s1') = read h1 (tr_weights s1')) by (apply grows_read; [apply fresh_grows|apply O1]).
    assert (W2 : read (fst (fresh h1' bx)) (tr_weights s1') = read h1 (tr_weights s1')). { rewrite Rw. apply grows_read; [apply fresh_grows|]. destruct O1 as (_ & O1). unfold valid in *. destruct H1 as (L & _). lia. }
    destruct (fresh h1 bx) as [h2 x]. destruct (fresh h1' bx) as [h2' x']. cbn [fst snd] in *. subst x x'. rewrite W1, W2.
    set (bw := select _ _). pose proof (fresh_same _ h2 h2' bw H2) as (H3 & E3). pose proof (fresh_len h2 bw) as L3. pose proof (fresh_grows h2 bw) as (G3 & V3 & R3).
    assert (B3 : snd (fresh h2 bw) = mkA (length h2) None) by reflexivity. assert (K3 : forall b, (b < length h2)%nat -> nth_error (fst (fresh h2 bw)) b = nth_error h2 b) by (intros b Hb; unfold fresh; simpl; now rewrite nth_error_app1).
    destruct (fresh h2 bw) as [h3 w]. destruct (fresh h2' bw) as [h3' w']. cbn [fst snd] in *. subst w w'.
    assert (Px : forall b, priv_tr s1' b -> (b < length h1)%nat) by (intros b Hb; now apply H1).
    split; auto. split; auto. split; [eapply agree_weaken; [|exact H3]; intros b Hb; left; left; exact Hb|]. split; [destruct O1; split; (eapply grows_valid; [exact G3|eapply grows_valid; eauto])|]. split; [lia|]. split; [exact P1|]. split; [|split].
    + intros r R. destruct returns; [|contradiction]. destruct R as [<-|[<-|[]]]; (split; [unfold valid; simpl; lia|]); simpl; intros Q; apply Px in Q; lia.
    + intros b Hb N. rewrite K3, K2 by lia. auto.
    + destruct returns; [|reflexivity]. cbn [map]. f_equal; [|f_equal]; (apply (agree_read _ _ _ _ H3); simpl; auto).
  - assert (Rx := agree_read _ _ _ (tr_samples s) H (or_introl eq_refl)). assert (Rw := agree_read _ _ _ (tr_weights s) H (or_intror eq_refl)). rewrite <- Rx, <- Rw. set (bx := f _ _).
    pose proof (fresh_same _ h h' bx H) as (H2 & E2). pose proof (fresh_len h bx) as L2. pose proof (fresh_grows h bx) as (G2 & V2 & R2).
    assert (B2 : snd (fresh h bx) = mkA (length h) None) by reflexivity. assert (K2 : forall b, (b < length h)%nat -> nth_error (fst (fresh h bx)) b = nth_error h b) by (intros b Hb; unfold fresh; simpl; now rewrite nth_error_app1).
    destruct (fresh h bx) as [h2 x]. destruct (fresh h' bx) as [h2' x']. cbn [fst snd] in *. subst x x'. split; auto. split; auto. split; [eapply agree_weaken; [|exact H2]; intros b Hb; left; exact Hb|]. split; [destruct O; split; eapply grows_valid; eauto|]. split; [lia|]. split; [auto|].
    split; [|split; [auto|]]. { intros r [<-|[]]. split; auto. simpl. intros Q. apply H in Q. lia. } cbn [map]. f_equal. apply (agree_read _ _ _ _ H2); simpl; auto.
  - set (bx := [repeat 0%Q dims]). pose proof (fresh_same _ h h' bx H) as (H2 & E2). pose proof (fresh_len h bx) as L2. assert (B2 : snd (fresh h bx) = mkA (length h) None) by reflexivity.
    assert (K2 : forall b, (b < length h)%nat -> nth_error (fst (fresh h bx)) b = nth_error h b) by (intros b Hb; unfold fresh; simpl; now rewrite nth_error_app1).
    destruct (fresh h bx) as [h2 x]. destruct (fresh h' bx) as [h2' x']. cbn [fst snd] in *. subst x x'.
    set (bw := [[0%Q]]). pose proof (fresh_same _ h2 h2' bw H2) as (H3 & E3). pose proof (fresh_len h2 bw) as L3. assert (B3 : snd (fresh h2 bw) = mkA (length h2) None) by reflexivity.
    assert (K3 : forall b, (b < length h2)%nat -> nth_error (fst (fresh h2 bw)) b = nth_error h2 b) by (intros b Hb; unfold fresh; simpl; now rewrite nth_error_app1).
    destruct (fresh h2 bw) as [h3 w]. destruct (fresh h2' bw) as [h3' w']. cbn [fst snd] in *. subst w w'. split; auto. split; auto. split; [|split; [|split; [lia|split; [|split; [|split]]]]].
    + eapply agree_weaken; [|exact H3]. unfold priv_tr; simpl. intros b [-> | ->]; auto.
    + unfold ok_tr, valid; simpl. lia.
    + unfold priv_tr; simpl. intros b [-> | ->]; right; lia.
    + intros r [].
    + intros b Hb N. rewrite K3, K2 by lia. reflexivity.
    + reflexivity.
Qed.
Lemma agree_refl (P : nat -> Prop) h : (forall b, P b -> (b < length h)%nat) -> agree P h h.
Proof. intros V. split; [reflexivity|]. split; [reflexivity|]. intros b Hb. split; [now apply V|reflexivity]. Qed.
Definition hok_tr (x : hist) : Prop := ok_tr (h_heap x) (h_self x) /\ (forall r, In r (h_outs x) -> valid (h_heap x) r /\ ~ priv_tr (h_self x) (a_buf r)).
Lemma tr_self h s : ok_tr h s -> agree (priv_tr s) h h.
Proof. intros (A & B). apply agree_refl. intros b [-> | ->]; auto. Qed.
Lemma tree_run_op x o : hok_tr x -> hok_tr (run_op (tree_arr dims) x o) /\ match o with Do _ => forall r, valid (h_heap x) r -> ~ priv_tr (h_self x) (a_buf r) ->
  read (h_heap (run_op (tree_arr dims) x o)) r = read (h_heap x) r /\ valid (h_heap (run_op (tree_arr dims) x o)) r /\ ~ priv_tr (h_self (run_op (tree_arr dims) x o)) (a_buf r) | _ => True end.
Proof.
  intros (O & V). destruct o as [e|k i v]; unfold run_op.
  - pose proof (tree_two e _ _ _ O (tr_self _ _ O)) as H. destruct (tree_arr dims e (h_heap x) (h_self x)) as [[h1 s1] o1]. destruct H as (_ & _ & _ & O1 & L1 & P1 & V1 & K1 & _).
    assert (Q : forall r, valid (h_heap x) r -> ~ priv_tr (h_self x) (a_buf r) -> valid h1 r /\ ~ priv_tr s1 (a_buf r)).
    { intros r Vr Nr. split; [unfold valid in *; lia|]. intros Hp. destruct (P1 _ Hp); [tauto|unfold valid in Vr; lia]. }
    unfold hok_tr, h_heap, h_self, h_outs in *; simpl. split; [split; auto|].
    + intros r R. apply in_app_iff in R. destruct R as [R|R]; [|auto]. destruct (V r R). auto.
    + intros r Vr Nr. split; [|now apply Q]. unfold read. now rewrite (K1 _ Vr Nr).
  - split; [|exact I]. unfold hok_tr, h_heap, h_self, h_outs in *; simpl. destruct (nth_error (snd x) k) as [r|] eqn:N; [|auto]. destruct O as (A & B). split; [split; now apply put_valid|]. intros r' R'. split; [apply put_valid; now apply V|now apply V].
Qed.
Lemma tree_run ops : forall x, hok_tr x -> hok_tr (run (tree_arr dims) ops x).
Proof. unfold run. induction ops as [|o ops IH]; intros x H; simpl; auto. apply IH. now apply tree_run_op. Qed.
Lemma tree_later es r : forall x, hok_tr x -> valid (h_heap x) r -> ~ priv_tr (h_self x) (a_buf r) -> read (h_heap (run (tree_arr dims) (map Do es) x)) r = read (h_heap x) r.
Proof.
  unfold run. induction es as [|e es IH]; intros x H V N; auto. cbn [map fold_left]. destruct (tree_run_op x (Do e) H) as (H1 & K). destruct (K r V N) as (R & V1 & N1). rewrite IH; auto.
Qed.
Lemma tree_keeps : keeps (tree_arr dims) (tree_made dims).
Proof.
  intros ops es r x y R. assert (H : hok_tr x). { apply tree_run. split; [|intros ? []]. unfold tree_made, made, ok_tr, valid, h_heap, h_self; simpl. lia. } apply tree_later; auto; now apply H.
Qed.
Lemma tree_unaffected : unaffected (tree_arr dims) (tree_made dims).
Proof.
  intros ops e. assert (T : two ok_tr priv_tr (run (tree_arr dims) ops (made (tree_made dims))) (run (tree_arr dims) (erase ops) (made (tree_made dims)))).
  { apply two_made.
    - clear. intros e h h' s O O' H. pose proof (tree_two e h h' s O H) as T. pose proof (tree_two e h' h' s O' (tr_self _ _ O')) as T'. destruct (tree_arr dims e h s) as [[h1 s1] o1]. destruct (tree_arr dims e h' s) as [[h2 s2] o2].
      destruct T as (-> & -> & H1 & O1 & L1 & P1 & V1 & _). destruct T' as (_ & _ & _ & O2 & _). split; [reflexivity|]. split; [reflexivity|]. split; [exact H1|]. split; [exact O1|]. split; [exact O2|]. auto.
    - intros h s r i v (A & B). split; now apply put_valid.
    - unfold tree_made, ok_tr, valid; simpl. lia.
    - unfold tree_made, priv_tr; simpl. intros b [-> | ->]; lia. }
  destruct T as (A & B & C & D & F & _). unfold answer. rewrite <- A in *. pose proof (tree_two e _ _ _ D C) as T. destruct (tree_arr dims e (h_heap (run _ ops _)) _) as [[h1 s1] o1]. destruct (tree_arr dims e (h_heap (run _ (erase ops) _)) _) as [[h2 s2] o2]. tauto.
Qed.
End Tree.

(** * HiDaisee *)
Definition none (_ : hd_arrays) (_ : nat) : Prop := False.
Lemma fresh_read h b : read (fst (fresh h b)) (snd (fresh h b)) = b.
Proof. apply fresh_grows. Qed.
Lemma hd_two e h h' s : agree (none s) h h' -> let '(h1, s1, o1) := hd_arr e h s in let '(h2, s2, o2) := hd_arr e h' s in
  s1 = s2 /\ o1 = o2 /\ agree (none s1) h1 h2 /\ map (read h1) o1 = map (read h2) o2.
Proof.
  intros H. destruct e as [n turn returns|f|]; cbn [hd_arr].
  - rewrite (agree_len _ _ _ _ H). set (nodes := Nat.iter _ turn _). destruct returns; [|auto]. pose proof (fresh_same _ h h' (map fst nodes) H) as (H1 & E1).
    assert (X : a_buf (snd (fresh h (map fst nodes))) = length h) by reflexivity. destruct (fresh h (map fst nodes)) as [h1 x]. destruct (fresh h' (map fst nodes)) as [h1' x'].
    cbn [fst snd] in *. subst x'. pose proof (fresh_same _ h1 h1' (map snd nodes) H1) as (H2 & E2). assert (Y : a_buf (snd (fresh h1 (map snd nodes))) = length h1) by reflexivity.
    destruct (fresh h1 (map snd nodes)) as [h2 w]. destruct (fresh h1' (map snd nodes)) as [h2' w']. cbn [fst snd] in *. subst w'. split; auto. split; auto. split; [eapply agree_weaken; [|exact H2]; intros b []|].
    cbn [map]. rewrite (agree_read _ _ _ x H2), (agree_read _ _ _ w H2); auto.
  - pose proof (fresh_same _ h h' (f (hd_nodes s)) H) as (H1 & E1). assert (X : a_buf (snd (fresh h (f (hd_nodes s)))) = length h) by reflexivity. destruct (fresh h (f (hd_nodes s))) as [h1 x]. destruct (fresh h' (f (hd_nodes s))) as [h1' x'].
    cbn [fst snd] in *. subst x'. split; auto. split; auto. split; [eapply agree_weaken; [|exact H1]; intros b []|]. cbn [map]. rewrite (agree_read _ _ _ x H1); auto.
  - unfold fresh_arrays. pose proof (fresh_shape _ h h' [] [] H eq_refl) as (H1 & E1). destruct (fresh h []) as [h1 x]. destruct (fresh h' []) as [h1' x']. cbn [fst snd] in *. subst x'.
    pose proof (fresh_shape _ h1 h1' [] [] H1 eq_refl) as (H2 & E2). destruct (fresh h1 []) as [h2 w]. destruct (fresh h1' []) as [h2' w']. cbn [fst snd] in *. subst w'. auto.
Qed.
Lemma hd_unaffected : unaffected hd_arr hd_made.
Proof.
  intros ops e. assert (T : two ok_hd none (run hd_arr ops (made hd_made)) (run hd_arr (erase ops) (made hd_made))).
  { apply two_made.
    - clear. intros e h h' s O O' H. pose proof (hd_two e h h' s H) as T. pose proof (hd_ok e h s O) as K. pose proof (hd_ok e h' s O') as K'. destruct (hd_arr e h s) as [[h1 s1] o1]. destruct (hd_arr e h' s) as [[h2 s2] o2].
      destruct T as (-> & -> & H1 & _). destruct K as (G & O1 & V1), K' as (_ & O2 & _). rewrite Forall_forall in V1. split; auto. split; auto. split; auto. split; auto. split; auto. split; [destruct G as (t & ->); rewrite app_length; lia|]. split; [intros b []|]. intros r R. split; [auto|intros []].
    - intros h s r i v O. now apply put_ok.
    - unfold hd_made, ok_hd, ok_arr, valid; simpl. lia.
    - intros b []. }
  destruct T as (A & B & C & D & F & _). unfold answer. rewrite <- A in *. pose proof (hd_two e _ _ _ C) as T. destruct (hd_arr e (h_heap (run _ ops _)) _) as [[h1 s1] o1]. destruct (hd_arr e (h_heap (run _ (erase ops) _)) _) as [[h2 s2] o2]. tauto.
Qed.
