(** Rows added by later calls do not depend on what the caller assigned; nested sampling. *)
From Coq Require Import List Bool Arith Lia ZArith QArith.
Import ListNotations.
From Verif Require Import Prelude.Py Prelude.QBase Model.Population Model.Arrays Spec.ArraysSpec Prelude.QFacts Proofs.ArraysKeep Proofs.ArraysTwo.

Lemma skipn_app_all {A} (l r : list A) n : n = length l -> skipn n (l ++ r) = r.
Proof. intros ->. rewrite skipn_app, skipn_all, Nat.sub_diag. reflexivity. Qed.

(** * Rejection sampling *)
Definition nobody (_ : arrays) (_ : nat) : Prop := False.
Lemma rej_round_two r h h' s : agree (nobody s) h h' -> let (h1, s1) := rej_round_arr (h, s) r in let (h2, s2) := rej_round_arr (h', s) r in s1 = s2 /\ agree (nobody s1) h1 h2.
Proof.
  intros H. unfold rej_round_arr. pose proof (fresh_shape _ h h' (fst r) _ H eq_refl) as (H1 & E1). destruct (fresh h (fst r)) as [h1 x]. destruct (fresh h' (fst r)) as [h1' x']. cbn [fst snd] in *. subst x'.
  pose proof (join_shape _ h1 h1' (f_samples s) x H1) as (H2 & E2). destruct (join h1 (f_samples s) x) as [h2 y]. destruct (join h1' (f_samples s) x) as [h2' y']. cbn [fst snd] in *. subst y'.
  pose proof (fresh_shape _ h2 h2' (snd r) _ H2 eq_refl) as (H3 & E3). destruct (fresh h2 (snd r)) as [h3 z]. destruct (fresh h2' (snd r)) as [h3' z']. cbn [fst snd] in *. subst z'.
  pose proof (join_shape _ h3 h3' (f_weights s) z H3) as (H4 & E4). destruct (join h3 (f_weights s) z) as [h4 w]. destruct (join h3' (f_weights s) z) as [h4' w']. cbn [fst snd] in *. subst w'. auto.
Qed.
Lemma rej_rounds_two rounds : forall h h' s, agree (nobody s) h h' -> let (h1, s1) := fold_left rej_round_arr rounds (h, s) in let (h2, s2) := fold_left rej_round_arr rounds (h', s) in s1 = s2 /\ agree (nobody s1) h1 h2.
Proof.
  induction rounds as [|r rounds IH]; intros h h' s H; cbn [fold_left]; [auto|]. pose proof (rej_round_two r h h' s H) as T. destruct (rej_round_arr (h, s) r) as [h1 s1]. destruct (rej_round_arr (h', s) r) as [h1' s1']. destruct T as (-> & T). now apply IH.
Qed.
Lemma map_const_len {A B C} (c : nat -> C) (l : list A) (l' : list B) : length l = length l' -> map (fun _ => c (length l)) l = map (fun _ => c (length l')) l'.
Proof. intros E. rewrite E. clear -E. generalize (c (length l')). intros k. revert l' E. induction l as [|a l IH]; intros [|b l'] E; try discriminate; simpl; auto. f_equal. apply IH. now injection E. Qed.
Lemma rej_two e h h' s : agree (nobody s) h h' -> let '(h1, s1, o1) := rej_arr e h s in let '(h2, s2, o2) := rej_arr e h' s in s1 = s2 /\ o1 = o2 /\ agree (nobody s1) h1 h2.
Proof.
  intros H. destruct e as [rounds returns|xs|]; cbn [rej_arr].
  - pose proof (rej_rounds_two rounds h h' s H) as T. destruct (fold_left _ rounds (h, s)) as [h1 s1]. destruct (fold_left _ rounds (h', s)) as [h1' s1']. destruct T as (-> & T).
    rewrite (map_const_len (fun n => [1 / Qnat n]) (read h1 (f_weights s1')) (read h1' (f_weights s1')) (agree_len _ _ _ _ T)).
    match goal with |- context [fresh h1 ?b] => pose proof (fresh_shape _ h1 h1' b b T eq_refl) as (H1 & E1); destruct (fresh h1 b) as [h2 w]; destruct (fresh h1' b) as [h2' w'] end. cbn [fst snd] in *. subst w'. auto.
  - pose proof (fresh_shape _ h h' xs xs H eq_refl) as (H1 & E1). destruct (fresh h xs) as [h1 x]. destruct (fresh h' xs) as [h1' x']. cbn [fst snd] in *. subst x'. auto.
  - unfold fresh_arrays. pose proof (fresh_shape _ h h' [] [] H eq_refl) as (H1 & E1). destruct (fresh h []) as [h1 x]. destruct (fresh h' []) as [h1' x']. cbn [fst snd] in *. subst x'.
    pose proof (fresh_shape _ h1 h1' [] [] H1 eq_refl) as (H2 & E2). destruct (fresh h1 []) as [h2 w]. destruct (fresh h1' []) as [h2' w']. cbn [fst snd] in *. subst w'. auto.
Qed.
Lemma rej_pair ops : two ok_arr nobody (run rej_arr ops (made rej_made)) (run rej_arr (erase ops) (made rej_made)).
Proof.
  apply two_made.
  - clear. intros e h h' s O O' H. pose proof (rej_two e h h' s H) as T. pose proof (rej_ok e h s O) as K. pose proof (rej_ok e h' s O') as K'. destruct (rej_arr e h s) as [[h1 s1] o1]. destruct (rej_arr e h' s) as [[h2 s2] o2].
    destruct T as (-> & -> & H1). destruct K as (G & O1 & V1), K' as (_ & O2 & _). rewrite Forall_forall in V1. split; auto. split; auto. split; auto. split; auto. split; auto. split; [destruct G as (t & ->); rewrite app_length; lia|]. split; [intros b []|]. intros r R. split; [auto|intros []].
  - intros h s r i v O. now apply put_ok.
  - unfold rej_made, ok_arr, valid; simpl. lia.
  - intros b [].
Qed.
(** The samples and the weights a call returns, split at the number of samples held before. *)
Lemma rej_new rounds returns h h' s : ok_arr h s -> ok_arr h' s -> agree (nobody s) h h' ->
  let n := length (read h (f_samples s)) in
  let '(h1, s1, o1) := rej_arr (RCall rounds returns) h s in let '(h2, s2, o2) := rej_arr (RCall rounds returns) h' s in
  skipn n (read h1 (f_samples s1)) = skipn n (read h2 (f_samples s2)) /\ read h1 (f_weights s1) = read h2 (f_weights s2).
Proof.
  intros O O' H n. cbn [rej_arr]. pose proof (rej_rounds_two rounds h h' s H) as T. pose proof (rej_rounds_ok rounds h s O) as K. pose proof (rej_rounds_ok rounds h' s O') as K'.
  destruct (fold_left _ rounds (h, s)) as [h1 s1]. destruct (fold_left _ rounds (h', s)) as [h1' s1']. destruct T as (-> & T). destruct K as (_ & (V1 & _) & R1 & _). destruct K' as (_ & (V2 & _) & R2 & _).
  rewrite (map_const_len (fun n => [1 / Qnat n]) (read h1 (f_weights s1')) (read h1' (f_weights s1')) (agree_len _ _ _ _ T)).
  match goal with |- context [fresh h1 ?b] => pose proof (fresh_grows h1 b) as (G2 & _ & R3); pose proof (fresh_grows h1' b) as (G2' & _ & R3'); destruct (fresh h1 b) as [h2 w]; destruct (fresh h1' b) as [h2' w'] end. cbn [fst snd f_samples f_weights] in *.
  rewrite R3, R3'. split; auto. rewrite (grows_read h1 h2), (grows_read h1' h2'), R1, R2 by auto. subst n. rewrite (skipn_app_all (read h (f_samples s))) by auto. symmetry. apply skipn_app_all. apply (agree_len _ _ _ _ H).
Qed.

(** * LAIS and M-PMC *)
Lemma kind_lais k : k = LAIS \/ k <> LAIS.
Proof. destruct k; auto; right; discriminate. Qed.
Section Pop.
Variables (kind : pop_kind) (lo hi : vec).
Hypothesis Hkind : kind <> DM.
(** The means, and for LAIS the weights, are never handed out. *)
Definition priv_pop (s : pop_arrays) (b : nat) : Prop := (exists m, In m (q_means s) /\ b = a_buf m) \/ (kind = LAIS /\ b = a_buf (f_weights (q_own s))).
Definition ok2 (h : heap) (s : pop_arrays) : Prop :=
  ok_pop h s /\ ~ priv_pop s (a_buf (f_samples (q_own s))) /\ (kind = MPMC -> ~ priv_pop s (a_buf (f_weights (q_own s)))) .
Lemma moves_two mv : forall (P : nat -> Prop) h h' c, agree P h h' -> P (a_buf c) -> let (h1, c1) := fold_left (mh_move lo hi) mv (h, c) in let (h2, c2) := fold_left (mh_move lo hi) mv (h', c) in
  c1 = c2 /\ agree (fun b => P b \/ b = a_buf c1) h1 h2 /\ (length h <= length h1)%nat /\ (c1 = c \/ (length h <= a_buf c1 < length h1)%nat).
Proof.
  induction mv as [|d mv IH]; intros P h h' c H Pc; cbn [fold_left].
  - split; auto. split; [eapply agree_weaken; [|exact H]; intros b [Hb| ->]; auto|]. split; [lia|now left].
  - destruct d as [d|]; cbn [mh_move fst snd]; [|now apply IH]. rewrite <- (agree_read _ _ _ _ H Pc). set (b0 := map _ _). pose proof (fresh_same P h h' b0 H) as (H1 & E1). pose proof (fresh_len h b0) as L1.
    assert (B1 : a_buf (snd (fresh h b0)) = length h) by reflexivity. destruct (fresh h b0) as [h1 c1]. destruct (fresh h' b0) as [h1' c1']. cbn [fst snd] in *. subst c1'.
    specialize (IH _ h1 h1' c1 H1 (or_intror B1)). destruct (fold_left _ mv (h1, c1)) as [h2 c2]. destruct (fold_left _ mv (h1', c1)) as [h3 c3]. destruct IH as (-> & A & B & C). split; auto.
    split; [eapply agree_weaken; [|exact A]; intros b [Hb|Hb]; auto|]. split; [lia|]. right. destruct C as [-> |C]; lia.
Qed.
Lemma walks_two walks : forall means (P : nat -> Prop) h h', agree P h h' -> (forall m, In m means -> P (a_buf m)) ->
  let (h1, m1) := pop_walks lo hi h means walks in let (h2, m2) := pop_walks lo hi h' means walks in
  m1 = m2 /\ agree (fun b => P b \/ exists m, In m m1 /\ b = a_buf m) h1 h2 /\ (length h <= length h1)%nat /\ (forall m, In m m1 -> In m means \/ (length h <= a_buf m < length h1)%nat).
Proof.
  induction walks as [|w walks IH]; intros [|m ms] P h h' H Pm; cbn [pop_walks].
  1-3: (split; [reflexivity|]; split; [eapply agree_weaken; [|exact H]; intros b [Hb|(x & Hx & ->)]; auto|]; split; [lia|now left]).
  pose proof (moves_two w P h h' m H (Pm m (or_introl eq_refl))) as T. destruct (fold_left _ w (h, m)) as [h1 m1]. destruct (fold_left _ w (h', m)) as [h1' m1']. destruct T as (-> & H1 & L1 & W1).
  specialize (IH ms _ h1 h1' H1 (fun x Hx => or_introl (Pm x (or_intror Hx)))). destruct (pop_walks lo hi h1 ms walks) as [h2 l]. destruct (pop_walks lo hi h1' ms walks) as [h2' l']. destruct IH as (-> & H2 & L2 & W2).
  split; auto. split; [eapply agree_weaken; [|exact H2]; intros b [Hb|(x & [<-|Hx] & ->)]; eauto|]. split; [lia|]. intros x [<-|Hx].
  - destruct W1 as [-> |W1]; [left; now left|right; lia].
  - destruct (W2 x Hx) as [W|W]; [left; now right|right; lia].
Qed.
Lemma fresh_rows_two xs : forall (P : nat -> Prop) h h', agree P h h' -> let (h1, m1) := fresh_rows h xs in let (h2, m2) := fresh_rows h' xs in
  m1 = m2 /\ agree (fun b => P b \/ exists m, In m m1 /\ b = a_buf m) h1 h2 /\ (length h <= length h1)%nat /\ (forall m, In m m1 -> (length h <= a_buf m < length h1)%nat).
Proof.
  induction xs as [|x xs IH]; intros P h h' H; cbn [fresh_rows].
  - split; auto. split; [eapply agree_weaken; [|exact H]; intros b [Hb|(y & [] & _)]; auto|]. split; [lia|intros m []].
  - pose proof (fresh_same P h h' [x] H) as (H1 & E1). pose proof (fresh_len h [x]) as L1. assert (B1 : a_buf (snd (fresh h [x])) = length h) by reflexivity. destruct (fresh h [x]) as [h1 c1]. destruct (fresh h' [x]) as [h1' c1']. cbn [fst snd] in *. subst c1'.
    specialize (IH _ h1 h1' H1). destruct (fresh_rows h1 xs) as [h2 l]. destruct (fresh_rows h1' xs) as [h2' l']. destruct IH as (-> & H2 & L2 & W2). split; auto.
    split; [eapply agree_weaken; [|exact H2]; intros b [Hb|(y & [<-|Hy] & ->)]; eauto|]. split; [lia|]. intros y [<-|Hy]; [lia|]. specialize (W2 y Hy). lia.
Qed.
Lemma pop_rows_two P h h' means draws : agree P h h' -> (forall m, In m means -> P (a_buf m)) -> pop_rows h means draws = pop_rows h' means draws.
Proof.
  intros H Pm. unfold pop_rows. apply map_ext. intros (i, z). simpl. f_equal. f_equal. destruct H as (L & H). rewrite <- L. destruct (nth_in_or_default i means (mkA (length h) None)) as [I|D].
  - apply (agree_read P); [now split|auto].
  - rewrite D. unfold read; simpl. rewrite (proj2 (nth_error_None h _)), (proj2 (nth_error_None h' _)) by lia. reflexivity.
Qed.
Lemma adapt_two P h h' new t means : agree P h h' -> P (a_buf new) -> (forall m, In m means -> P (a_buf m)) ->
  let (h1, m1) := pop_adapt_arr kind lo hi h new t means in let (h2, m2) := pop_adapt_arr kind lo hi h' new t means in
  m1 = m2 /\ agree (fun b => P b \/ exists m, In m m1 /\ b = a_buf m) h1 h2 /\ (length h <= length h1)%nat /\ (forall m, In m m1 -> In m means \/ (length h <= a_buf m < length h1)%nat).
Proof.
  intros H Pn Pm. unfold pop_adapt_arr. destruct kind; [congruence| |].
  - now apply walks_two.
  - rewrite <- (agree_read _ _ _ _ H Pn). pose proof (fresh_rows_two (qt_fit t (read h new)) P h h' H) as T. destruct (fresh_rows h _) as [h1 m1]. destruct (fresh_rows h' _) as [h2 m2]. destruct T as (A & B & C & D). split; auto.
Qed.
Lemma turn_two t h h' s : ok2 h s -> ok2 h' s -> agree (priv_pop s) h h' ->
  let (h1, s1) := pop_turn_arr kind lo hi (h, s) t in let (h2, s2) := pop_turn_arr kind lo hi (h', s) t in
  s1 = s2 /\ agree (priv_pop s1) h1 h2 /\ ok2 h1 s1 /\ ok2 h2 s2 /\ (length h <= length h1)%nat /\ (forall b, priv_pop s1 b -> priv_pop s b \/ (length h <= b)%nat) /\
  (exists x w, read h1 (f_samples (q_own s1)) = read h (f_samples (q_own s)) ++ x /\ read h2 (f_samples (q_own s2)) = read h' (f_samples (q_own s)) ++ x /\
    read h1 (f_weights (q_own s1)) = read h (f_weights (q_own s)) ++ w /\ read h2 (f_weights (q_own s2)) = read h' (f_weights (q_own s)) ++ w).
Proof.
  intros (O & Ns & Nw) (O' & _ & _) H. pose proof (pop_turn_ok kind lo hi h s t O) as K. pose proof (pop_turn_ok kind lo hi h' s t O') as K'.
  assert (Em : forall m, In m (q_means s) -> priv_pop s (a_buf m)) by (intros m Hm; left; eauto). assert (Er := pop_rows_two _ h h' (q_means s) (qt_draws t) H Em).
  assert (T : let (h1, s1) := pop_turn_arr kind lo hi (h, s) t in let (h2, s2) := pop_turn_arr kind lo hi (h', s) t in
    s1 = s2 /\ agree (priv_pop s1) h1 h2 /\ (~ priv_pop s1 (a_buf (f_samples (q_own s1))) /\ (kind = MPMC -> ~ priv_pop s1 (a_buf (f_weights (q_own s1))))) /\ (length h <= length h1)%nat /\ (forall b, priv_pop s1 b -> priv_pop s b \/ (length h <= b)%nat)).
  { clear K K'. unfold pop_turn_arr. rewrite <- Er. set (bx := pop_rows h _ _). pose proof (fresh_same _ h h' bx H) as (H1 & E1). pose proof (fresh_len h bx) as L1. assert (B1 : a_buf (snd (fresh h bx)) = length h) by reflexivity.
    destruct (fresh h bx) as [h1 new]. destruct (fresh h' bx) as [h1' new']. cbn [fst snd] in *. subst new'.
    pose proof (fresh_same _ h1 h1' (qt_weights t) H1) as (H2 & E2). pose proof (fresh_len h1 (qt_weights t)) as L2. assert (B2 : a_buf (snd (fresh h1 (qt_weights t))) = length h1) by reflexivity.
    destruct (fresh h1 (qt_weights t)) as [h2 nw]. destruct (fresh h1' (qt_weights t)) as [h2' nw']. cbn [fst snd] in *. subst nw'.
    pose proof (adapt_two _ h2 h2' new t (q_means s) H2 (or_introl (or_intror B1)) (fun m Hm => or_introl (or_introl (Em m Hm)))) as T.
    destruct (pop_adapt_arr kind lo hi h2 new t (q_means s)) as [h3 means]. destruct (pop_adapt_arr kind lo hi h2' new t (q_means s)) as [h3' means']. destruct T as (-> & H3 & L3 & W3).
    pose proof (join_shape _ h3 h3' (f_samples (q_own s)) new H3) as (H4 & E4). pose proof (join_where h3 (f_samples (q_own s)) new) as J4. destruct (join h3 (f_samples (q_own s)) new) as [h4 sa]. destruct (join h3' (f_samples (q_own s)) new) as [h4' sa']. cbn [fst snd] in *. subst sa'.
    assert (L4 : (length h3 <= length h4)%nat) by (destruct J4 as [(_ & ->)|(_ & ->)]; lia).
    assert (B : forall b, priv_pop s b -> (b < length h)%nat) by (intros b Hb; now apply H).
    assert (Hw : (kind = LAIS -> agree (fun k => (exists m, In m means' /\ k = a_buf m) \/ k = a_buf (snd (join h4 (f_weights (q_own s)) nw))) (fst (join h4 (f_weights (q_own s)) nw)) (fst (join h4' (f_weights (q_own s)) nw))) /\
      agree (fun k => exists m, In m means' /\ k = a_buf m) (fst (join h4 (f_weights (q_own s)) nw)) (fst (join h4' (f_weights (q_own s)) nw)) /\ snd (join h4 (f_weights (q_own s)) nw) = snd (join h4' (f_weights (q_own s)) nw)).
    { split.
      - intros Hk. assert (P1 : priv_pop s (a_buf (f_weights (q_own s)))) by (right; auto). destruct (join_same _ h4 h4' (f_weights (q_own s)) nw H4 (or_introl (or_introl (or_introl P1))) (or_introl (or_intror B2))) as (J & _).
        eapply agree_weaken; [|exact J]. intros b [Hb|Hb]; [left; right; exact Hb|now right].
      - destruct (join_shape _ h4 h4' (f_weights (q_own s)) nw H4) as (J & Je). split; [|exact Je]. eapply agree_weaken; [|exact J]. intros b Hb. now right. }
    pose proof (join_where h4 (f_weights (q_own s)) nw) as J5. destruct (join h4 (f_weights (q_own s)) nw) as [h5 we]. destruct (join h4' (f_weights (q_own s)) nw) as [h5' we']. cbn [fst snd] in *. destruct Hw as (Hl & Hm & ->).
    assert (L5 : (length h4 <= length h5)%nat) by (destruct J5 as [(_ & ->)|(_ & ->)]; lia).
    assert (X : forall m, In m means' -> (a_buf m < length h)%nat \/ (length h2 <= a_buf m < length h3)%nat) by (intros m Hi; destruct (W3 m Hi) as [W|W]; [left; apply B, Em; exact W|now right]).
    unfold priv_pop; cbn [q_means q_own f_samples f_weights]. split; auto. split; [|split; [split|split; [lia|]]].
    - destruct (kind_lais kind) as [Hk|Hk].
      + eapply agree_weaken; [|exact (Hl Hk)]. intros b [Hb|(_ & Hb)]; auto.
      + eapply agree_weaken; [|exact Hm]. intros b [Hb|(Hb & _)]; [exact Hb|contradiction].
    - intros [(m & Hi & Eb)|(_ & Eb)]; [specialize (X m Hi)|]; destruct J4 as [(J4 & ?)|(J4 & ?)], J5 as [(J5 & ?)|(J5 & ?)]; subst; lia.
    - intros Hk [(m & Hi & Eb)|(Hk' & _)]; [specialize (X m Hi)|congruence]. destruct J4 as [(J4 & ?)|(J4 & ?)], J5 as [(J5 & ?)|(J5 & ?)]; subst; lia.
    - intros b [(m & Hi & ->)|(_ & ->)]; [destruct (W3 m Hi) as [W|W]; [left; left; eauto|right; lia]|]. right. destruct J4 as [(J4 & ?)|(J4 & ?)], J5 as [(J5 & ?)|(J5 & ?)]; subst; lia. }
  destruct (pop_turn_arr kind lo hi (h, s) t) as [h1 s1]. destruct (pop_turn_arr kind lo hi (h', s) t) as [h2 s2]. destruct T as (-> & A & C & D & F). destruct K as (_ & K1 & K2 & K3), K' as (_ & K1' & K2' & K3'). rewrite <- Er in K2'.
  split; auto. split; auto. split; [split; auto|]. split; [split; auto|]. split; auto. split; auto. eexists. eexists. split; [exact K2|]. split; [exact K2'|]. split; [exact K3|exact K3'].
Qed.
Lemma turns_two turns : forall h h' s, ok2 h s -> ok2 h' s -> agree (priv_pop s) h h' ->
  let (h1, s1) := fold_left (pop_turn_arr kind lo hi) turns (h, s) in let (h2, s2) := fold_left (pop_turn_arr kind lo hi) turns (h', s) in
  s1 = s2 /\ agree (priv_pop s1) h1 h2 /\ ok2 h1 s1 /\ ok2 h2 s2 /\ (length h <= length h1)%nat /\ (forall b, priv_pop s1 b -> priv_pop s b \/ (length h <= b)%nat) /\
  (exists x w, read h1 (f_samples (q_own s1)) = read h (f_samples (q_own s)) ++ x /\ read h2 (f_samples (q_own s2)) = read h' (f_samples (q_own s)) ++ x /\
    read h1 (f_weights (q_own s1)) = read h (f_weights (q_own s)) ++ w /\ read h2 (f_weights (q_own s2)) = read h' (f_weights (q_own s)) ++ w).
Proof.
  induction turns as [|t turns IH]; intros h h' s O O' H; cbn [fold_left].
  - split; auto. split; auto. split; auto. split; auto. split; auto. split; auto. exists [], []. now rewrite !app_nil_r.
  - pose proof (turn_two t h h' s O O' H) as T. destruct (pop_turn_arr kind lo hi (h, s) t) as [h1 s1]. destruct (pop_turn_arr kind lo hi (h', s) t) as [h1' s1']. destruct T as (-> & H1 & O1 & O1' & L1 & P1 & x & w & X1 & X2 & X3 & X4).
    specialize (IH h1 h1' s1' O1 O1' H1). destruct (fold_left _ turns (h1, s1')) as [h2 s2]. destruct (fold_left _ turns (h1', s1')) as [h2' s2']. destruct IH as (-> & H2 & O2 & O2' & L2 & P2 & y & v & Y1 & Y2 & Y3 & Y4).
    split; auto. split; auto. split; auto. split; auto. split; [lia|]. split; [intros b Hb; destruct (P2 b Hb); [auto|right; lia]|]. exists (x ++ y), (w ++ v). rewrite Y1, Y2, Y3, Y4, X1, X2, X3, X4, !app_assoc. auto.
Qed.
Lemma ok2_grow h h' s : grows h h' -> ok2 h s -> ok2 h' s.
Proof. intros G ((M & O) & R). split; [|exact R]. split; [eapply valids_grow; eauto|eapply ok_grows; eauto]. Qed.
(** What an operation of the two runs hands out. *)
Definition alike (n m : nat) (e : pop_ev) (a a' : list (list vec)) : Prop :=
  match e with
  | PCall _ _ => match a, a' with
                 | [x; w], [x'; w'] => skipn n x = skipn n x' /\ skipn m w = skipn m w' /\ (kind = LAIS -> w = w')
                 | [], [] => True
                 | _, _ => False
                 end
  | _ => a = a'
  end.
Lemma pop_two e h h' s : ok2 h s -> ok2 h' s -> agree (priv_pop s) h h' ->
  let '(h1, s1, o1) := pop_arr kind lo hi e h s in let '(h2, s2, o2) := pop_arr kind lo hi e h' s in
  s1 = s2 /\ o1 = o2 /\ agree (priv_pop s1) h1 h2 /\ ok2 h1 s1 /\ ok2 h2 s2 /\ (length h <= length h1)%nat /\
  (forall b, priv_pop s1 b -> priv_pop s b \/ (length h <= b)%nat) /\ (forall r, In r o1 -> valid h1 r /\ ~ priv_pop s1 (a_buf r)) /\
  alike (length (read h (f_samples (q_own s)))) (length (read h (f_weights (q_own s)))) e (map (read h1) o1) (map (read h2) o2).
Proof.
  intros O O' H. destruct e as [turns returns|draws|centres]; cbn [pop_arr].
  - pose proof (turns_two turns h h' s O O' H) as T. destruct (fold_left _ turns (h, s)) as [h1 s1]. destruct (fold_left _ turns (h', s)) as [h1' s1']. destruct T as (-> & H1 & O1 & O1' & L1 & P1 & x & w & X1 & X2 & X3 & X4).
    assert (Es : skipn (length (read h (f_samples (q_own s)))) (read h1 (f_samples (q_own s1'))) = skipn (length (read h (f_samples (q_own s)))) (read h1' (f_samples (q_own s1')))).
    { rewrite X1, X2, skipn_app_all by reflexivity. symmetry. apply skipn_app_all. apply (agree_len _ _ _ _ H). }
    assert (B : forall b, priv_pop s1' b -> (b < length h1)%nat) by (intros b Hb; now apply H1). pose proof O1 as ((M1 & A1 & C1) & N1 & N2). pose proof O1' as ((M1' & A1' & C1') & _).
    destruct kind eqn:Ek; [congruence| |].
    + assert (Pw : priv_pop s1' (a_buf (f_weights (q_own s1')))) by (right; auto). rewrite <- (agree_read _ _ _ _ H1 Pw). set (b0 := wnorm _). pose proof (fresh_same _ h1 h1' b0 H1) as (H2 & E2). pose proof (fresh_len h1 b0) as L2. pose proof (fresh_grows h1 b0) as (G2 & V2 & R2).
      pose proof (fresh_grows h1' b0) as (G2' & V2' & R2'). assert (B2 : a_buf (snd (fresh h1 b0)) = length h1) by reflexivity. destruct (fresh h1 b0) as [h2 v]. destruct (fresh h1' b0) as [h2' v']. cbn [fst snd] in *. subst v'.
      split; auto. split; auto. split; [eapply agree_weaken; [|exact H2]; intros b Hb; now left|]. split; [eapply ok2_grow; eauto|]. split; [eapply ok2_grow; eauto|]. split; [lia|]. split; [exact P1|]. destruct returns; [|split; [intros r []|exact I]]. split.
      * intros r [<-|[<-|[]]]; (split; [auto; eapply grows_valid; eauto|]); [exact N1|]. intros Q. apply B in Q. lia.
      * cbn [map alike]. rewrite R2, R2'. rewrite (grows_read h1 h2), (grows_read h1' h2') by auto. auto.
    + split; auto. split; auto. split; auto. split; auto. split; auto. split; auto. split; auto. destruct returns; [|split; [intros r []|exact I]]. split.
      * intros r [<-|[<-|[]]]; auto.
      * cbn [map alike]. split; [exact Es|]. split; [|intros Hl; congruence]. rewrite X3, X4, skipn_app_all by reflexivity. symmetry. apply skipn_app_all. apply (agree_len _ _ _ _ H).
  - assert (Em : forall m, In m (q_means s) -> priv_pop s (a_buf m)) by (intros m Hm; left; eauto). rewrite <- (pop_rows_two _ h h' (q_means s) draws H Em). set (b0 := pop_rows _ _ _).
    pose proof (fresh_same _ h h' b0 H) as (H2 & E2). pose proof (fresh_len h b0) as L2. pose proof (fresh_grows h b0) as (G2 & V2 & R2).
    pose proof (fresh_grows h' b0) as (G2' & V2' & R2'). assert (B2 : a_buf (snd (fresh h b0)) = length h) by reflexivity. destruct (fresh h b0) as [h2 v]. destruct (fresh h' b0) as [h2' v']. cbn [fst snd] in *. subst v'.
    split; auto. split; auto. split; [eapply agree_weaken; [|exact H2]; intros b Hb; now left|]. split; [eapply ok2_grow; eauto|]. split; [eapply ok2_grow; eauto|]. split; [lia|]. split; [auto|]. split.
    + intros r [<-|[]]. split; auto. intros Q. apply H in Q. lia.
    + cbn [map alike]. now rewrite R2, R2'.
  - unfold fresh_arrays. pose proof (fresh_same _ h h' [] H) as (H1 & E1). pose proof (fresh_len h []) as L1. assert (B1 : a_buf (snd (fresh h [])) = length h) by reflexivity. destruct (fresh h []) as [h1 x]. destruct (fresh h' []) as [h1' x']. cbn [fst snd] in *. subst x'.
    pose proof (fresh_same _ h1 h1' [] H1) as (H2 & E2). pose proof (fresh_len h1 []) as L2. assert (B2 : a_buf (snd (fresh h1 [])) = length h1) by reflexivity. destruct (fresh h1 []) as [h2 w]. destruct (fresh h1' []) as [h2' w']. cbn [fst snd] in *. subst w'.
    pose proof (fresh_rows_two centres _ h2 h2' H2) as T. pose proof (fresh_rows_grows centres h2) as (G3 & F3). pose proof (fresh_rows_grows centres h2') as (G3' & F3'). destruct (fresh_rows h2 centres) as [h3 l]. destruct (fresh_rows h2' centres) as [h3' l']. destruct T as (-> & H3 & L3 & W3). cbn [fst snd] in *.
    assert (V : forall hh, (length h + 2 <= length hh)%nat -> Forall (valid hh) l' -> ok2 hh (mkPopA l' (mkArr x w))).
    { intros hh Lh F. split; [split; [exact F|unfold ok_arr, valid; simpl; lia]|]. split.
      - intros [(m & Hi & Eb)|(_ & Eb)]; simpl in *; [specialize (W3 m Hi)|]; lia.
      - intros Hk [(m & Hi & Eb)|(Hk' & _)]; simpl in *; [specialize (W3 m Hi); lia|congruence]. }
    assert (Lh : length h = length h') by apply H. assert (Lh3 : length h3 = length h3') by apply H3.
    split; auto. split; auto. split; [eapply agree_weaken; [|exact H3]; unfold priv_pop; simpl; intros b [Hb|(_ & Hb)]; [now right|left; right; congruence]|].
    split; [apply V; [lia|exact F3]|]. split; [apply V; [lia|exact F3']|]. split; [lia|]. split; [|split; [intros r []|reflexivity]].
    intros b [(m & Hi & ->)|(_ & ->)]; simpl in *; [specialize (W3 m Hi)|]; right; lia.
Qed.
Lemma pop_pair centres ops : two ok2 priv_pop (run (pop_arr kind lo hi) ops (made (pop_made centres))) (run (pop_arr kind lo hi) (erase ops) (made (pop_made centres))).
Proof.
  assert (M : ok2 (fst (pop_made centres)) (snd (pop_made centres)) /\ forall b, priv_pop (snd (pop_made centres)) b -> (b < length (fst (pop_made centres)))%nat).
  { unfold pop_made. assert (Ea : fresh_arrays [] = ([[]; []], mkArr (mkA 0 None) (mkA 1 None))) by reflexivity. rewrite Ea. clear Ea. assert (L0 : length ([[]; []] : heap) = 2%nat) by reflexivity. revert L0. generalize ([[]; []] : heap). intros h0 L0.
    assert (A : agree (fun _ => False) h0 h0) by (apply agree_refl; intros b []).
    pose proof (fresh_rows_two centres _ _ _ A) as T. pose proof (fresh_rows_grows centres h0) as (G3 & F3). destruct (fresh_rows h0 centres) as [h3 l]. destruct T as (_ & H3 & L3 & W3). cbn [fst snd] in *. rewrite L0 in *. split.
    - split; [split; [exact F3|unfold ok_arr, valid; simpl; lia]|]. split.
      + intros [(m & Hi & Eb)|(_ & Eb)]; simpl in *; [specialize (W3 m Hi)|]; lia.
      + intros Hk [(m & Hi & Eb)|(Hk' & _)]; simpl in *; [specialize (W3 m Hi); lia|congruence].
    - intros b [(m & Hi & ->)|(_ & ->)]; simpl in *; [specialize (W3 m Hi)|]; lia. }
  apply two_made; [|intros h s r i v ((A & B) & N); split; [now apply put_ok_pop|exact N]|apply M|apply M].
  intros e h h' s O O' H. pose proof (pop_two e h h' s O O' H) as T. destruct (pop_arr kind lo hi e h s) as [[h1 s1] o1]. destruct (pop_arr kind lo hi e h' s) as [[h2 s2] o2]. tauto.
Qed.
Lemma pop_alike centres ops e : let x := run (pop_arr kind lo hi) ops (made (pop_made centres)) in let y := run (pop_arr kind lo hi) (erase ops) (made (pop_made centres)) in
  alike (length (read (h_heap x) (f_samples (q_own (h_self x))))) (length (read (h_heap x) (f_weights (q_own (h_self x))))) e (answer (pop_arr kind lo hi) e x) (answer (pop_arr kind lo hi) e y).
Proof.
  intros x y. destruct (pop_pair centres ops) as (A & B & C & D & F & _). fold x y in A, B, C, D, F. unfold answer. rewrite <- A in *. pose proof (pop_two e _ _ _ D F C) as T.
  destruct (pop_arr kind lo hi e (h_heap x) (h_self x)) as [[h1 s1] o1]. destruct (pop_arr kind lo hi e (h_heap y) (h_self x)) as [[h2 s2] o2]. tauto.
Qed.
End Pop.
Lemma rej_alike ops rounds : let x := run rej_arr ops (made rej_made) in let y := run rej_arr (erase ops) (made rej_made) in
  exists X X' W, answer rej_arr (RCall rounds true) x = [X; W] /\ answer rej_arr (RCall rounds true) y = [X'; W] /\ skipn (length (read (h_heap x) (f_samples (h_self x)))) X = skipn (length (read (h_heap x) (f_samples (h_self x)))) X'.
Proof.
  intros x y. destruct (rej_pair ops) as (A & B & C & D & F & _). fold x y in A, B, C, D, F. rewrite <- A in *. pose proof (rej_new rounds true _ _ _ D F C) as T. pose proof (rej_two (RCall rounds true) _ _ _ C) as T2. unfold answer. rewrite <- A.
  destruct (rej_arr (RCall rounds true) (h_heap x) (h_self x)) as [[h1 s1] o1] eqn:E1. destruct (rej_arr (RCall rounds true) (h_heap y) (h_self x)) as [[h2 s2] o2] eqn:E2. destruct T as (T & W). destruct T2 as (-> & -> & _).
  assert (Eo : o2 = [f_samples s2; f_weights s2]). { cbn [rej_arr] in E2. destruct (fold_left _ rounds _) as [h3 s3]. destruct (fresh h3 _) as [h4 w]. now inversion E2; subst. }
  subst o2. cbn [map]. rewrite W. eexists. eexists. eexists. split; [reflexivity|]. split; [reflexivity|exact T].
Qed.

(** * Nested sampling *)
Definition ok_ns (h : heap) (s : ns_arrays) : Prop := a_row (n_live s) = None /\ valid h (n_live s) /\ valid h (f_samples (n_own s)) /\ (a_buf (f_samples (n_own s)) = a_buf (n_live s) -> a_row (f_samples (n_own s)) <> None).
(** Safe: not a view of a row of the live points that exists. *)
Definition safe (h : heap) (s : ns_arrays) (r : aref) : Prop := valid h r /\ (a_buf r <> a_buf (n_live s) \/ read h r = []).
Definition step_ns (h : heap) (s : ns_arrays) (h1 : heap) (s1 : ns_arrays) : Prop :=
  (length h <= length h1)%nat /\ (a_buf (n_live s1) = a_buf (n_live s) \/ (length h <= a_buf (n_live s1))%nat) /\ forall r, safe h s r -> safe h1 s1 r /\ read h1 r = read h r.
Lemma step_ns_refl h s : step_ns h s h s.
Proof. split; [lia|]. split; auto. Qed.
Lemma step_ns_trans h1 s1 h2 s2 h3 s3 : step_ns h1 s1 h2 s2 -> step_ns h2 s2 h3 s3 -> step_ns h1 s1 h3 s3.
Proof.
  intros (A & B & C) (A' & B' & C'). split; [lia|]. split; [destruct B as [<-|B], B' as [->|B']; auto; right; lia|]. intros r S0. destruct (C r S0) as (S1 & R1). destruct (C' r S1) as (S2 & R2). split; auto. congruence.
Qed.
Lemma fresh_step h s b s1 : n_live s1 = n_live s -> step_ns h s (fst (fresh h b)) s1.
Proof.
  intros E. split; [rewrite fresh_len; lia|]. split; [rewrite E; auto|]. intros r (V & D). assert (R : read (fst (fresh h b)) r = read h r) by (apply grows_read; [apply fresh_grows|exact V]). split; [|exact R]. split; [eapply grows_valid; [apply fresh_grows|exact V]|]. rewrite E, R. exact D.
Qed.
Lemma put_step h s i v s1 : n_live s1 = n_live s -> step_ns h s (put_row h (n_live s) i v) s1.
Proof.
  intros E. split; [rewrite put_length; lia|]. split; [rewrite E; auto|]. intros r (V & D). unfold safe. rewrite E. assert (L := put_read_len h (n_live s) i v r). split; [split; [now apply put_valid|]|].
  - destruct D as [D|D]; [now left|right]. rewrite D in L. now apply length_zero_iff_nil.
  - destruct D as [D|D]; [now apply put_read_other|]. rewrite D in L |- *. now apply length_zero_iff_nil.
Qed.
Lemma ns_round_ok h s r : ok_ns h s -> let (h1, s1) := ns_round_arr (h, s) r in ok_ns h1 s1 /\ n_live s1 = n_live s /\ step_ns h s h1 s1.
Proof.
  intros (A & B & C & D). unfold ns_round_arr. destruct (read h (f_samples (n_own s))) as [|x l] eqn:E.
  - split; [|split; [reflexivity|now apply put_step]]. unfold ok_ns; cbn [n_live n_own f_samples row_of a_buf a_row]. rewrite A. split; [reflexivity|]. split; [now apply put_valid|]. split; [apply (put_valid h _ _ _ (mkA (a_buf (n_live s)) (Some (fst r)))); exact B|discriminate].
  - set (b0 := (x :: l) ++ _). pose proof (fresh_step h s b0 s eq_refl) as F. pose proof (fresh_grows h b0) as (G & V & _). pose proof (fresh_len h b0) as L1. assert (B1 : snd (fresh h b0) = mkA (length h) None) by reflexivity. destruct (fresh h b0) as [h1 sa]. cbn [fst snd] in *. subst sa.
    split; [|split; [reflexivity|]].
    + unfold ok_ns; cbn [n_live n_own f_samples a_buf a_row]. split; [exact A|]. split; [apply put_valid; eapply grows_valid; eauto|]. split; [now apply put_valid|]. intros Eb. unfold valid in B. lia.
    + eapply step_ns_trans; [exact F|]. now apply put_step.
Qed.
Lemma ns_rounds_ok rounds : forall h s, ok_ns h s -> let (h1, s1) := fold_left ns_round_arr rounds (h, s) in ok_ns h1 s1 /\ n_live s1 = n_live s /\ step_ns h s h1 s1.
Proof.
  induction rounds as [|r rounds IH]; intros h s O; cbn [fold_left]; [split; [exact O|split; [reflexivity|apply step_ns_refl]]|]. pose proof (ns_round_ok h s r O) as H. destruct (ns_round_arr (h, s) r) as [h1 s1]. destruct H as (O1 & E1 & S1).
  specialize (IH h1 s1 O1). destruct (fold_left _ rounds (h1, s1)) as [h2 s2]. destruct IH as (O2 & E2 & S2). split; auto. split; [congruence|eapply step_ns_trans; eauto].
Qed.
Definition out_ns (h : heap) (s : ns_arrays) (r : aref) : Prop := valid h r /\ (a_buf r = a_buf (n_live s) -> a_row r <> None).
Lemma ns_ok e h s : ok_ns h s -> let '(h1, s1, o1) := ns_arr e h s in ok_ns h1 s1 /\ step_ns h s h1 s1 /\ (forall r, In r o1 -> out_ns h1 s1 r).
Proof.
  intros O. destruct e as [rounds ws returns|xs|points]; cbn [ns_arr].
  - pose proof (ns_rounds_ok rounds h s O) as H. destruct (fold_left _ rounds (h, s)) as [h1 s1]. destruct H as (O1 & E1 & S1).
    pose proof (fresh_step h1 s1 ws (mkNsA (n_live s1) (mkArr (f_samples (n_own s1)) (snd (fresh h1 ws)))) eq_refl) as F. pose proof (fresh_grows h1 ws) as (G & V & _). assert (B1 : snd (fresh h1 ws) = mkA (length h1) None) by reflexivity. destruct (fresh h1 ws) as [h2 w]. cbn [fst snd] in *.
    destruct O1 as (A & B & C & D). split; [split; [exact A|split; [eapply grows_valid; eauto|split; [eapply grows_valid; eauto|exact D]]]|]. split; [eapply step_ns_trans; eauto|]. intros r R. destruct returns; [|contradiction]. destruct R as [<-|[<-|[]]]; (split; [auto; eapply grows_valid; eauto|]); [exact D|].
    subst w. simpl. intros Eb. unfold valid in B. lia.
  - pose proof (fresh_step h s xs s eq_refl) as F. pose proof (fresh_grows h xs) as (G & V & _). assert (B1 : snd (fresh h xs) = mkA (length h) None) by reflexivity. destruct (fresh h xs) as [h2 w]. cbn [fst snd] in *. destruct O as (A & B & C & D).
    split; [split; [exact A|split; [eapply grows_valid; eauto|split; [eapply grows_valid; eauto|exact D]]]|]. split; auto. intros r [<-|[]]. split; auto. subst w. simpl. intros Eb. unfold valid in B. lia.
  - unfold fresh_arrays. pose proof (fresh_grows h points) as (G1 & V1 & _). pose proof (fresh_len h points) as L1. assert (B1 : snd (fresh h points) = mkA (length h) None) by reflexivity. destruct (fresh h points) as [h1 lv]. cbn [fst snd] in *. subst lv.
    pose proof (fresh_grows h1 []) as (G2 & V2 & _). pose proof (fresh_len h1 []) as L2. assert (B2 : snd (fresh h1 []) = mkA (length h1) None) by reflexivity. destruct (fresh h1 []) as [h2 x]. cbn [fst snd] in *. subst x.
    pose proof (fresh_grows h2 []) as (G3 & V3 & _). pose proof (fresh_len h2 []) as L3. assert (B3 : snd (fresh h2 []) = mkA (length h2) None) by reflexivity. destruct (fresh h2 []) as [h3 y]. cbn [fst snd] in *. subst y.
    assert (G : grows h h3) by (eapply grows_trans; [exact G1|eapply grows_trans; eauto]). split; [unfold ok_ns, valid; simpl; repeat split; try lia|]. split; [|intros r []]. split; [lia|]. split; [right; simpl; lia|]. intros r (V & _). split; [split; [eapply grows_valid; eauto|]|now apply grows_read].
    left. simpl. unfold valid in V. lia.
Qed.
Definition hok_ns (x : hist) : Prop := ok_ns (h_heap x) (h_self x) /\ forall r, In r (h_outs x) -> out_ns (h_heap x) (h_self x) r.
Lemma ns_run_op x o : hok_ns x -> hok_ns (run_op ns_arr x o) /\ match o with Do _ => step_ns (h_heap x) (h_self x) (h_heap (run_op ns_arr x o)) (h_self (run_op ns_arr x o)) | _ => True end.
Proof.
  intros (O & V). destruct o as [e|k i v]; unfold run_op.
  - pose proof (ns_ok e _ _ O) as H. destruct (ns_arr e (h_heap x) (h_self x)) as [[h1 s1] o1]. destruct H as (O1 & S1 & V1). unfold hok_ns, h_heap, h_self, h_outs in *; simpl. split; [split; auto|exact S1].
    intros r R. apply in_app_iff in R. destruct R as [R|R]; [|auto]. destruct (V r R) as (Vr & Dr). destruct S1 as (L & B & _). unfold valid in Vr. split; [unfold valid; lia|]. intros Eb. destruct B as [B|B]; [apply Dr; congruence|lia].
  - split; [|exact I]. unfold hok_ns, h_heap, h_self, h_outs in *; simpl. destruct (nth_error (snd x) k) as [r|]; [|auto]. destruct O as (A & B & C & D). split; [split; [exact A|split; [now apply put_valid|split; [now apply put_valid|exact D]]]|].
    intros r' R'. destruct (V r' R') as (Vr & Dr). split; [now apply put_valid|exact Dr].
Qed.
Lemma ns_run ops : forall x, hok_ns x -> hok_ns (run ns_arr ops x).
Proof. unfold run. induction ops as [|o ops IH]; intros x H; simpl; auto. apply IH. now apply ns_run_op. Qed.
Lemma ns_later es r : forall x, hok_ns x -> safe (h_heap x) (h_self x) r -> read (h_heap (run ns_arr (map Do es) x)) r = read (h_heap x) r.
Proof.
  unfold run. induction es as [|e es IH]; intros x H S0; auto. cbn [map fold_left]. destruct (ns_run_op x (Do e) H) as (H1 & _ & _ & K). destruct (K r S0) as (S1 & R1). rewrite IH; auto.
Qed.
Lemma ns_keeps_most points ops es r : let x := run ns_arr ops (made (ns_made points)) in let y := run ns_arr (map Do es) x in
  In r (h_outs x) -> length (read (h_heap x) r) <> 1%nat -> read (h_heap y) r = read (h_heap x) r.
Proof.
  intros x y R N. assert (H : hok_ns x). { apply ns_run. split; [|intros ? []]. unfold ns_made, made, ok_ns, valid, h_heap, h_self; simpl. repeat split; try lia. }
  apply ns_later; auto. destruct H as ((A & _) & V). destruct (V r R) as (Vr & Dr). split; auto. destruct (Nat.eq_dec (a_buf r) (a_buf (n_live (h_self x)))) as [Eb|Nb]; [right|now left]. specialize (Dr Eb).
  revert N. unfold read. destruct (nth_error (h_heap x) (a_buf r)); [|reflexivity]. destruct (a_row r) as [k|]; [|congruence]. destruct (nth_error b k); [simpl; lia|reflexivity].
Qed.
