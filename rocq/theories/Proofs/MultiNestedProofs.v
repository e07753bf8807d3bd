(** Proofs about the clustering and the calls of multi-nested sampling. *)
From Coq Require Import List Bool Arith Lia QArith Lqa.
Import ListNotations.
From Verif Require Import Prelude.Py Prelude.QBase Prelude.QFacts Prelude.ListFacts Model.Base Model.Nested Spec.Box Spec.PartitionSpec
  Proofs.MHProofs Proofs.NestedProofs Proofs.NestedHistory.
Open Scope Q_scope.

(** The answers of k-means: one label below k per point. *)
Definition labels_ok (npts : nat) (oc : oracle) : Prop :=
  forall k, (0 < k <= npts)%nat -> length (o_labels oc k) = npts /\ Forall (fun l => (l < k)%nat) (o_labels oc k).

Lemma sum_counts k labels : Forall (fun l => (l < k)%nat) labels ->
  list_sum (map (fun i => count_true (cluster_mask labels i)) (seq 0 k)) = length labels.
Proof.
  unfold count_true, cluster_mask. induction labels as [|l r IH]; intros F.
  - simpl. induction (seq 0 k); simpl; auto.
  - inversion F; subst. cbn [map length]. rewrite <- (IH H2). clear IH.
    assert (E : forall is, NoDup is ->
      list_sum (map (fun i => length (filter (fun b : bool => b) ((l =? i)%nat :: map (fun l0 => (l0 =? i)%nat) r))) is) =
      (list_sum (map (fun i => length (filter (fun b : bool => b) (map (fun l0 => (l0 =? i)%nat) r))) is) + (if in_dec Nat.eq_dec l is then 1 else 0))%nat).
    { induction is as [|i is IHi]; intros ND; [reflexivity|]. inversion ND; subst. cbn [map list_sum fold_right].
      fold (list_sum (map (fun i => length (filter (fun b : bool => b) ((l =? i)%nat :: map (fun l0 => (l0 =? i)%nat) r))) is)).
      unfold list_sum in *. cbn [fold_right]. rewrite IHi by auto. cbn [filter]. destruct (Nat.eqb_spec l i) as [-> |N].
      - cbn [length]. destruct (in_dec Nat.eq_dec i is); [contradiction|]. destruct (in_dec Nat.eq_dec i (i :: is)) as [|X]; [lia|exfalso; apply X; now left].
      - destruct (in_dec Nat.eq_dec l is) as [A|A], (in_dec Nat.eq_dec l (i :: is)) as [B|B]; simpl in B; try lia; exfalso; intuition. }
    rewrite E by apply seq_NoDup. destruct (in_dec Nat.eq_dec l (seq 0 k)) as [|X]; [lia|]. exfalso. apply X. apply in_seq. lia.
Qed.

Lemma list_sum_ge (l : list nat) c : Forall (fun x => (c <= x)%nat) l -> (c * length l <= list_sum l)%nat.
Proof. induction 1; simpl; lia. Qed.

Lemma count_true_member m : (0 < count_true m)%nat -> exists i, (i < length m)%nat /\ member m i.
Proof.
  unfold count_true, member. induction m as [|b m IH]; simpl; [lia|]. destruct b.
  - intros _. exists 0%nat. split; [lia|reflexivity].
  - intros H. destruct (IH H) as (i & A & B). exists (S i). split; [lia|exact B].
Qed.

Lemma mask_nth labels j i : (i < length labels)%nat -> nth i (cluster_mask labels j) false = (nth i labels 0 =? j)%nat.
Proof. intros H. unfold cluster_mask. now rewrite (nth_map_in _ labels i false 0%nat). Qed.

Lemma masks_partition npts d k labels : length labels = npts -> Forall (fun l => (l < k)%nat) labels -> (0 < k)%nat ->
  Forall (fun m => (d + 1 <= count_true m)%nat) (map (cluster_mask labels) (seq 0 k)) ->
  partitions npts (map (cluster_mask labels) (seq 0 k)) /\ (k * (d + 1) <= npts)%nat.
Proof.
  intros L F K C. split.
  - split; [destruct k; [lia|discriminate]|]. split.
    + intros m Hm. rewrite Forall_forall in C. pose proof (C m Hm) as CM. apply in_map_iff in Hm. destruct Hm as (j & <- & Hj).
      split; [unfold cluster_mask; now rewrite map_length|].
      destruct (count_true_member _ (ltac:(lia) : (0 < count_true (cluster_mask labels j))%nat)) as (i & A & B).
      exists i. split; auto. unfold cluster_mask in A. rewrite map_length in A. lia.
    + intros i Hi. rewrite map_length, seq_length. rewrite Forall_forall in F.
      assert (LI : (nth i labels 0 < k)%nat) by (apply F, nth_In; lia). exists (nth i labels 0%nat). split; [exact LI|].
      assert (NJ : forall j, (j < k)%nat -> nth j (map (cluster_mask labels) (seq 0 k)) [] = cluster_mask labels j).
      { intros j Hj. rewrite (nth_map_in _ (seq 0 k) j [] 0%nat) by now rewrite seq_length. now rewrite seq_nth. }
      split.
      * unfold member. rewrite NJ by auto. rewrite mask_nth by lia. apply Nat.eqb_refl.
      * intros j' Hj'. unfold member. rewrite NJ by auto. rewrite mask_nth by lia. intros E. apply Nat.eqb_eq in E. auto.
  - rewrite <- L, <- (sum_counts k labels F).
    pose proof (list_sum_ge (map (fun i => count_true (cluster_mask labels i)) (seq 0 k)) (d + 1)) as H.
    rewrite map_length, seq_length in H. rewrite Nat.mul_comm. apply H. rewrite <- (map_map (cluster_mask labels) count_true).
    rewrite Forall_map. exact C.
Qed.

Lemma existsb_false_forall {A} (f : A -> bool) l : existsb f l = false -> Forall (fun x => f x = false) l.
Proof. induction l; simpl; constructor; apply orb_false_iff in H; tauto. Qed.

Lemma clustering_ends npts d oc ratio md : (1 <= d)%nat -> (2 <= npts)%nat -> labels_ok npts oc ->
  forall fuel gs, (npts < fuel + length gs)%nat -> partitions npts (map g_mask gs) ->
  (length gs = 1 \/ length gs * (d + 1) <= npts)%nat ->
  exists gs', clustering fuel npts d oc ratio md gs = Some (Ok gs') /\ partitions npts (map g_mask gs') /\
    (length gs' = 1 \/ Forall (fun g => d + 1 <= count_true (g_mask g))%nat gs' \/ gs' = gs)%nat.
Proof.
  intros D N OK. induction fuel as [|fuel IH]; intros gs FU PA LE.
  - exfalso. assert (0 < length gs)%nat. { destruct PA as (A & _). destruct gs; simpl in *; [congruence|lia]. } nia.
  - assert (K1 : (0 < length gs)%nat). { destruct PA as (A & _). destruct gs; simpl in *; [congruence|lia]. }
    cbn [clustering]. destruct (Nat.ltb_spec npts (S (length gs))) as [BAD|KN]; [exfalso; nia|].
    destruct (existsb _ _) eqn:E0; [exists gs; auto|].
    destruct (fgtQ _ _); [exists gs; auto|]. destruct (Qltb _ _); [exists gs; auto|].
    destruct (OK (S (length gs))) as (L & F); [lia|].
    set (k := S (length gs)) in *. set (masks := map (cluster_mask (o_labels oc k)) (seq 0 k)) in *.
    assert (C : Forall (fun m => (d + 1 <= count_true m)%nat) masks).
    { apply existsb_false_forall in E0. eapply Forall_impl; [|exact E0]. cbv beta. intros m Hm. apply Nat.ltb_ge in Hm. exact Hm. }
    destruct (masks_partition npts d k (o_labels oc k) L F) as (PA' & CNT); [unfold k; lia|exact C|]. fold masks in PA'.
    set (cs := map (fun m => mkGroup m (o_volume oc m)) masks).
    assert (MM : map g_mask cs = masks) by (unfold cs; rewrite map_map; apply map_id).
    assert (LC : length cs = k) by (unfold cs, masks; now rewrite !map_length, seq_length).
    destruct (IH cs) as (gs' & E1 & P1 & C1).
    + rewrite LC. unfold k. lia.
    + now rewrite MM.
    + right. now rewrite LC.
    + exists gs'. split; [exact E1|]. split; [exact P1|]. destruct C1 as [?|[?| ->]]; auto. right; left.
      unfold cs. rewrite Forall_map. exact C.
Qed.

Lemma all_true_partition n : (0 < n)%nat -> partitions n [repeat true n].
Proof.
  intros H. split; [discriminate|]. split.
  - intros m [<-|[]]. split; [apply repeat_length|]. exists 0%nat. split; [exact H|]. unfold member. destruct n; [lia|reflexivity].
  - intros i Hi. exists 0%nat. split; [simpl; lia|]. split.
    + unfold member. simpl. rewrite nth_indep with (d' := true) by now rewrite repeat_length. apply nth_repeat.
    + simpl. intros. lia.
Qed.

Lemma cluster_all_ok npts d oc ratio md : (1 <= d)%nat -> (d <= npts)%nat -> (2 <= npts)%nat -> labels_ok npts oc ->
  forall fuel, (npts <= fuel)%nat ->
  exists gs, cluster_all fuel npts d oc ratio md = Some (Ok gs) /\ partitions npts (map g_mask gs) /\
    (length gs = 1 \/ Forall (fun g => d + 1 <= count_true (g_mask g))%nat gs)%nat.
Proof.
  intros D DN N OK fuel FU. unfold cluster_all. destruct (Nat.ltb_spec npts d); [lia|].
  destruct (clustering_ends npts d oc ratio md D N OK fuel [mkGroup (repeat true npts) (o_volume oc (repeat true npts))]) as (gs & A & B & C).
  - simpl. lia.
  - simpl. apply all_true_partition. lia.
  - now left.
  - exists gs. split; [exact A|]. split; [exact B|]. destruct C as [|[| ->]]; auto.
Qed.

(** positions of a mask *)
Lemma mask_positions_in m i : In i (mask_positions m) <-> (i < length m)%nat /\ member m i.
Proof. unfold mask_positions. rewrite filter_In, in_seq. unfold member. intuition lia. Qed.

Definition from_group (gs : list group) (r : Q) (g : list nat) (b : bool) (c : nst -> repl -> vec -> vec) : Prop :=
  exists gr, In gr gs /\ g = mask_positions (g_mask gr) /\ b = Qltb r (g_vol gr) /\ c = multi_cand.

Lemma groups_done P pi timeout m : forall gs tape s values s',
  (forall gr, In gr gs -> length (g_mask gr) = length (ns_live s) /\ exists i, (i < length (ns_live s))%nat /\ member (g_mask gr) i) ->
  values = map pi (ns_live s) ->
  multi_groups P pi timeout m gs tape s values = Done s' ->
  many (one P pi timeout tape (from_group gs (ns_radius P))) (length gs * m) s s' /\ length (ns_live s') = length (ns_live s).
Proof.
  induction gs as [|gr gs IH]; intros tape s values s' V E; cbn [multi_groups].
  - intros H. inversion H; subst. split; [constructor|reflexivity].
  - destruct (ns_for _ _ _ _ _ _ _ _ _ _) as [[[s1|s1|e s1] v1] t1] eqn:F; try discriminate. intros H.
    destruct (V gr) as (LG & i & LI & MI); [now left|].
    assert (NE : mask_positions (g_mask gr) <> []).
    { intros X. assert (In i (mask_positions (g_mask gr))) by (apply mask_positions_in; split; [lia|auto]). rewrite X in H0. destruct H0. }
    destruct (for_done P pi timeout _ multi_cand (Qltb (ns_radius P) (g_vol gr)) NE m tape s values s1 v1 t1) as (V1 & L1 & (used & U) & M1); auto.
    { apply Forall_forall. intros j Hj. apply mask_positions_in in Hj. lia. }
    destruct (IH t1 s1 v1 s') as (M2 & L2); auto.
    { intros gr' I. rewrite L1. apply V. now right. }
    split; [|lia]. simpl. apply many_app with s1.
    + eapply many_mono; [|exact M1]. intros a b (ev & g & c & bg & k & y & seen & I & (-> & -> & ->) & R).
      exists ev, (mask_positions (g_mask gr)), multi_cand, (Qltb (ns_radius P) (g_vol gr)), k, y, seen. split; [exact I|]. split; [|exact R].
      exists gr. simpl; auto.
    + eapply many_mono; [|exact M2]. intros a b (ev & g & c & bg & k & y & seen & I & (gr' & I' & R') & R).
      exists ev, g, c, bg, k, y, seen. split; [rewrite U; apply in_app_iff; now right|]. split; [|exact R].
      exists gr'. simpl; auto.
Qed.

Lemma partition_groups n gs : partitions n (map g_mask gs) -> forall gr, In gr gs -> length (g_mask gr) = n /\ exists i, (i < n)%nat /\ member (g_mask gr) i.
Proof. intros (_ & H & _) gr I. apply H. now apply in_map. Qed.

(** a call that returns *)
Lemma groups_not_failed P pi timeout m : forall gs tape s values e s',
  (forall gr, In gr gs -> mask_positions (g_mask gr) <> []) -> multi_groups P pi timeout m gs tape s values <> Failed e s'.
Proof.
  induction gs as [|gr gs IH]; intros tape s values e s' V; cbn [multi_groups]; [discriminate|].
  destruct (ns_for _ _ _ _ _ _ _ _ _ _) as [[[s1|s1|e1 s1] v1] t1] eqn:F.
  - apply IH. intros; apply V; now right.
  - discriminate.
  - exfalso. assert (NE := V gr (or_introl eq_refl)). clear IH V. revert F NE. generalize (mask_positions (g_mask gr)). intros g F NE. revert tape s values F.
    induction m as [|m IHm]; intros tape s values; cbn [ns_for]; [discriminate|].
    destruct tape as [|ev t]; [discriminate|]. unfold ns_iter. destruct g as [|g0 gr0]; [congruence|].
    destruct (ns_search _ _ _ _ _ _ _ _) as [[y|] seen]; [apply IHm|discriminate].
Qed.

Lemma multi_call_done P oc pi n timeout tape pick s o :
  (1 <= length (ns_lo P) <= length (ns_live s))%nat -> (2 <= length (ns_live s))%nat -> labels_ok (length (ns_live s)) oc ->
  multi_call P oc pi n timeout tape pick s = o -> (forall s', o <> Running s') ->
  exists gs s1, partitions (length (ns_live s)) (map g_mask gs) /\
    many (one P pi timeout tape (from_group gs (ns_radius P)))
         (length gs * Nat.max ((n - length (ns_samples s)) / length gs) 1) (ns_begin s) s1 /\
    same_data s1 (out_state o) /\ length (ns_live s1) = length (ns_live s) /\ ns_finish P pick s1 = o.
Proof.
  intros D N OK. unfold multi_call.
  destruct (cluster_all_ok (length (ns_live s)) (length (ns_lo P)) oc (4#5) (1#5) (proj1 D) (proj2 D) N OK (S (length (ns_live s)))) as (gs & E & PA & _); [lia|].
  rewrite E. destruct (multi_groups _ _ _ _ _ _ _ _) as [s1|s1|e s1] eqn:G; intros <- NR.
  - destruct (groups_done P pi timeout (Nat.max ((n - length (ns_samples s)) / length gs) 1) gs tape (ns_begin s) (map pi (ns_live s)) s1) as (M & LL); auto.
    { exact (partition_groups _ _ PA). }
    exists gs, s1. split; [exact PA|]. split; [exact M|]. destruct (finish_cases P pick s1 _ eq_refl) as [(e & ->)|(md & E1 & NE & U)].
    + repeat split; auto.
    + rewrite E1. repeat split; auto.
  - exfalso. now apply (NR s1).
  - exfalso. apply groups_not_failed in G; auto. intros gr I X. destruct (partition_groups _ _ PA gr I) as (A & i & B & C).
    assert (In i (mask_positions (g_mask gr))) by (apply mask_positions_in; split; [lia|auto]). rewrite X in H. destruct H.
Qed.

(** histories *)
Definition mn_op_ok (P : ns_params) (o : mn_op) : Prop :=
  match o with
  | MnCall oc _ _ _ tape _ => labels_ok (ns_N P) oc /\ Forall (repl_ok (length (ns_lo P))) tape
  | MnReset us => start_ok P us
  | _ => True
  end.
Definition mn_timely (o : mn_op) : Prop :=
  match o with MnCall _ _ _ timeout tape _ => 0 < timeout /\ Forall (repl_timely timeout) tape | _ => True end.
Definition mn_target (T : (vec -> Q) -> Prop) (o : mn_op) : Prop :=
  match o with MnCall _ pi _ _ _ _ => T pi | _ => True end.
Definition mn_ready (P : ns_params) : Prop := (1 <= length (ns_lo P) <= ns_N P)%nat /\ (2 <= ns_N P)%nat.

Lemma multi_history_inv P us (I : nst -> Prop) (K : mn_op -> Prop) :
  mn_ready P -> start_ok P us ->
  (forall us', start_ok P us' -> I (ns_new P us')) ->
  (forall a b, same_core a b -> I a -> I b) ->
  (forall s, I s -> I (ns_begin s)) ->
  (forall oc pi n timeout tape pick gs r, K (MnCall oc pi n timeout tape pick) -> Forall (repl_ok (length (ns_lo P))) tape ->
     forall a b, length (ns_live a) = ns_N P -> I a -> one P pi timeout tape (from_group gs r) a b -> I b) ->
  forall ops s, Forall (mn_op_ok P) ops -> Forall K ops -> multi_reachable P us ops s -> I s /\ length (ns_live s) = ns_N P.
Proof.
  intros RD S0 HN HS HB H1 ops s OK KK R.
  assert (NEW : forall us', start_ok P us' -> length (ns_live (ns_new P us')) = ns_N P).
  { intros us' (A & B & _). simpl. now rewrite map_length. }
  induction R as [|o ops s s' R IH H]; [split; auto|].
  inversion OK as [|? ? OK1 OK2]; subst. inversion KK as [|? ? KK1 KK2]; subst. destruct (IH OK2 KK2) as (IS & LS). clear IH.
  assert (RS : s' = out_state (multi_run P o s) /\ (forall t, multi_run P o s <> Running t)).
  { destruct H as [E|(e & E)]; rewrite E; split; auto; discriminate. }
  destruct RS as (-> & NR). clear H. destruct o as [oc pi n timeout tape pick|pick m|pick|us']; cbn [multi_run] in *.
  - destruct OK1 as (LO & RO). destruct RD as (D & N2). rewrite <- LS in D, N2, LO.
    destruct (multi_call_done P oc pi n timeout tape pick s _ D N2 LO eq_refl NR) as (gs & s1 & _ & M & SD & LL & _).
    assert (IS1 : I s1).
    { revert M. generalize (length gs * Nat.max ((n - length (ns_samples s)) / length gs) 1)%nat. intros m M.
      assert (LB : length (ns_live (ns_begin s)) = ns_N P) by exact LS. apply HB in IS. revert LB IS. clear - H1 KK1 RO M.
      induction M as [|m a b c O M IH]; auto. intros LA IA. apply IH; [rewrite (one_live _ _ O); auto|].
      exact (H1 oc pi n timeout tape pick gs (ns_radius P) KK1 RO a b LA IA O). }
    split.
    + apply (HS s1); auto. now apply same_data_core.
    + destruct SD as (-> & _). lia.
  - destruct (sample_same P pick m s) as (s' & -> & A). split; [apply (HS s); auto; exact A|]. destruct A as (-> & _). auto.
  - destruct (query_same P pick s) as (s' & -> & A). split; [apply (HS s); auto; exact A|]. destruct A as (-> & _). auto.
  - split; [apply (HN us'); auto|]. apply (NEW us'); auto.
Qed.

Lemma multi_booked P us : mn_ready P -> start_ok P us -> forall ops s, Forall (mn_op_ok P) ops -> multi_reachable P us ops s ->
  booked s /\ length (ns_live s) = ns_N P.
Proof.
  intros RD S0 ops s OK R. apply (multi_history_inv P us booked (fun _ => True)) with (ops := ops); auto.
  - intros; apply booked_new.
  - apply booked_core.
  - apply booked_begin.
  - intros oc pi n timeout tape pick gs r _ _ a b _ B O. exact (one_booked _ _ B O).
  - apply Forall_forall; auto.
Qed.

Lemma multi_confined P us : mn_ready P -> is_box (ns_lo P) (ns_hi P) -> start_ok P us -> forall ops s, Forall (mn_op_ok P) ops ->
  Forall (fun o => mn_timely o /\ mn_target (inside_only P) o) ops -> multi_reachable P us ops s -> confined P s.
Proof.
  intros RD BX S0 ops s OK KK R.
  apply (multi_history_inv P us (confined P) (fun o => mn_timely o /\ mn_target (inside_only P) o)) with (ops := ops); auto.
  - intros us' (_ & _ & F). now apply confined_new.
  - apply confined_core.
  - intros oc pi n timeout tape pick gs r ((T & TL) & (NN & INS)) RO a b LA C O.
    refine (one_confined_if _ _ _ _ _ _ _ C _ O).
    intros ev g c big k y seen IE (gr & IG & -> & -> & ->) SF. rewrite Forall_forall in RO, TL. destruct (RO ev IE) as (L1 & L2).
    destruct (sf_point _ _ _ _ _ _ _ _ _ _ _ _ SF) as [-> |(BG & LT & _)].
    + apply vclip_in_box; auto.
    + apply INS. pose proof (sf_fits _ _ _ _ _ _ _ _ _ _ _ _ SF T (TL ev IE) BG) as FT.
      specialize (NN (vclip (multi_cand a ev (rp_first ev)) (ns_lo P) (ns_hi P))). lra.
Qed.

(** attachment of the likelihoods (all but the first) *)
Definition attached (pi : vec -> Q) (s : nst) : Prop :=
  booked s /\ (forall i, (1 <= i < length (ns_L s))%nat -> nth i (ns_L s) 0 = pi (nth i (ns_samples s) [])).
Lemma one_attached P pi timeout tape G a b : attached pi a -> one P pi timeout tape G a b -> attached pi b.
Proof.
  intros (B & AT) O. pose proof (one_booked _ _ B O) as B'. pose proof (one_L _ _ O) as LL.
  destruct O as (ev & g & c & big & k & y & seen & IE & _ & F & SF). split; [exact B'|].
  intros i Hi. rewrite LL in Hi. destruct B as (BL & _). rewrite (sf_L _ _ _ _ _ _ _ _ _ _ _ _ SF).
  destruct (ns_samples a) as [|r0 rs] eqn:SS; [simpl in BL; lia|].
  destruct (sf_later _ _ _ _ _ _ _ _ _ _ _ _ SF) as (_ & S2); [congruence|]. rewrite S2.
  destruct (Nat.eq_dec i (length (ns_L a))) as [-> |N1].
  + rewrite app_nth2, Nat.sub_diag by lia. rewrite SS, BL, app_nth2, Nat.sub_diag by lia. reflexivity.
  + rewrite !app_nth1 by (rewrite ?SS; lia). rewrite SS. apply AT. lia.
Qed.
Lemma multi_attached P us pi : mn_ready P -> start_ok P us -> forall ops s, Forall (mn_op_ok P) ops ->
  Forall (mn_target (eq pi)) ops -> multi_reachable P us ops s -> attached pi s.
Proof.
  intros RD S0 ops s OK KK R. apply (multi_history_inv P us (attached pi) (mn_target (eq pi))) with (ops := ops); auto.
  - intros us' _. split; [apply booked_new|]. simpl. intros; lia.
  - intros a b H (B & AT). pose proof (same_core_samples _ _ H) as S1. split; [now apply (booked_core a)|].
    destruct H as (E1 & E2 & E3 & E4 & E5 & E6). rewrite E4, S1. auto.
  - intros a (B & AT). split; [now apply booked_begin|exact AT].
  - intros oc pi' n timeout tape pick gs r <- _ a b LA. apply one_attached.
Qed.

(** number of samples of a call *)
Lemma multi_request P us : mn_ready P -> start_ok P us -> forall ops s, Forall (mn_op_ok P) ops -> multi_reachable P us ops s ->
  forall oc pi n timeout tape pick s', labels_ok (ns_N P) oc -> multi_call P oc pi n timeout tape pick s = Done s' ->
    length (ns_live s') = ns_N P /\
    exists added k, ns_samples s' = ns_samples s ++ added /\ (0 < k)%nat /\
      length added = (k * Nat.max ((n - length (ns_samples s)) / k) 1)%nat.
Proof.
  intros RD S0 ops s OK R oc pi n timeout tape pick s' LO E. destruct (multi_booked P us RD S0 ops s OK R) as (B & LS).
  destruct RD as (D & N2). rewrite <- LS in D, N2, LO.
  destruct (multi_call_done P oc pi n timeout tape pick s (Done s') D N2 LO E) as (gs & s1 & PA & M & SD & LL & _); [discriminate|].
  destruct (many_samples _ _ _ M) as (added & A & LA). rewrite begin_samples in A. simpl in SD. split.
  - destruct SD as (-> & _). lia.
  - exists added, (length gs). rewrite (same_samples _ _ SD), A. split; [reflexivity|]. split; [|exact LA].
    destruct PA as (NE & _). destruct gs; [now elim NE|simpl; lia].
Qed.
