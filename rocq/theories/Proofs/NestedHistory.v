(** Invariants of nested sampling over all histories. *)
From Coq Require Import List Bool Arith Lia QArith Lqa.
Import ListNotations.
From Verif Require Import Prelude.Py Prelude.QBase Prelude.QFacts Prelude.ListFacts Model.Base Model.Nested Spec.Box Spec.SortedSpec
  Proofs.MHProofs Proofs.NestedProofs.
Open Scope Q_scope.

(** Well-formed operations: draws have the dimension of the space, resets draw N unit rows. *)
Definition repl_ok (d : nat) (ev : repl) : Prop :=
  length (rp_first ev) = d /\ Forall (fun dt => length (fst dt) = d) (rp_redraws ev).
Definition start_ok (P : ns_params) (us : list vec) : Prop :=
  length us = ns_N P /\ (0 < ns_N P)%nat /\ Forall (unit_row (length (ns_lo P))) us.
Definition ns_op_ok (P : ns_params) (o : ns_op) : Prop :=
  match o with
  | NsCall _ _ _ tape _ => Forall (repl_ok (length (ns_lo P))) tape
  | NsReset us => start_ok P us
  | _ => True
  end.
(** No search for a replacement is cut off by the clock. *)
Definition repl_timely (timeout : Q) (ev : repl) : Prop := Forall (fun dt => snd dt < timeout) (rp_redraws ev).
Definition ns_timely (o : ns_op) : Prop :=
  match o with NsCall _ _ timeout tape _ => 0 < timeout /\ Forall (repl_timely timeout) tape | _ => True end.
(** All calls are for the target [pi]. *)
Definition ns_target (T : (vec -> Q) -> Prop) (o : ns_op) : Prop :=
  match o with NsCall pi _ _ _ _ => T pi | _ => True end.

Definition same_core (a b : nst) : Prop :=
  ns_live b = ns_live a /\ ns_view b = ns_view a /\ ns_rows b = ns_rows a /\ ns_L b = ns_L a /\
  ns_pi_evals b = ns_pi_evals a /\ ns_seen b = ns_seen a.
Lemma same_core_samples a b : same_core a b -> ns_samples b = ns_samples a.
Proof. intros (A & B & C & _). unfold ns_samples. now rewrite A, B, C. Qed.
Lemma same_data_core a b : same_data a b -> same_core a b.
Proof. unfold same_data, same_core. tauto. Qed.

(** General induction: an invariant of the loop is an invariant of histories. *)
Lemma run_state P o s s' : (nested_run P o s = Done s' \/ exists e, nested_run P o s = Failed e s') ->
  s' = out_state (nested_run P o s) /\ (forall t, nested_run P o s <> Running t).
Proof. intros [E|(e & E)]; rewrite E; split; auto; discriminate. Qed.

Lemma history_inv P us (I : nst -> Prop) (K : ns_op -> Prop) :
  start_ok P us ->
  (forall us', start_ok P us' -> I (ns_new P us')) ->
  (forall a b, same_core a b -> I a -> I b) ->
  (forall s, I s -> I (ns_begin s)) ->
  (forall pi n timeout tape pick, K (NsCall pi n timeout tape pick) -> Forall (repl_ok (length (ns_lo P))) tape ->
     forall a b, length (ns_live a) = ns_N P ->
     I a -> one P pi timeout tape (fun g big c => g = seq 0 (ns_N P) /\ big = true /\ c = nested_cand) a b -> I b) ->
  forall ops s, Forall (ns_op_ok P) ops -> Forall K ops -> nested_reachable P us ops s -> I s /\ length (ns_live s) = ns_N P.
Proof.
  intros S0 HN HS HB H1 ops s OK KK R.
  assert (NEW : forall us', start_ok P us' -> length (ns_live (ns_new P us')) = ns_N P).
  { intros us' (A & B & _). simpl. now rewrite map_length. }
  induction R as [|o ops s s' R IH H]; [split; auto|].
  inversion OK as [|? ? OK1 OK2]; subst. inversion KK as [|? ? KK1 KK2]; subst. destruct (IH OK2 KK2) as (IS & LS). clear IH.
  destruct (run_state _ _ _ _ H) as (-> & NR). clear H. destruct o as [pi n timeout tape pick|pick m|pick|us']; cbn [nested_run] in *.
  - assert (NE : ns_live s <> []). { destruct S0 as (_ & S1 & _). destruct (ns_live s); simpl in *; [lia|discriminate]. }
    destruct (nested_call_done P pi n timeout tape pick s _ NE eq_refl NR) as (s1 & M & SD & LL & _).
    assert (IS1 : I s1).
    { assert (GEN : forall m a b, many (one P pi timeout tape (fun g b c => g = all_live s /\ b = true /\ c = nested_cand)) m a b ->
        length (ns_live a) = ns_N P -> I a -> I b).
      { clear M. induction 1 as [|m a b c O M IH]; auto. intros LA IA. apply IH; [rewrite (one_live _ _ O); auto|].
        apply (H1 pi n timeout tape pick KK1 OK1 a b); auto.
        unfold all_live in O. now rewrite LS in O. }
      apply (GEN _ _ _ M); auto. }
    split.
    + apply (HS s1); auto. now apply same_data_core.
    + destruct SD as (-> & _). lia.
  - destruct (sample_same P pick m s) as (s' & -> & A). split; [apply (HS s); auto; exact A|]. destruct A as (-> & _). auto.
  - destruct (query_same P pick s) as (s' & -> & A). split; [apply (HS s); auto; exact A|]. destruct A as (-> & _). auto.
  - split; [apply (HN us'); auto|]. apply (NEW us'); auto.
Qed.

Lemma booked_core a b : same_core a b -> booked a -> booked b.
Proof.
  intros H (A & B & C). pose proof (same_core_samples _ _ H) as S1. destruct H as (E1 & E2 & E3 & E4 & E5 & E6).
  unfold booked. rewrite S1, E4, E5, E6, E2, E1. auto.
Qed.
Lemma booked_new P us : booked (ns_new P us).
Proof. repeat split. discriminate. Qed.

Lemma booked_reachable P us : start_ok P us -> forall ops s, Forall (ns_op_ok P) ops -> nested_reachable P us ops s ->
  booked s /\ length (ns_live s) = ns_N P.
Proof.
  intros S0 ops s OK R. apply (history_inv P us booked (fun _ => True)) with (ops := ops); auto.
  - intros; apply booked_new.
  - apply booked_core.
  - apply booked_begin.
  - intros pi n timeout tape pick _ _ a b _ B O. exact (one_booked _ _ B O).
  - apply Forall_forall; auto.
Qed.

(** order and attachment of the likelihoods *)
Definition sorted_inv (pi : vec -> Q) (s : nst) : Prop :=
  booked s /\ (forall l x, In l (ns_L s) -> In x (ns_live s) -> l <= pi x) /\ non_decreasing (ns_L s) /\
  (forall i, (1 <= i < length (ns_L s))%nat -> nth i (ns_L s) 0 = pi (nth i (ns_samples s) [])).

Lemma non_decreasing_snoc l v : non_decreasing l -> (forall x, In x l -> x <= v) -> non_decreasing (l ++ [v]).
Proof.
  intros H1 H2 i j IJ L. rewrite app_length in L. simpl in L.
  destruct (Nat.eq_dec j (length l)) as [->|N].
  - rewrite (app_nth2 l [v] 0 (n := length l)) by lia. rewrite Nat.sub_diag. simpl.
    destruct (Nat.eq_dec i (length l)) as [->|N']; [rewrite app_nth2, Nat.sub_diag by lia; simpl; lra|].
    rewrite app_nth1 by lia. apply H2. apply nth_In. lia.
  - rewrite !app_nth1 by lia. apply H1; lia.
Qed.

Lemma in_upd {A} (l : list A) k y x : In x (upd l k y) -> In x l \/ x = y.
Proof.
  revert k. induction l as [|a l IH]; intros [|k]; simpl; auto; intros [H|H]; auto.
  destruct (IH _ H); auto.
Qed.

Lemma one_sorted P pi timeout tape N a b :
  0 < timeout -> Forall (repl_timely timeout) tape -> length (ns_live a) = N ->
  sorted_inv pi a -> one P pi timeout tape (fun g big c => g = seq 0 N /\ big = true /\ c = nested_cand) a b -> sorted_inv pi b.
Proof.
  intros T TL LA (B & LO & SO & AT) O. pose proof (one_booked _ _ B O) as B'.
  pose proof (one_L _ _ O) as LL. pose proof (one_samples _ _ O) as (x & SX).
  destruct O as (ev & g & c & big & k & y & seen & IE & (-> & -> & ->) & F & SF).
  set (v := pi (nth k (ns_live a) [])) in *.
  assert (FIT : v <= pi y).
  { apply (sf_fits _ _ _ _ _ _ _ _ _ _ _ _ SF); auto. rewrite Forall_forall in TL. apply (TL ev IE). }
  assert (KL : (k < length (ns_live a))%nat). { rewrite Forall_forall in F. apply F, (sf_in _ _ _ _ _ _ _ _ _ _ _ _ SF). }
  assert (MIN : forall z, In z (ns_live a) -> v <= pi z).
  { intros z Hz. apply In_nth with (d := []) in Hz. destruct Hz as (i & Li & <-).
    apply (sf_min _ _ _ _ _ _ _ _ _ _ _ _ SF). apply in_seq. lia. }
  assert (LV : forall l, In l (ns_L a) -> l <= v). { intros l Hl. apply LO; auto. apply nth_In; auto. }
  pose proof (sf_L _ _ _ _ _ _ _ _ _ _ _ _ SF) as EL. pose proof (sf_live _ _ _ _ _ _ _ _ _ _ _ _ SF) as EV.
  fold v in EL. split; [exact B'|]. split; [|split].
  - intros l z Hl Hz. rewrite EL in Hl. rewrite EV in Hz. apply in_app_iff in Hl.
    assert (l <= v). { destruct Hl as [Hl|[<-|[]]]; [auto|lra]. }
    destruct (in_upd _ _ _ _ Hz) as [Hz'| ->]; [|lra]. specialize (MIN _ Hz'). lra.
  - rewrite EL. apply non_decreasing_snoc; auto.
  - intros i Hi. rewrite LL in Hi. destruct B as (BL & _). rewrite EL.
    destruct (ns_samples a) as [|r0 rs] eqn:SS; [simpl in BL; lia|].
    destruct (sf_later _ _ _ _ _ _ _ _ _ _ _ _ SF) as (_ & S2); [congruence|]. rewrite S2.
    destruct (Nat.eq_dec i (length (ns_L a))) as [->|N1].
    + rewrite app_nth2, Nat.sub_diag by lia. rewrite SS, BL, app_nth2, Nat.sub_diag by lia. reflexivity.
    + rewrite !app_nth1 by (rewrite ?SS; lia). rewrite SS. apply AT. lia.
Qed.

Lemma sorted_reachable P us pi : start_ok P us -> forall ops s, Forall (ns_op_ok P) ops ->
  Forall (fun o => ns_timely o /\ ns_target (eq pi) o) ops -> nested_reachable P us ops s -> sorted_inv pi s.
Proof.
  intros S0 ops s OK KK R. apply (history_inv P us (sorted_inv pi) (fun o => ns_timely o /\ ns_target (eq pi) o)) with (ops := ops); auto.
  - intros us' _. split; [apply booked_new|]. split; [intros ? ? []|]. split; [intros i j _ L; simpl in L; lia|simpl; intros; lia].
  - intros a b H (B & LO & SO & AT). pose proof (same_core_samples _ _ H) as S1. split; [now apply (booked_core a)|].
    destruct H as (E1 & E2 & E3 & E4 & E5 & E6). rewrite E4, E1, S1. auto.
  - intros a (B & LO & SO & AT). split; [now apply booked_begin|]. split; [exact LO|]. split; [exact SO|exact AT].
  - intros pi' n timeout tape pick ((T & TL) & <-) _ a b LA. apply one_sorted; auto.
Qed.

(** confinement *)
Definition confined (P : ns_params) (s : nst) : Prop :=
  Forall (in_box (ns_lo P) (ns_hi P)) (ns_live s) /\ Forall (in_box (ns_lo P) (ns_hi P)) (ns_samples s) /\
  (forall k, ns_view s = Some k -> (k < length (ns_live s))%nat).

Lemma in_box_length lo hi x : in_box lo hi x -> length x = length lo.
Proof. revert hi x. induction lo as [|l lo IH]; intros [|h hi] [|a x]; simpl; try easy. intros (_ & _ & H). f_equal. eauto. Qed.

Lemma forall_upd {A} (Q : A -> Prop) l k y : Forall Q l -> Q y -> Forall Q (upd l k y).
Proof. intros H Hy. apply Forall_forall. intros x Hx. destruct (in_upd _ _ _ _ Hx) as [I| ->]; auto. rewrite Forall_forall in H; auto. Qed.

(** A step keeps everything in the box if its new point is in the box. *)
Lemma one_confined_if P pi timeout tape (G : list nat -> bool -> (nst -> repl -> vec -> vec) -> Prop) a b :
  confined P a ->
  (forall ev g c big k y seen, In ev tape -> G g big c -> step_facts P pi timeout g (c a ev) big ev a b k y seen -> in_box (ns_lo P) (ns_hi P) y) ->
  one P pi timeout tape G a b -> confined P b.
Proof.
  intros (C1 & C2 & C3) H (ev & g & c & big & k & y & seen & IE & GG & F & SF).
  specialize (H _ _ _ _ _ _ _ IE GG SF).
  assert (KL : (k < length (ns_live a))%nat). { rewrite Forall_forall in F. apply F, (sf_in _ _ _ _ _ _ _ _ _ _ _ _ SF). }
  split; [|split].
  - rewrite (sf_live _ _ _ _ _ _ _ _ _ _ _ _ SF). now apply forall_upd.
  - destruct (ns_samples a) as [|r0 rs] eqn:SS.
    + destruct (sf_first _ _ _ _ _ _ _ _ _ _ _ _ SF SS) as (_ & ->). auto.
    + destruct (sf_later _ _ _ _ _ _ _ _ _ _ _ _ SF) as (_ & ->); [congruence|]. rewrite SS. apply Forall_app. split; auto.
      constructor; auto. rewrite Forall_forall in C1. apply C1, nth_In; auto.
  - intros k' E. rewrite (sf_live _ _ _ _ _ _ _ _ _ _ _ _ SF), upd_length.
    destruct (ns_samples a) as [|r0 rs] eqn:SS.
    + destruct (sf_first _ _ _ _ _ _ _ _ _ _ _ _ SF SS) as (V & _). rewrite V in E. inversion E; subst; auto.
    + destruct (sf_later _ _ _ _ _ _ _ _ _ _ _ _ SF) as (V & _); congruence.
Qed.

Lemma confined_new P us : is_box (ns_lo P) (ns_hi P) -> Forall (unit_row (length (ns_lo P))) us -> confined P (ns_new P us).
Proof.
  intros B F. split; [|split; [constructor|discriminate]]. simpl. rewrite Forall_map. eapply Forall_impl; [|exact F].
  intros u Hu. now apply scale_in_box.
Qed.
Lemma confined_core P a b : same_core a b -> confined P a -> confined P b.
Proof.
  intros H (C1 & C2 & C3). pose proof (same_core_samples _ _ H) as S1. destruct H as (E1 & E2 & _).
  unfold confined. rewrite S1, E1, E2. auto.
Qed.

Lemma nth_live_length P s i : Forall (in_box (ns_lo P) (ns_hi P)) (ns_live s) -> (0 < length (ns_live s))%nat ->
  length (nth (i mod length (ns_live s)) (ns_live s) []) = length (ns_lo P).
Proof.
  intros F L. rewrite Forall_forall in F. apply (in_box_length (ns_lo P) (ns_hi P)). apply F, nth_In, Nat.mod_upper_bound. lia.
Qed.

Lemma vadd_length x y : length x = length y -> length (vadd x y) = length x.
Proof. unfold vadd. intros H. now rewrite map2_length. Qed.

(** The target vanishes outside the space. *)
Definition inside_only (P : ns_params) (pi : vec -> Q) : Prop :=
  (forall x, 0 <= pi x) /\ (forall x, 0 < pi x -> in_box (ns_lo P) (ns_hi P) x).

Lemma nested_confined P us : is_box (ns_lo P) (ns_hi P) -> start_ok P us -> forall ops s, Forall (ns_op_ok P) ops ->
  Forall (fun o => ns_timely o /\ ns_target (inside_only P) o) ops -> nested_reachable P us ops s -> confined P s.
Proof.
  intros BX S0 ops s OK KK R.
  apply (history_inv P us (confined P) (fun o => ns_timely o /\ ns_target (inside_only P) o)) with (ops := ops); auto.
  - intros us' (_ & _ & F). now apply confined_new.
  - apply confined_core.
  - intros pi n timeout tape pick ((T & TL) & (NN & INS)) RO a b LA C O.
    refine (one_confined_if _ _ _ _ _ _ _ C _ O).
    intros ev g c big k y seen IE (-> & -> & ->) SF. rewrite Forall_forall in RO, TL. destruct (RO ev IE) as (L1 & L2).
    destruct (sf_point _ _ _ _ _ _ _ _ _ _ _ _ SF) as [-> |(_ & LT & _)].
    + apply vclip_in_box; auto. destruct C as (C1 & _). destruct S0 as (_ & S1 & _).
      unfold nested_cand. pose proof (nth_live_length P a (rp_pick ev) C1) as E. rewrite vadd_length; rewrite ?E; lia.
    + apply INS. pose proof (sf_fits _ _ _ _ _ _ _ _ _ _ _ _ SF T (TL ev IE) eq_refl) as FT.
      specialize (NN (vclip (nested_cand a ev (rp_first ev)) (ns_lo P) (ns_hi P))). lra.
Qed.

(** the request *)
Lemma nested_request P us : start_ok P us -> forall ops s, Forall (ns_op_ok P) ops -> nested_reachable P us ops s ->
  forall pi n timeout tape pick s', nested_call P pi n timeout tape pick s = Done s' ->
    length (ns_samples s') = Nat.max n (length (ns_samples s)) /\ (exists added, ns_samples s' = ns_samples s ++ added) /\
    length (ns_live s') = ns_N P.
Proof.
  intros S0 ops s OK R pi n timeout tape pick s' E. destruct (booked_reachable P us S0 ops s OK R) as (B & LS).
  assert (NE : ns_live s <> []). { destruct S0 as (_ & S1 & _). destruct (ns_live s); simpl in *; [lia|discriminate]. }
  destruct (nested_call_done P pi n timeout tape pick s (Done s') NE E) as (s1 & M & SD & LL & _); [discriminate|].
  destruct (many_samples _ _ _ M) as (added & A & LA). rewrite begin_samples in A. simpl in SD.
  rewrite (same_samples _ _ SD), A. split; [|split; [eauto|]].
  - rewrite app_length, LA. lia.
  - destruct SD as (-> & _). lia.
Qed.

Lemma nested_fails P us : start_ok P us -> (0 < ns_kde P)%nat -> forall ops s, Forall (ns_op_ok P) ops -> nested_reachable P us ops s ->
  forall pi n timeout tape pick e s', nested_call P pi n timeout tape pick s = Failed e s' ->
  e = IndexError /\ n = 0%nat /\ ns_samples s = [].
Proof.
  intros S0 K0 ops s OK R pi n timeout tape pick e s' E. destruct (booked_reachable P us S0 ops s OK R) as (B & LS).
  assert (NE : ns_live s <> []). { destruct S0 as (_ & S1 & _). destruct (ns_live s); simpl in *; [lia|discriminate]. }
  destruct (nested_call_done P pi n timeout tape pick s (Failed e s') NE E) as (s1 & M & SD & LL & _ & FI); [discriminate|].
  destruct (many_samples _ _ _ M) as (added & A & LA). rewrite begin_samples in A.
  unfold ns_finish in FI. destruct (ns_samples s1) as [|r rs] eqn:SS.
  - symmetry in A. apply app_eq_nil in A. destruct A as (A1 & A2). rewrite A1, A2 in *. simpl in LA. inversion FI. repeat split. lia.
  - unfold update_model in FI. destruct (ns_kde P); [lia|]. discriminate.
Qed.

(** effort counters of a call *)
Lemma many_counts P pi timeout tape G m a b : many (one P pi timeout tape G) m a b ->
  exists pts, ns_seen b = ns_seen a ++ pts /\ ns_q_samples b = (ns_q_samples a + length pts)%nat /\
              ns_pi_evals b = (ns_pi_evals a + length pts)%nat.
Proof.
  induction 1 as [a|m a b c O M (pts & A & B & C)]; [exists []; rewrite app_nil_r; simpl; auto with arith|].
  destruct O as (ev & g & cd & big & k & y & seen & _ & _ & _ & SF). exists (seen ++ pts).
  rewrite A, B, C, (sf_q _ _ _ _ _ _ _ _ _ _ _ _ SF), (sf_pi _ _ _ _ _ _ _ _ _ _ _ _ SF), (sf_seen _ _ _ _ _ _ _ _ _ _ _ _ SF), app_assoc, app_length.
  repeat split; lia.
Qed.
Lemma nested_effort P us : start_ok P us -> forall ops s, Forall (ns_op_ok P) ops -> nested_reachable P us ops s ->
  ns_pi_evals s = length (ns_seen s) /\
  forall pi n timeout tape pick s', nested_call P pi n timeout tape pick s = Done s' ->
    exists drawn, ns_seen s' = ns_seen s ++ ns_live s ++ drawn /\ ns_q_samples s' = (ns_q_samples s + length drawn)%nat /\
      (n - length (ns_samples s) <= length drawn)%nat.
Proof.
  intros S0 ops s OK R. destruct (booked_reachable P us S0 ops s OK R) as ((_ & B & _) & LS). split; [exact B|].
  intros pi n timeout tape pick s' E.
  assert (NE : ns_live s <> []). { destruct S0 as (_ & S1 & _). destruct (ns_live s); simpl in *; [lia|discriminate]. }
  destruct (nested_call_done P pi n timeout tape pick s (Done s') NE E) as (s1 & M & SD & LL & _); [discriminate|].
  simpl in SD. destruct SD as (_ & _ & _ & _ & _ & E6 & E7).
  assert (C : exists pts, ns_seen s1 = ns_seen (ns_begin s) ++ pts /\ ns_q_samples s1 = (ns_q_samples s + length pts)%nat /\
             (n - length (ns_samples s) <= length pts)%nat).
  { clear E E6 E7 LL. revert M. generalize (n - length (ns_samples s))%nat. intros m M.
    change (ns_q_samples s) with (ns_q_samples (ns_begin s)). revert M. generalize (ns_begin s). intros a M.
    induction M as [a|m a b c O M (pts & A & B1 & C)]; [exists []; rewrite app_nil_r; simpl; auto with arith|].
    destruct O as (ev & g & cd & big & k & y & seen & _ & _ & _ & SF).
    exists (seen ++ pts). rewrite A, B1, (sf_q _ _ _ _ _ _ _ _ _ _ _ _ SF), (sf_seen _ _ _ _ _ _ _ _ _ _ _ _ SF), app_assoc, app_length.
    assert (1 <= length seen)%nat by apply (sf_drawn _ _ _ _ _ _ _ _ _ _ _ _ SF).
    repeat split; lia. }
  destruct C as (pts & A & B1 & C). exists pts. rewrite E6, E7, A. simpl. rewrite <- app_assoc. auto.
Qed.

Definition L_nonneg (s : nst) : Prop := Forall (fun l => 0 <= l) (ns_L s).
Lemma one_L_nonneg P pi timeout tape G a b : (forall x, 0 <= pi x) -> L_nonneg a -> one P pi timeout tape G a b -> L_nonneg b.
Proof.
  intros H F (ev & g & c & big & k & y & seen & _ & _ & _ & SF). unfold L_nonneg. rewrite (sf_L _ _ _ _ _ _ _ _ _ _ _ _ SF).
  apply Forall_app. split; auto.
Qed.
Lemma L_nonneg_reachable P us : start_ok P us -> forall ops s, Forall (ns_op_ok P) ops ->
  Forall (ns_target (fun pi => forall x, 0 <= pi x)) ops -> nested_reachable P us ops s -> L_nonneg s.
Proof.
  intros S0 ops s OK KK R. apply (history_inv P us L_nonneg (ns_target (fun pi => forall x, 0 <= pi x))) with (ops := ops); auto.
  - intros; constructor.
  - intros a b (_ & _ & _ & E & _). unfold L_nonneg. now rewrite E.
  - intros pi n timeout tape pick H _ a b _ F O. exact (one_L_nonneg _ _ _ _ _ _ _ H F O).
Qed.
