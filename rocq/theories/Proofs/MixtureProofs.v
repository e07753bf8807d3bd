(** Lemmas about mixture distributions. *)
From Coq Require Import List Bool Arith Lia QArith Lqa.
Import ListNotations.
From Verif Require Import Prelude.Py Prelude.QBase Prelude.QFacts Prelude.ListFacts Model.Mixture
  Spec.WeightSpec.
Open Scope Q_scope.

(** ** set_weights *)
Definition clean (w : fl Q) : Q := match w with Fin a => if Qle_bool a 0 then 0 else a | _ => 0 end.

Lemma total_Qsum l : total l = Qsum l.
Proof. induction l; simpl; congruence. Qed.

Lemma zeroed_clean ws : ~ In PInf ws -> zeroed ws = map Fin (map clean ws).
Proof.
  unfold zeroed. induction ws as [|w ws IH]; simpl; auto. intros H.
  rewrite IH by tauto. f_equal. destruct w as [a| | |]; simpl; auto; [destruct (Qle_bool a 0); auto|].
  exfalso; tauto.
Qed.

Lemma fsumQ_fin l : exists s, fsumQ (map Fin l) = Fin s /\ s == Qsum l.
Proof.
  induction l as [|a l [s [E Es]]]; simpl.
  - exists 0. split; reflexivity.
  - rewrite E. simpl. exists (a + s). split; auto. lra.
Qed.

Lemma clean_nonneg w : 0 <= clean w.
Proof. destruct w as [a| | |]; simpl; try lra. destruct (Qle_bool_spec a 0); lra. Qed.

Lemma clean_usable w : usable w <-> 0 < clean w.
Proof.
  unfold usable. split.
  - intros (a & -> & H). simpl. destruct (Qle_bool_spec a 0); lra.
  - destruct w as [a| | |]; simpl; try lra. destruct (Qle_bool_spec a 0); intros; [lra|]. eauto.
Qed.

Lemma clean_sum_nonneg ws : 0 <= Qsum (map clean ws).
Proof. apply Qsum_nonneg. rewrite Forall_map. apply Forall_forall. intros; apply clean_nonneg. Qed.

Lemma clean_sum_pos ws : Exists usable ws -> 0 < Qsum (map clean ws).
Proof.
  induction 1 as [w ws H|w ws H IH]; simpl.
  - apply clean_usable in H. pose proof (clean_sum_nonneg ws). lra.
  - pose proof (clean_nonneg w). lra.
Qed.

(** the stored weights *)
Definition stored (ws : list (fl Q)) : list Q :=
  match fsumQ (zeroed ws) with Fin s => map (fun w => clean w / s) ws | _ => [] end.

Lemma set_weights_stored ws : ~ In PInf ws -> Exists usable ws ->
  exists s, fsumQ (zeroed ws) = Fin s /\ s == Qsum (map clean ws) /\ 0 < s /\
    set_weights (length ws) ws = Ok (map Fin (map (fun w => clean w / s) ws)).
Proof.
  intros NP EX. destruct (fsumQ_fin (map clean ws)) as (s & E & Es).
  pose proof (clean_sum_pos ws EX) as P. exists s. rewrite (zeroed_clean ws NP). split; auto. split; auto.
  assert (S0 : 0 < s) by lra. split; auto.
  unfold set_weights. rewrite Nat.eqb_refl, (zeroed_clean ws NP). simpl. rewrite E. simpl.
  destruct (Qle_bool_spec s 0); [lra|]. f_equal. rewrite !map_map. apply map_ext. intros w. simpl.
  unfold fdivQ. destruct (Qeq_bool_spec s 0); [lra|]. reflexivity.
Qed.

Lemma Qsum_div_const (f : fl Q -> Q) c l : Qsum (map (fun w => f w / c) l) == Qsum (map f l) / c.
Proof. induction l; simpl; [unfold Qdiv; ring|]. rewrite IHl. unfold Qdiv. ring. Qed.

Lemma set_weights_spec ws : ~ In PInf ws -> Exists usable ws ->
  exists out, set_weights (length ws) ws = Ok (map Fin out) /\ is_normalised out /\ keeps_ratios ws out.
Proof.
  intros NP EX. destruct (set_weights_stored ws NP EX) as (s & _ & Es & S0 & E).
  eexists. split; [exact E|]. split.
  - split.
    + rewrite Forall_map. apply Forall_forall. intros w _. pose proof (clean_nonneg w). apply Qle_shift_div_l; lra.
    + rewrite total_Qsum, Qsum_div_const, <- Es. field. lra.
  - split; [apply map_length|]. split.
    + intros i w x H1 H2. rewrite nth_error_map, H1 in H2. simpl in H2. inversion H2; subst x. clear H2.
      rewrite clean_usable. split; intros H.
      * assert (C : clean w == clean w / s * s) by (field; lra). rewrite C. set (z := clean w / s) in *. nra.
      * apply Qlt_shift_div_l; lra.
    + intros i j a b x y H1 A H2 H3 B H4.
      rewrite nth_error_map, H1 in H2. rewrite nth_error_map, H3 in H4. simpl in H2, H4.
      inversion H2; inversion H4; subst x y.
      destruct (Qle_bool_spec a 0); [lra|]. destruct (Qle_bool_spec b 0); [lra|]. field. lra.
Qed.

Lemma clean_scale c w : 0 < c -> clean (scale_weight c w) == c * clean w.
Proof.
  intros C. destruct w as [a| | |]; simpl; try ring.
  destruct (Qle_bool_spec (c * a) 0), (Qle_bool_spec a 0); try ring; exfalso; nra.
Qed.

Lemma set_weights_scale c ws : 0 < c -> ~ In PInf ws -> Exists usable ws ->
  exists o1 o2, set_weights (length ws) ws = Ok (map Fin o1) /\
    set_weights (length ws) (map (scale_weight c) ws) = Ok (map Fin o2) /\ Forall2 Qeq o1 o2.
Proof.
  intros C NP EX. destruct (set_weights_stored ws NP EX) as (s & _ & Es & S0 & E).
  destruct (set_weights_stored (map (scale_weight c) ws)) as (s' & _ & Es' & S0' & E').
  { rewrite in_map_iff. intros (w & Hw & Hi). destruct w; simpl in Hw; try discriminate. tauto. }
  { clear - EX C. induction EX as [w ws (a & -> & Ha)|w ws H IH]; simpl.
    - left. exists (c * a). split; auto. nra.
    - right. auto. }
  rewrite map_length in E'.
  assert (SS : s' == c * s).
  { rewrite Es', Es. clear - C. induction ws as [|w ws IH]; simpl; [ring|].
    rewrite IH, clean_scale by auto. ring. }
  do 2 eexists. split; [exact E|]. split; [exact E'|].
  clear - C SS S0 S0'. induction ws as [|w ws IH]; simpl; constructor; auto.
  rewrite clean_scale by auto. rewrite SS. field. split; lra.
Qed.

Lemma set_weights_lengths n ws :
  ((exists out, set_weights n ws = Ok out) <-> length ws = n) /\
  (forall out, set_weights n ws = Ok out -> length out = n).
Proof.
  unfold set_weights, zeroed. destruct (Nat.eqb_spec n (length ws)) as [->|N]; cbn [negb].
  - split; [split; [reflexivity|intros _; destruct fnonpos; eauto]|].
    intros out. destruct fnonpos; intros E; inversion E; now rewrite ?map_length.
  - split; [split; [intros [? E]; discriminate|intros E; congruence]|discriminate].
Qed.

(** ** No usable weight *)
Lemma unusable_zero ws : Forall (fun w => ~ usable w) ws -> ~ In PInf ws ->
  set_weights (length ws) ws = Ok (map Fin (map clean ws)) /\ Forall (fun w => clean w == 0) ws.
Proof.
  intros F NP.
  assert (Z : Forall (fun w => clean w == 0) ws).
  { eapply Forall_impl; [|exact F]. cbv beta. intros w Hw. rewrite clean_usable in Hw. pose proof (clean_nonneg w). lra. }
  split; auto. unfold set_weights. rewrite Nat.eqb_refl, (zeroed_clean ws NP). simpl.
  destruct (fsumQ_fin (map clean ws)) as (s & -> & Es). simpl.
  destruct (Qle_bool_spec s 0) as [L|L]; auto. exfalso.
  assert (S0 : Qsum (map clean ws) == 0).
  { clear - Z. induction Z; simpl; lra. }
  lra.
Qed.

(** ** Selecting a component *)
Lemma multinomial1_range ws left u j : ws <> [] -> (j <= multinomial1 ws left u j < j + length ws)%nat.
Proof.
  revert left j. induction ws as [|p [|q r] IH]; intros left j H; [congruence|simpl; lia|].
  change (multinomial1 (p :: q :: r) left u j) with (if Qltb (u j) (p / left) then j else multinomial1 (q :: r) (left - p) u (S j)).
  destruct (Qltb (u j) (p / left)); [simpl; lia|].
  specialize (IH (left - p) (S j) ltac:(discriminate)). simpl length in *. lia.
Qed.

Lemma multinomial1_live ws : forall left u j, Forall (fun w => 0 <= w) ws -> Qsum ws == left -> 0 < left ->
  (forall i, 0 <= u i < 1) ->
  exists p, nth_error ws (multinomial1 ws left u j - j) = Some p /\ 0 < p.
Proof.
  induction ws as [|p [|q r] IH]; intros left u j F SM L U.
  - simpl in SM. lra.
  - simpl in *. exists p. rewrite Nat.sub_diag. split; auto. lra.
  - change (multinomial1 (p :: q :: r) left u j) with (if Qltb (u j) (p / left) then j else multinomial1 (q :: r) (left - p) u (S j)).
    inversion F as [|? ? F1 F2]; subst.
    destruct (Qltb_spec (u j) (p / left)) as [H|H].
    + exists p. rewrite Nat.sub_diag. split; auto. pose proof (U j).
      assert (E : p == p / left * left) by (field; lra). rewrite E. set (z := p / left) in *. nra.
    + pose proof (U j). assert (E : p == p / left * left) by (field; lra).
      set (z := p / left) in *. assert (P : p < left) by nra.
      change (Qsum (p :: q :: r)) with (p + Qsum (q :: r)) in SM.
      destruct (IH (left - p) u (S j)) as (p' & H1 & H2); auto; [lra|lra|].
      exists p'. split; auto.
      pose proof (multinomial1_range (q :: r) (left - p) u (S j) ltac:(discriminate)) as R.
      set (k := multinomial1 (q :: r) (left - p) u (S j)) in *.
      replace (k - j)%nat with (S (k - S j)) by lia. exact H1.
Qed.

(** every live component is selected by some draws *)
Lemma multinomial1_reach ws : forall left j i p, Forall (fun w => 0 <= w) ws -> Qsum ws == left -> 0 < left ->
  nth_error ws i = Some p -> 0 < p ->
  exists u, (forall i, 0 <= u i < 1) /\ multinomial1 ws left u j = (j + i)%nat.
Proof.
  induction ws as [|p [|q r] IH]; intros left j i x F SM L N P.
  - destruct i; discriminate.
  - destruct i as [|[|]]; try discriminate. exists (fun _ => 0). split; [intros; lra|]. simpl. lia.
  - inversion F as [|? ? F1 F2]; subst. destruct i as [|i].
    + simpl in N. inversion N; subst x. exists (fun _ => 0). split; [intros; lra|].
      change (multinomial1 (p :: q :: r) left (fun _ => 0) j) with (if Qltb 0 (p / left) then j else multinomial1 (q :: r) (left - p) (fun _ => 0) (S j)).
      destruct (Qltb_spec 0 (p / left)) as [H|H]; [lia|]. exfalso. apply H. apply Qlt_shift_div_l; lra.
    + change (nth_error (q :: r) i = Some x) in N.
      change (Qsum (p :: q :: r)) with (p + Qsum (q :: r)) in SM.
      assert (Q0 : x <= Qsum (q :: r)).
      { clear - F2 N. revert i N. induction F2; intros i N; [destruct i; discriminate|].
        destruct i; simpl in *; [inversion N; subst|].
        - pose proof (Qsum_nonneg l F2). lra.
        - apply IHF2 in N. lra. }
      destruct (IH (left - p) (S j) i x) as (u & U & E); auto; [lra|lra|].
      assert (Z : p / left < 1) by (apply Qlt_shift_div_r; lra).
      assert (Z0 : 0 <= p / left) by (apply Qle_shift_div_l; lra).
      exists (fun k => if (k <=? j)%nat then p / left else u k). split.
      { intros k. destruct (k <=? j)%nat; auto. }
      change (multinomial1 (p :: q :: r) left ?f j) with (if Qltb (f j) (p / left) then j else multinomial1 (q :: r) (left - p) f (S j)).
      cbv beta. rewrite Nat.leb_refl. destruct (Qltb_spec (p / left) (p / left)) as [H|H]; [lra|].
      rewrite <- Nat.add_succ_comm, <- E.
      assert (EXT : forall ws left j u v, (forall k, (j <= k)%nat -> u k = v k) -> multinomial1 ws left u j = multinomial1 ws left v j).
      { clear. induction ws as [|p [|q r] IH]; intros left j u v H; auto.
        change (multinomial1 (p :: q :: r) left u j) with (if Qltb (u j) (p / left) then j else multinomial1 (q :: r) (left - p) u (S j)).
        change (multinomial1 (p :: q :: r) left v j) with (if Qltb (v j) (p / left) then j else multinomial1 (q :: r) (left - p) v (S j)).
        rewrite H by lia. destruct (Qltb (v j) (p / left)); auto. apply IH. intros; apply H; lia. }
      apply EXT. intros k Hk. destruct (Nat.leb_spec k j); [lia|]. reflexivity.
Qed.

(** the success probabilities of the chain of Bernoulli draws, and their law *)
Fixpoint chain (ws : list Q) (left : Q) : list Q :=
  match ws with [] => [] | p :: r => p / left :: chain r (left - p) end.

Lemma multinomial1_chain ws left u j : multinomial1 ws left u j = first_hit (chain ws left) u j.
Proof.
  revert left j. induction ws as [|p [|q r] IH]; intros left j; auto.
  change (multinomial1 (p :: q :: r) left u j) with (if Qltb (u j) (p / left) then j else multinomial1 (q :: r) (left - p) u (S j)).
  change (first_hit (chain (p :: q :: r) left) u j) with
    (if Qlt_le_dec (u j) (p / left) then j else first_hit (chain (q :: r) (left - p)) u (S j)).
  rewrite IH. destruct (Qltb_spec (u j) (p / left)), (Qlt_le_dec (u j) (p / left)); auto; lra.
Qed.

Lemma chain_length ws left : length (chain ws left) = length ws.
Proof. revert left; induction ws; simpl; auto. Qed.

Lemma zero_sum_nth l i : Forall (fun w => 0 <= w) l -> Qsum l == 0 -> nth i l 0 == 0.
Proof.
  intros F. revert i. induction F as [|a l H F IH]; intros i Z; [destruct i; reflexivity|].
  simpl in Z. pose proof (Qsum_nonneg l F). destruct i; simpl; [lra|]. apply IH. lra.
Qed.

Lemma chain_law ws : forall left i, Forall (fun w => 0 <= w) ws -> Qsum ws == left -> 0 < left -> (i < length ws)%nat ->
  first_success (chain ws left) i * left == nth i ws 0.
Proof.
  induction ws as [|p [|q r] IH]; intros left i F SM L0 L; [simpl in L; lia| |].
  - simpl in *. destruct i; [simpl; lra|lia].
  - inversion F as [|? ? F1 F2]; subst.
    change (Qsum (p :: q :: r)) with (p + Qsum (q :: r)) in SM.
    pose proof (Qsum_nonneg _ F2) as NN.
    change (chain (p :: q :: r) left) with (p / left :: chain (q :: r) (left - p)).
    destruct i as [|i].
    + change (first_success (p / left :: chain (q :: r) (left - p)) 0) with (p / left). simpl. field. lra.
    + change (first_success (p / left :: chain (q :: r) (left - p)) (S i)) with
        ((1 - p / left) * first_success (chain (q :: r) (left - p)) i).
      change (nth (S i) (p :: q :: r) 0) with (nth i (q :: r) 0).
      destruct (Qlt_le_dec 0 (Qsum (q :: r))) as [P|P].
      * rewrite <- (IH (left - p)); auto; [|lra|lra|simpl in *; lia]. field. lra.
      * rewrite (zero_sum_nth (q :: r) i F2) by lra.
        assert (E : p == left) by lra. assert (Z : 1 - p / left == 0) by (rewrite E; field; lra).
        rewrite Z. ring.
Qed.

Lemma mixture_sample_live {X} ws n us (draw : nat -> nat -> X) :
  is_normalised ws -> (forall k i, 0 <= us k i < 1) ->
  exists rows src, mixture_sample ws n us draw = Ok rows /\ length rows = n /\ length src = n /\
    (forall k i, nth_error src k = Some i -> nth_error rows k = Some (draw k i) /\
       exists w, nth_error ws i = Some w /\ 0 < w).
Proof.
  intros [F S] U. rewrite total_Qsum in S.
  exists (map (fun k => draw k (multinomial1 ws 1 (us k) 0)) (seq 0 n)), (map (fun k => multinomial1 ws 1 (us k) 0) (seq 0 n)).
  split.
  { unfold mixture_sample. destruct ws; [simpl in S; lra|]. destruct n; reflexivity. }
  split; [now rewrite map_length, seq_length|]. split; [now rewrite map_length, seq_length|].
  intros k i H. rewrite nth_error_map in *.
  destruct (nth_error (seq 0 n) k) as [k'|] eqn:E; [|discriminate]. simpl in *. inversion H; subst i. clear H.
  assert (k' = k).
  { assert (L : (k < length (seq 0 n))%nat) by (apply nth_error_Some; congruence). rewrite seq_length in L.
    apply nth_error_nth with (d := 0%nat) in E. rewrite seq_nth in E by auto. lia. }
  subst k'. split; auto.
  destruct (multinomial1_live ws 1 (us k) 0 F S) as (p & H1 & H2); [lra|auto|].
  rewrite Nat.sub_0_r in H1. eauto.
Qed.

(** with all weights zero the last component is always used *)
Lemma multinomial1_zero ws : forall left u j, ws <> [] -> Forall (fun w => w == 0) ws -> (forall i, 0 <= u i) ->
  multinomial1 ws left u j = (j + length ws - 1)%nat.
Proof.
  induction ws as [|p [|q r] IH]; intros left u j N F U; [congruence|simpl; lia|].
  inversion F; subst.
  change (multinomial1 (p :: q :: r) left u j) with (if Qltb (u j) (p / left) then j else multinomial1 (q :: r) (left - p) u (S j)).
  destruct (Qltb_spec (u j) (p / left)) as [H|H].
  - exfalso. pose proof (U j). assert (E : p / left == 0) by (rewrite H1; unfold Qdiv; ring). lra.
  - rewrite IH; auto; [|discriminate]. simpl. lia.
Qed.

