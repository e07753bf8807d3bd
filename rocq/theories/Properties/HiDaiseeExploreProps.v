(** Property C86: HiDaisee keeps exploring every part of the space. *)
From Coq Require Import List Bool Arith Lia QArith Lqa Permutation.
Import ListNotations.
From Verif Require Import Prelude.Py Prelude.QBase Prelude.QFacts Prelude.ListFacts Model.Uniform Model.HiDaisee Spec.UniformSpec Spec.SplitSpec Spec.ResetSpec
  Spec.ExploreSpec Proofs.UniformProofs Proofs.HiDaiseeBox Proofs.HiDaiseeProofs Proofs.HiDaiseeHistory Proofs.HiDaiseeValues Proofs.HiDaiseeGeneric
  Proofs.HiDaiseeExplore Proofs.HiDaiseeStarve Properties.HiDaiseeProps.
Open Scope Q_scope.

(** C86 (full statement: at any time every component of the reported density has a positive probability of receiving the next sample). True as long
    as no call failed since the last reset, for non-negative targets: for every component there are intervals of positive length such that,
    whenever the random numbers of the descent fall into them, the next call draws its sample in that component's box, whatever the target and
    whatever the random numbers of the draw; it fails at most because a sample lies exactly on the cut of a split, and then the sample is held. *)
Theorem C86_explores_partial :
  forall P ops s B, corners (hp_lo P) (hp_hi P) ->
  (forall t N, (1 <= t)%nat -> (1 <= N)%nat -> 0 <= hp_boost P t N) -> (forall t N, (2 <= t)%nat -> (1 <= N)%nat -> 0 < hp_boost P t N) ->
  0 < hp_ess P < 1 -> hd_reachable P ops s -> dims_ok (length (hp_lo P)) ops -> intact ops ->
  (forall pi x, called_with ops pi -> 0 <= pi x) -> In B (fst (hs_model s)) ->
  exists ivs, subintervals ivs /\ forall pi rd, falls (hr_pick rd) ivs -> (forall j, 0 < hr_draw rd j < 1) -> (hr_dim rd < length (hp_lo P))%nat ->
    exists x, inside (u_lo B, u_hi B) x /\
      ((exists s', hd_call P pi (S (length (hs_samples s))) (fun _ => rd) s = Done s' /\
          Permutation (map fst (hs_samples s')) (x :: map fst (hs_samples s))) \/
       (exists s', hd_call P pi (S (length (hs_samples s))) (fun _ => rd) s = Failed ValueError s' /\
          Permutation (map fst (hd_rows (hs_tree s'))) (x :: map fst (hs_samples s)))).
Proof.
  intros P ops s B C B1 B2 He R D F N HB.
  pose proof (reach_kinv P C (conj B1 B2) He ops s R D F (fun pi Hpi x => N pi x Hpi)) as K.
  pose proof (reach_inv P C ops s R D) as I. pose proof (reach_samples P ops s R F) as Sm.
  rewrite (reach_boxes P ops s R F) in HB. apply in_map_iff in HB. destruct HB as (n & <- & Hn).
  unfold leaf_nodes in Hn. apply in_flat_map in Hn. destruct Hn as (i & Hi & Hn). destruct (nth_error (ht_nodes (hs_tree s)) i) as [m|] eqn:En; [|destruct Hn].
  destruct Hn as [->|[]]. destruct (steer (hs_tree s) i K Hi 0%nat (k_below _ K i Hi)) as (ivs & Si & St).
  exists ivs. split; [exact Si|]. intros pi rd Fl U Hd.
  destruct (St (hr_pick rd) 0%nat (length (ht_nodes (hs_tree s))) ltac:(lia) Fl) as (path & Ed).
  assert (I0 : hinv (length (hp_lo P)) (hp_lo P, hp_hi P) (fun _ => True) (hs_tree s)) by (eapply hinv_weaken; [|exact I]; auto).
  destruct (turn_spec _ _ _ P pi (length (hs_samples s)) rd s I0 Hd Logic.I) as (path' & i' & n' & Ed' & _ & En' & Alt).
  rewrite Ed in Ed'. injection Ed' as <- <-. rewrite En in En'. injection En' as <-. cbv zeta in Alt.
  destruct (hi_node _ _ _ _ I0 i n En) as (_ & Rn). pose proof (draw_inside n (hr_draw rd) Rn U) as Hin.
  exists (node_draw n (hr_draw rd)). split; [exact Hin|].
  destruct Alt as [(Out & _)|(_ & s' & _ & _ & _ & _ & [(E & Pm)|(E & Pm & _)])]; [contradiction| |]; [left|right];
    unfold hd_call; replace (S (length (hs_samples s)) - length (hs_samples s))%nat with 1%nat by lia; cbn [hd_turns]; rewrite E;
    eexists; (split; [reflexivity|]); rewrite Sm; exact Pm.
Qed.
Print Assumptions C86_explores_partial.
(** The middle one of three components, from 1/4 to 1/2, and the random numbers that lead to it. *)
Definition right_below : hround := mkHR (fun k => match k with O => 0 | _ => 9 # 10 end) (fun _ => 1 # 2) 0.
Example C86_explores_example :
  hd_reachable line_hd [(HdCall bump 4 left_rounds, true)] (line_after 4) /\ (forall x, 0 <= bump x) /\ 0 < hp_ess line_hd < 1 /\
  (forall t N, (2 <= t)%nat -> (1 <= N)%nat -> 0 < hp_boost line_hd t N) /\ length (fst (hs_model (line_after 4))) = 3%nat /\
  exists s' x w rest, hd_call line_hd bump 5 (fun _ => right_below) (line_after 4) = Done s' /\ rev (hs_samples s') = (x, w) :: rest /\ inside ([1 # 4], [1 # 2]) x.
Proof.
  split; [apply line_reachable; lia|]. split.
  { intros [|a [|b x]]; simpl; try lra. destruct (_ && _); lra. }
  split; [simpl; lra|]. split.
  { intros t n Ht Hn. simpl. destruct (Nat.eqb_spec t 1); [lia|]. apply Qlt_shift_div_l; [apply Qnat_pos; exact Hn|lra]. }
  split; [vm_compute; reflexivity|].
  do 4 eexists. split; [vm_compute; reflexivity|]. split; [vm_compute; reflexivity|]. unfold inside. simpl. repeat constructor; try (unfold Qlt, Qle; simpl; lia).
Qed.

(** After a call that failed, the next call numbers its turns from 0, the value of the leaf it draws from becomes NaN, and no comparison chooses that
    leaf again: here every later call, whatever its target and random numbers, leaves the whole left half of the space without a new sample, until reset. *)
Definition stop_rounds (t : nat) : hround := mkHR (fun _ => 0) (fun _ => nth t [3 # 4; 1 # 3] 0) 0.
Definition left_again (_ : nat) : hround := mkHR (fun _ => 0) (fun _ => 2 # 3) 0.
Definition failed_hd : hd := out_state (hd_call line_hd bump 3 stop_rounds (hd_new line_hd)).
Definition starved_hd : hd := out_state (hd_call line_hd bump 1 left_again failed_hd).
Theorem C86_starved_refuted :
  exists P ops s B held, corners (hp_lo P) (hp_hi P) /\
    (forall t N, (1 <= t)%nat -> (1 <= N)%nat -> 0 <= hp_boost P t N) /\ (forall t N, (2 <= t)%nat -> (1 <= N)%nat -> 0 < hp_boost P t N) /\
    0 < hp_ess P < 1 /\ hd_reachable P ops s /\ dims_ok (length (hp_lo P)) ops /\ (forall pi x, called_with ops pi -> 0 <= pi x) /\
    In B (fst (hs_model s)) /\ 2 * box_volume (u_lo B, u_hi B) == box_volume (hp_lo P, hp_hi P) /\
    (exists pi n rds rest, ops = (HdCall pi n rds, true) :: rest) /\
    forall later b pi n rds c, leads_to (hd_run P) s later b -> (forall f, ~ In (HdReset, f) later) -> dims_ok (length (hp_lo P)) later ->
      dim_ok (length (hp_lo P)) rds -> hd_call P pi n rds b = Done c ->
      exists others, Permutation (map fst (hs_samples c)) (held ++ others) /\ Forall (fun x => ~ inside (u_lo B, u_hi B) x) others.
Proof.
  assert (Pos : forall t n, (1 <= n)%nat -> 0 <= (if (t =? 1)%nat then 0 else 1 / Qnat n)).
  { intros t n Hn. destruct (t =? 1)%nat; [lra|]. apply Qle_shift_div_l; [apply Qnat_pos; exact Hn|lra]. }
  set (n1 := mkH [2 # 8] [1 # 4] NaN None [([64 # 192], 8 # 4); ([32768 # 98304], 8 # 4)]).
  assert (E1 : hd_call line_hd bump 3 stop_rounds (hd_new line_hd) = Failed AssertionError failed_hd) by (vm_compute; reflexivity).
  assert (E2 : hd_call line_hd bump 1 left_again failed_hd = Done starved_hd) by (vm_compute; reflexivity).
  assert (R : hd_reachable line_hd [(HdCall bump 1 left_again, true); (HdCall bump 3 stop_rounds, false)] starved_hd).
  { eapply hd_done; [|exact E2]. eapply hd_failed; [constructor|exact E1]. }
  assert (D : dims_ok (length (hp_lo line_hd)) [(HdCall bump 1 left_again, true); (HdCall bump 3 stop_rounds, false)]).
  { intros pi n rds b [H|[H|[]]]; inversion H; subst; intros t; simpl; lia. }
  assert (I : hinv (length (hp_lo line_hd)) (hp_lo line_hd, hp_hi line_hd) (fun _ => True) (hs_tree starved_hd)).
  { eapply hinv_weaken; [|apply (reach_inv line_hd line_corners _ _ R D)]. auto. }
  assert (St : stuck n1 (hs_tree starved_hd)).
  { constructor.
    - eexists. split; vm_compute; reflexivity.
    - vm_compute. reflexivity.
    - vm_compute. auto.
    - vm_compute. intros [H|[H|[]]]; discriminate. }
  exists line_hd, [(HdCall bump 1 left_again, true); (HdCall bump 3 stop_rounds, false)], starved_hd, (node_box n1), (map fst (h_rows n1)).
  split; [apply line_corners|]. split; [intros t n _ Hn; apply Pos; exact Hn|]. split.
  { intros t n Ht Hn. simpl. destruct (Nat.eqb_spec t 1); [lia|]. apply Qlt_shift_div_l; [apply Qnat_pos; exact Hn|lra]. }
  split; [simpl; lra|]. split; [exact R|]. split; [exact D|]. split.
  { intros pi x (n & rds & b & [H|[H|[]]]); inversion H; subst; destruct x as [|a [|c x]]; simpl; try lra; destruct (_ && _); lra. }
  split; [vm_compute; auto|]. split; [vm_compute; reflexivity|]. split; [exists bump, 1%nat, left_again; eexists; reflexivity|].
  intros later b pi n rds c L Nr Dl Hd E.
  destruct (stuck_later line_hd starved_hd n1 eq_refl I St later b L Nr Dl) as (Ib & Sb).
  destruct (stuck_call line_hd pi n rds n1 b Hd eq_refl Ib Sb) as (Ic & Sc). rewrite E in Ic, Sc. simpl in Ic, Sc.
  destruct (stuck_rows line_hd (hs_tree c) n1 Ic Sc) as (others & Pm & Fa). exists others. split; [|exact Fa].
  rewrite (call_samples _ _ _ _ _ _ E). exact Pm.
Qed.
Print Assumptions C86_starved_refuted.
(** Later calls do complete and draw in the right half. *)
Example C86_starved_example :
  exists c, leads_to (hd_run line_hd) starved_hd [(HdSample 2, true)] (hd_drawn 2 starved_hd) /\
    hd_call line_hd bump 4 left_again (hd_drawn 2 starved_hd) = Done c /\ length (hs_samples c) = 4%nat.
Proof.
  eexists. split; [eapply leads_returned; [constructor|reflexivity]|]. split; vm_compute; reflexivity.
Qed.
