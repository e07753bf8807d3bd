(** Properties C109 and C113 for HiDaisee: another origin, another unit, another order of the coordinate axes. *)
From Coq Require Import List Bool Arith Lia ZArith QArith Qpower Lqa Permutation.
Import ListNotations.
From Verif Require Import Prelude.Py Prelude.QBase Prelude.QFacts Model.Uniform Model.HiDaisee Spec.ScaleSpec Spec.UnitsSpec Spec.AxesSpec Spec.HdCoords
  Proofs.ScaleBase Proofs.ScalePop Proofs.ScaleTree Proofs.UnitsBase Proofs.ChartHd.
Open Scope Q_scope.

Lemma seq_ax n k : (k < n)%nat -> ax (seq 0 n) k = k.
Proof. intros K. unfold ax. now rewrite seq_nth. Qed.
Lemma recoord_ch a b x y : recoord a b x y <-> ch (length b) (seq 0 (length b)) a b x y.
Proof.
  transitivity (length x = length b /\ length y = length b /\ forall k, (k < length b)%nat -> nth k y 0 == a * nth k x 0 + nth k b 0).
  - revert x y. induction b as [|b0 b IH]; intros [|x0 x] [|y0 y]; simpl; try (split; [tauto|intros (L & L' & _); discriminate]); [split; auto; intros _; repeat split; intros; lia|].
    rewrite IH. split.
    + intros (E & L & L' & H). repeat split; auto. intros [|k] K; [exact E|]. apply H. lia.
    + intros (L & L' & H). split; [exact (H 0%nat ltac:(lia))|]. repeat split; auto. intros k K. apply (H (S k)). lia.
  - unfold ch. split; intros (L & L' & H); repeat split; auto; intros k K; specialize (H k K); rewrite seq_ax in * by exact K; exact H.
Qed.
Lemma relabel_ch dm sg x y : length sg = dm -> (relabel dm sg x y <-> ch dm sg 1 [] x y).
Proof.
  intros Ls. unfold relabel, ch. split.
  - intros (L & F). assert (L' : length y = dm) by (rewrite <- Ls; symmetry; eapply rel_length; eauto). repeat split; auto. intros k K. rewrite <- Ls in K. clear -F K. unfold ax. revert k K. induction F as [|i v l m E F IH]; intros [|k] K; simpl in *; try lia; [rewrite E; ring|].
    rewrite IH by lia. destruct k; simpl; ring.
  - intros (L & L' & H). split; auto. rewrite <- Ls in H, L'. clear -H L'. unfold ax in H. revert y H L'. induction sg as [|i sg IH]; intros [|v y] H L'; simpl in *; try discriminate; constructor.
    + pose proof (H 0%nat ltac:(lia)) as E. simpl in E. rewrite E. ring.
    + apply IH; [|lia]. intros k K. pose proof (H (S k) ltac:(lia)) as E. simpl in E. rewrite E. destruct k; reflexivity.
Qed.
(** Histories. *)
Lemma hd_history dm sg a b P P' (op : hd_op * bool -> hd_op * bool -> Prop) : Permutation (seq 0 dm) sg -> 0 < a ->
  ch dm sg a b (hp_lo P) (hp_lo P') -> ch dm sg a b (hp_hi P) (hp_hi P') -> (forall t n, hp_boost P' t n == hp_boost P t n) -> hp_nmin P' = hp_nmin P -> hp_ess P' == hp_ess P ->
  (forall o o', op o o' -> snd o' = snd o /\ match fst o, fst o' with
     | HdCall pi n rds, HdCall pi' n' rds' => (forall x y, ch dm sg a b x y -> pi' y == jac dm a * pi x) /\ n' = n /\ forall t, round_ch dm sg (rds t) (rds' t)
     | HdSample n, HdSample n' => n' = n | HdReset, HdReset => True | _, _ => False end) ->
  forall ops ops' s, hd_reachable P ops s -> Forall2 op ops ops' -> exists s', hd_reachable P' ops' s' /\ hd_ch dm sg a b s s'.
Proof.
  intros Pm A Hl Hh Hb Hn He Hop ops ops' s R. revert ops'.
  induction R as [|ops s pi n rds s1 R IH E|ops s pi n rds e s1 R IH E|ops s n R IH|ops s R IH]; intros ops' F; inversion F as [|? (o', f) ? l' Ho' Hl']; subst.
  1: exists (hd_new P'); split; [constructor|now apply hd_new_chart].
  all: destruct (Hop _ _ Ho') as (Eb & Ho); destruct (IH l' Hl') as (s' & R' & L); cbn [fst snd] in *; subst f; destruct o' as [pi' n' rds'|n'|]; try contradiction.
  - destruct Ho as (Sc & -> & Rr). pose proof (hd_call_chart dm sg a b Pm A P P' pi pi' Hb Hn He Sc n rds rds' s s' Rr L) as H. rewrite E in H.
    destruct (hd_call P' pi' n rds' s') as [s2|s2|e2 s2] eqn:E2; simpl in H; try contradiction. exists s2. split; auto. eapply hd_done; eauto.
  - destruct Ho as (Sc & -> & Rr). pose proof (hd_call_chart dm sg a b Pm A P P' pi pi' Hb Hn He Sc n rds rds' s s' Rr L) as H. rewrite E in H.
    destruct (hd_call P' pi' n rds' s') as [s2|s2|e2 s2] eqn:E2; simpl in H; try contradiction. destruct H as (<- & H). exists s2. split; auto. eapply hd_failed; eauto.
  - subst n'. exists (hd_drawn n s'). split; [now apply hd_sampled|]. destruct L as (T & S & E1 & E2 & E3 & E4 & E5). unfold hd_ch, hd_drawn; cbn [hs_tree hs_samples hs_pi hs_q hs_draws hs_model]. rewrite E3. split; [exact T|]. split; [exact S|]. auto.
  - exists (hd_restart P' s'). split; [now apply hd_reset|]. exact (hd_new_chart dm sg a b Pm P P' Hl Hh).
Qed.

(** * Origin and unit *)
Theorem C109_hidaisee a b P P' ops ops' s : 0 < a -> hd_box (recoord a b) P P' -> hd_reachable P ops s -> Forall2 (hd_units a b) ops ops' ->
  exists s', hd_reachable P' ops' s' /\ recoords a b (map fst (hs_samples s)) (map fst (hs_samples s')) /\ Forall2 Qeq (map snd (hs_samples s)) (map snd (hs_samples s')) /\
    (forall x y, recoord a b x y -> times (/ a ^ Z.of_nat (length b)) (hd_prob s x) (hd_prob s' y)) /\
    hs_pi s' = hs_pi s /\ hs_q s' = hs_q s /\ hs_draws s' = hs_draws s.
Proof.
  intros A (B1 & B2 & B3 & B4 & B5) R F. apply recoord_ch in B1, B2.
  assert (G : exists s', hd_reachable P' ops' s' /\ hd_ch (length b) (seq 0 (length b)) a b s s').
  { apply (hd_history (length b) (seq 0 (length b)) a b P P' (hd_units a b)) with (ops := ops); auto. intros o o' (Eb & Ho). split; auto. destruct (fst o) as [pi n rds|n|], (fst o') as [pi' n' rds'|n'|]; auto.
    destruct Ho as (D & En & -> & K). split; [|split; auto].
    - intros x y X. apply recoord_ch in X. pose proof (power_pos a (length b) A) as Pw. rewrite <- (D x y X). unfold jac. field. apply Qnz. exact Pw.
    - intros t. split; [reflexivity|]. split; [intros k Hk; now rewrite seq_ax|]. split; [apply K|]. symmetry. apply seq_ax, K. }
  destruct G as (s' & R' & L). exists s'. split; auto. pose proof L as (_ & S & E1 & E2 & E3 & _). split; [|split; [|split; [|auto]]].
  - eapply map_rel; [|exact S]. intros u v (H & _). now apply recoord_ch.
  - eapply map_rel; [|exact S]. intros u v (_ & H). now symmetry.
  - intros x y X. apply recoord_ch in X. exact (hd_prob_chart (length b) (seq 0 (length b)) a b (Permutation_refl _) A s s' x y L X).
Qed.
Print Assumptions C109_hidaisee.
Definition hc_rounds (t : nat) : hround := mkHR (fun _ => 1 # 2) (fun k => nth (t + k) [1 # 3; 1 # 5; 2 # 3; 1 # 7] (3 # 5)) (t mod 2).
Definition hc_lin (x : vec) : Q := 1 + nth 1 x 0.
Definition hc_lin' (y : vec) : Q := (1 + (nth 1 y 0 - 1) / 2) / 4.
Definition hc_box (lo hi : vec) : hd_params := mkHP lo hi (fun _ _ => 1 # 2) 1 2.
Example C109_hidaisee_example : exists s, hd_reachable (hc_box [0; 0] [1; 2]) [(HdCall hc_lin 2 hc_rounds, true)] s /\ length (hs_samples s) = 2%nat /\
  0 < 2 /\ hd_box (recoord 2 [3; 1]) (hc_box [0; 0] [1; 2]) (hc_box [3; 1] [5; 5]) /\
  Forall2 (hd_units 2 [3; 1]) [(HdCall hc_lin 2 hc_rounds, true)] [(HdCall hc_lin' 2 hc_rounds, true)].
Proof.
  destruct (hd_call (hc_box [0; 0] [1; 2]) hc_lin 2 hc_rounds (hd_new (hc_box [0; 0] [1; 2]))) as [s|s|e s] eqn:E; try (exfalso; vm_compute in E; discriminate).
  exists s. split; [apply (hd_done _ [] (hd_new (hc_box [0; 0] [1; 2]))); [constructor|exact E]|]. split; [vm_compute in E; injection E as <-; reflexivity|]. split; [reflexivity|].
  split; [repeat split|]. constructor; [|constructor]. split; [reflexivity|]. cbn [fst]. split; [|split; [reflexivity|split; [reflexivity|]]].
  - intros [|x0 [|x1 [|? ?]]] [|y0 [|y1 [|? ?]]]; simpl; try tauto. intros (_ & H & _). unfold hc_lin, hc_lin'; simpl. rewrite H. change (Qpower_positive 2 2) with 4. field.
  - intros t. unfold hc_rounds; cbn [hr_dim length]. apply Nat.mod_upper_bound. discriminate.
Qed.

(** * Order of the axes *)
Theorem C113_hidaisee dm sg P P' ops ops' s : Permutation (seq 0 dm) sg -> hd_box (relabel dm sg) P P' -> hd_reachable P ops s -> Forall2 (hd_axes dm sg) ops ops' ->
  exists s', hd_reachable P' ops' s' /\ relabels dm sg (map fst (hs_samples s)) (map fst (hs_samples s')) /\ Forall2 Qeq (map snd (hs_samples s)) (map snd (hs_samples s')) /\
    (forall x y, relabel dm sg x y -> times 1 (hd_prob s x) (hd_prob s' y)) /\
    hs_pi s' = hs_pi s /\ hs_q s' = hs_q s /\ hs_draws s' = hs_draws s.
Proof.
  intros Pm (B1 & B2 & B3 & B4 & B5) R F. pose proof (ax_len dm sg Pm) as Ls. pose proof (fun x y => relabel_ch dm sg x y Ls) as RC. apply RC in B1, B2. assert (A : 0 < 1) by reflexivity.
  assert (J : jac dm 1 == 1) by (unfold jac; rewrite Qpower_1; reflexivity).
  assert (G : exists s', hd_reachable P' ops' s' /\ hd_ch dm sg 1 [] s s').
  { apply (hd_history dm sg 1 [] P P' (hd_axes dm sg)) with (ops := ops); auto. intros o o' (Eb & Ho). split; auto. destruct (fst o) as [pi n rds|n|], (fst o') as [pi' n' rds'|n'|]; auto.
    destruct Ho as (D & En & K). split; [|split; auto]. intros x y X. apply RC in X. rewrite (D x y X), J. ring. }
  destruct G as (s' & R' & L). exists s'. split; auto. pose proof L as (_ & S & E1 & E2 & E3 & _). split; [|split; [|split; [|auto]]].
  - eapply map_rel; [|exact S]. intros u v (H & _). now apply RC.
  - eapply map_rel; [|exact S]. intros u v (_ & H). now symmetry.
  - intros x y X. apply RC in X. apply (times_k (jac dm 1) 1 _ _ J). exact (hd_prob_chart dm sg 1 [] Pm A s s' x y L X).
Qed.
Print Assumptions C113_hidaisee.
Definition hc_flip (r : hround) : hround := mkHR (hr_pick r) (fun k => hr_draw r (1 - k)) (1 - hr_dim r).
Definition hc_first (y : vec) : Q := 1 + nth 0 y 0.
Example C113_hidaisee_example : exists s, hd_reachable (hc_box [0; 0] [1; 2]) [(HdCall hc_lin 2 hc_rounds, true)] s /\ length (hs_samples s) = 2%nat /\
  Permutation (seq 0 2) [1; 0]%nat /\ hd_box (relabel 2 [1; 0]%nat) (hc_box [0; 0] [1; 2]) (hc_box [0; 0] [2; 1]) /\
  Forall2 (hd_axes 2 [1; 0]%nat) [(HdCall hc_lin 2 hc_rounds, true)] [(HdCall hc_first 2 (fun t => hc_flip (hc_rounds t)), true)].
Proof.
  destruct (hd_call (hc_box [0; 0] [1; 2]) hc_lin 2 hc_rounds (hd_new (hc_box [0; 0] [1; 2]))) as [s|s|e s] eqn:E; try (exfalso; vm_compute in E; discriminate).
  exists s. split; [apply (hd_done _ [] (hd_new (hc_box [0; 0] [1; 2]))); [constructor|exact E]|]. split; [vm_compute in E; injection E as <-; reflexivity|]. split; [exact (perm_swap _ _ [])|].
  split; [repeat split; repeat constructor|]. constructor; [|constructor]. split; [reflexivity|]. cbn [fst]. split; [|split; [reflexivity|]].
  - intros x y (_ & H). inversion H as [|? ? ? ? H1 _]; subst. unfold hc_lin, hc_first; simpl. rewrite H1. reflexivity.
  - intros t. unfold hround_axes, hc_flip, hc_rounds; cbn [hr_pick hr_draw hr_dim]. split; [reflexivity|]. split; [intros [|[|k]] K; [reflexivity|reflexivity|lia]|].
    pose proof (Nat.mod_upper_bound t 2 ltac:(discriminate)) as M. destruct (t mod 2)%nat as [|[|m]]; [simpl; split; auto|simpl; split; auto|lia].
Qed.
