(** C117: the tree sampler without resampling keeps refining, and the estimates of one call converge. *)
From Coq Require Import List Bool Arith Lia QArith Qabs Reals Qreals Lra Permutation.
Import ListNotations.
From Verif Require Import Prelude.Py Prelude.QBase Prelude.QFacts Model.Population Model.Tree Model.TreeSampler Spec.TreeSpec Spec.Box Spec.RefineSpec
  Proofs.TreeCells Proofs.TreeProofs Proofs.TreeMask Proofs.TreeSamplerTree Proofs.TreeSamplerInv Proofs.TreeSamplerLeaves Proofs.TreeRequest Proofs.TreeRefine Proofs.TreeKeep
  Proofs.RefineSums Proofs.LineIntegral Properties.TreeSamplerProps Properties.TreeRefineProps Properties.TreeRefineError.

(** The mode of this property: uniform kernel, simple flow, no resampling, one sample per leaf. *)
Definition plain_mode (P : tp_params) : Prop :=
  proper (p_lo P) (p_hi P) /\ p_kernel P = Haar /\ p_flow P = Simple /\ p_leaf_resampling P = false /\ (exists e, p_ess P = Some e /\ 1 < e)%Q /\ (p_nmin P <= 1)%nat.

(** C117: after any history of calls on targets with values in [m, Mx] on the root's cube, with draws inside the open unit cube: when at least N
    leaves are there, every leaf has sides of at most D, for every D with K * volume <= D^d * N. *)
Theorem C117_refines_partial :
  forall P m Mx K D N ops s i n, plain_mode P -> (0 < m)%Q -> (m <= Mx)%Q -> (0 <= K)%Q -> (Mx * power 4 (p_dims P) <= K * K * m)%Q -> (0 <= D)%Q ->
  tp_reachable P ops s -> Forall (fun ob => open_fair P m Mx (fst ob)) ops -> (0 < N <= length (t_leaves (s_tree s)))%nat ->
  (K * cell_volume (root_center (p_lo P) (p_hi P), root_radius (p_lo P) (p_hi P)) <= power D (p_dims P) * Qnat N)%Q ->
  In i (t_leaves (s_tree s)) -> nth_error (t_nodes (s_tree s)) i = Some n -> (2 * n_radius n <= D)%Q.
Proof.
  intros P m Mx K D N ops s i n (B & Ek & F & Lr & (e & Ee & E1) & Nm) Mp MM Kp Hk Dp R Fr HN HV Hi En.
  assert (T : (exists k, tree_inv (p_dims P) (whole_cell P) k (s_tree s)) /\ bal P m Mx (s_tree s)).
  { destruct (grown_inv _ _ _ (proper_box _ _ B) (tp_grown P ops s R)) as (k & I). split; [exists k; exact I|].
    destruct (reach_kept P m Mx e B Mp MM Ek F Lr Ee E1 Nm ops s R Fr) as [E|(_ & _ & Bl & _)]; auto.
    apply one_leaf_bal; auto. rewrite E. reflexivity. }
  destruct T as (T & Bl). assert (Lf : leaf_of (s_tree s) i n) by (split; auto). eapply (even_side P m Mx) with (K := K); eauto.
Qed.
Print Assumptions C117_refines_partial.

(** C117: one call, on a new sampler or after a reset, that delivers the n samples asked for. *)
Theorem C117_error_partial :
  forall P m Mx K D L M pi g J0 J1 s n timeout u tape s' l,
  plain_mode P -> (0 < m)%Q -> (m <= Mx)%Q -> (0 <= K)%Q -> (Mx * power 4 (p_dims P) <= K * K * m)%Q -> (0 <= D)%Q ->
  let whole := (root_center (p_lo P) (p_hi P), root_radius (p_lo P) (p_hi P)) in
  bounded P m Mx pi -> lipschitz pi whole L -> lipschitz (fun x => pi x * g x)%Q whole M ->
  is_integral pi whole J0 -> is_integral (fun x => pi x * g x)%Q whole J1 ->
  unit_open P u -> Forall (open_draws P) tape ->
  tp_call P pi n timeout u tape (tp_reset P s) = Done s' -> get_samples P (s_tree s') = Ok l ->
  (0 < n <= length l)%nat -> (K * cell_volume whole <= power D (p_dims P) * Qnat n)%Q ->
  exists xw, Permutation l (map (fun p => (fst p, Fin (snd p))) xw) /\ (fold_right (fun p s => snd p + s) 0 xw == 1)%Q /\ (0 < J0)%R /\
    (Rabs (Q2R (weighted_sum g xw) - J1 / J0) * Q2R m <= Q2R D * (Q2R M + Q2R L * Rabs (J1 / J0)))%R.
Proof.
  intros P m Mx K D L M pi g J0 J1 s n timeout u tape s' l (B & Ek & F & Lr & (e & Ee & E1) & Nm) Mp MM Kp Hk Dp whole Bd Lp Lg H0 H1 Hu U E El (Hn0 & Hn) HV.
  destruct (first_weighed P m Mx e B Mp MM Ek F Lr Ee E1 Nm pi n timeout u tape (tp_reset P s) s' Bd Hu U eq_refl E) as ((S & _ & Bl & _) & Wd & Us).
  destruct (weighed_rows P e pi s' B Ee E1 S Wd Us) as (l' & rows & El' & Pm & Ec & T & Ep & S1 & Rw).
  assert (l' = l) by congruence. subst l'.
  exists (map (fun row => (snd (fst row), snd row)) rows). split; [rewrite map_map; exact Pm|]. split.
  { rewrite <- S1. clear. induction rows as [|row rows IH]; simpl; [reflexivity|]. rewrite IH. reflexivity. }
  assert (Wp : (0 < snd whole)%Q) by (apply proper_radius; auto).
  assert (JP : (0 < J0)%R) by (apply (integral_positive pi whole m J0 Mp Wp H0); exists Mx; apply Bd).
  split; auto.
  assert (Ecs : map fst (map fst rows) = leaf_cells (s_tree s')) by (rewrite map_map; exact Ec).
  assert (Tr : tiles (map fst (map fst rows)) whole) by (rewrite Ecs; exact T).
  assert (Nl : (length l = length (t_leaves (s_tree s')))%nat).
  { destruct (cache_count P e s' Ee E1 S) as (l2 & El2 & Ll2). rewrite El in El2. congruence. }
  assert (Sd : forall c x, In (c, x) (map fst rows) -> (0 < snd c /\ 2 * snd c <= D /\ in_closed c x)%Q).
  { intros c x Hc. apply in_map_iff in Hc. destruct Hc as (((c', x'), w) & Ex & Hc). simpl in Ex. inversion Ex; subst c' x'.
    destruct (Rw c x w Hc) as (R1 & R2 & _). split; auto. split; auto.
    assert (Hl : In c (leaf_cells (s_tree s'))) by (rewrite <- Ec; apply in_map_iff; exists (c, x, w); auto).
    unfold leaf_cells in Hl. apply in_map_iff in Hl. destruct Hl as (i & Ei & Hi). pose proof (proj1 S) as (k & I).
    destruct (leaf_node _ _ _ _ _ I Hi) as (nd & En & _). rewrite (leaf_cell_of _ _ _ En) in Ei. subst c. simpl.
    assert (Lf : leaf_of (s_tree s') i nd) by (split; auto).
    eapply (even_side P m Mx) with (K := K) (N := n); eauto. split; [lia|]. rewrite <- Nl. exact Hn. }
  pose proof (riemann pi whole L D J0 (map fst rows) Lp H0 Tr Sd) as A0.
  pose proof (riemann (fun x => pi x * g x)%Q whole M D J1 (map fst rows) Lg H1 Tr Sd) as A1.
  assert (Ws : (weighted_sum g (map (fun row => (snd (fst row), snd row)) rows) * estimate pi (map fst rows) == estimate (fun x => pi x * g x) (map fst rows))%Q).
  { apply weighted_estimate. intros c x w Hc. apply (Rw c x w Hc). }
  apply Qeq_eqR in Ws. rewrite Q2R_mult in Ws.
  assert (Vp : (0 < cell_volume whole)%Q) by (apply power_pos; apply (Qmult_lt_0_compat 2 (snd whole)); [reflexivity|auto]).
  assert (Eg : (m * cell_volume whole <= estimate pi (map fst rows))%Q).
  { destruct Tr as (_ & W & _ & V). rewrite <- V. apply estimate_ge. intros c x Hc. destruct (Sd c x Hc) as (R1 & _ & R2). split.
    - apply Qlt_le_weak, power_pos. apply (Qmult_lt_0_compat 2 (snd c)); [reflexivity|auto].
    - apply Bd. apply (W c); auto. apply in_map_iff. exists (c, x). auto. }
  apply Qle_Rle in Eg. rewrite Q2R_mult in Eg. apply Qlt_Rlt in Vp. rewrite RMicromega.Q2R_0 in Vp. apply Qlt_Rlt in Mp. rewrite RMicromega.Q2R_0 in Mp.
  pose proof (Qle_Rle _ _ Dp) as Dp'. rewrite RMicromega.Q2R_0 in Dp'.
  set (W := Q2R (weighted_sum g (map (fun row => (snd (fst row), snd row)) rows))) in *. set (Er := Q2R (estimate pi (map fst rows))) in *.
  set (A := Q2R (estimate (fun x => pi x * g x)%Q (map fst rows))) in *. set (V := Q2R (cell_volume whole)) in *.
  set (rho := (J1 / J0)%R). assert (Er1 : J1 = (rho * J0)%R) by (unfold rho; field; lra).
  assert (Id : ((W - rho) * Er = (A - J1) - rho * (Er - J0))%R) by (rewrite Er1; rewrite <- Ws; ring).
  assert (Up : (Rabs (W - rho) * Er <= (Q2R M + Q2R L * Rabs rho) * Q2R D * V)%R).
  { assert (Ep' : (0 < Er)%R) by nra. rewrite <- (Rabs_pos_eq Er) by lra. rewrite <- Rabs_mult, Id. eapply Rle_trans; [apply Rabs_triang|].
    rewrite Rabs_Ropp, Rabs_mult. pose proof (Rabs_pos rho). assert (Rabs rho * Rabs (Er - J0) <= Rabs rho * (Q2R L * Q2R D * V))%R by (apply Rmult_le_compat_l; auto). lra. }
  pose proof (Rabs_pos (W - rho)) as Ap. set (a := Rabs (W - rho)) in *. set (b := ((Q2R M + Q2R L * Rabs rho) * Q2R D)%R) in *.
  replace (Q2R D * (Q2R M + Q2R L * Rabs rho))%R with b by (unfold b; ring).
  assert (a * (Q2R m * V) <= b * V)%R by (eapply Rle_trans; [apply Rmult_le_compat_l; [exact Ap|exact Eg]|exact Up]).
  apply Rmult_le_reg_r with V; auto. lra.
Qed.
Print Assumptions C117_error_partial.

(** C117: for every tolerance there is a number of samples from which on the estimates of one call are within it, whatever was drawn. *)
Theorem C117_consistent_partial :
  forall P m Mx L M pi g J0 J1 eps, plain_mode P -> (0 < m)%Q -> (m <= Mx)%Q -> (0 < eps)%R ->
  let whole := (root_center (p_lo P) (p_hi P), root_radius (p_lo P) (p_hi P)) in
  bounded P m Mx pi -> lipschitz pi whole L -> lipschitz (fun x => pi x * g x)%Q whole M ->
  is_integral pi whole J0 -> is_integral (fun x => pi x * g x)%Q whole J1 ->
  exists N, forall s n timeout u tape s' l, unit_open P u -> Forall (open_draws P) tape ->
    tp_call P pi n timeout u tape (tp_reset P s) = Done s' -> get_samples P (s_tree s') = Ok l -> (N <= n)%nat -> (n <= length l)%nat ->
    exists xw, Permutation l (map (fun p => (fst p, Fin (snd p))) xw) /\ (Rabs (Q2R (weighted_sum g xw) - J1 / J0) <= eps)%R.
Proof.
  intros P m Mx L M pi g J0 J1 eps Rf Mp MM He whole Bd Lp Lg H0 H1. pose proof Rf as (B & _).
  pose proof (Qlt_Rlt _ _ Mp) as Mp'. rewrite RMicromega.Q2R_0 in Mp'.
  set (c := (Q2R M + Q2R L * Rabs (J1 / J0))%R). 
  assert (Cp : (0 <= c)%R).
  { unfold c. pose proof (Qle_Rle _ _ (proj1 Lp)) as A. pose proof (Qle_Rle _ _ (proj1 Lg)) as A'. rewrite RMicromega.Q2R_0 in A, A'. pose proof (Rabs_pos (J1 / J0)). nra. }
  assert (Hd : exists k : BinNums.positive, (Q2R (1 # k) * c <= eps * Q2R m)%R).
  { set (z := (c / (eps * Q2R m))%R). destruct (archimed z) as (A & _). assert (Zp : (0 <= z)%R).
    { unfold z. apply Rmult_le_pos; auto. apply Rlt_le, Rinv_0_lt_compat. nra. }
    assert (0 < up z)%Z by (apply lt_IZR; lra). exists (Z.to_pos (up z)). unfold Q2R. simpl Qnum. simpl Qden. rewrite Z2Pos.id by auto.
    assert (Ez : c = (z * (eps * Q2R m))%R) by (unfold z; field; nra). assert (0 < IZR (up z))%R by (apply (IZR_lt 0); auto).
    apply Rmult_le_reg_l with (IZR (up z)); auto. replace (IZR (up z) * (1 * / IZR (up z) * c))%R with c by (field; lra). rewrite Ez. apply Rmult_le_compat_r; [apply Rlt_le, Rmult_lt_0_compat; auto|lra]. }
  destruct Hd as (k & Hd).
  set (K := (Mx * power 4 (p_dims P) / m + 1)%Q).
  assert (Rat : (0 <= Mx * power 4 (p_dims P) / m)%Q).
  { apply Qle_shift_div_l; auto. setoid_replace (0 * m)%Q with 0%Q by ring. apply Qmult_le_0_compat; [apply Qle_trans with m; auto; apply Qlt_le_weak; auto|].
    apply Qlt_le_weak, power_pos. reflexivity. }
  assert (Kp : (0 <= K)%Q) by (apply Qle_trans with (1 := Rat); unfold K; rewrite <- (Qplus_0_r (Mx * power 4 (p_dims P) / m)) at 1; apply Qplus_le_r; discriminate).
  assert (Hk : (Mx * power 4 (p_dims P) <= K * K * m)%Q).
  { set (q := (Mx * power 4 (p_dims P) / m)%Q) in *. assert (Eq : (Mx * power 4 (p_dims P) == q * m)%Q) by (unfold q; field; intros Z; rewrite Z in Mp; discriminate).
    rewrite Eq. apply Qmult_le_compat_r; [|apply Qlt_le_weak; auto]. unfold K. fold q.
    apply Qle_Rle in Rat. rewrite RMicromega.Q2R_0 in Rat. apply Rle_Qle. rewrite Q2R_mult, Q2R_plus. assert (Q1 : Q2R 1 = 1%R) by (unfold Q2R; simpl; lra). rewrite Q1. nra. }
  set (D := (1 # k)%Q). assert (Dp : (0 < power D (p_dims P))%Q) by (apply power_pos; reflexivity).
  destruct (Qarchimedean (K * cell_volume whole / power D (p_dims P))) as (p & Hp). exists (Pos.to_nat p).
  intros s n timeout u tape s' l Hu U E El HN Hn.
  destruct (C117_error_partial P m Mx K D L M pi g J0 J1 s n timeout u tape s' l Rf Mp MM Kp Hk) as (xw & X1 & _ & _ & X3); auto.
  - discriminate.
  - split; [pose proof (Pos2Nat.is_pos p); lia|auto].
  - apply Qle_trans with (power D (p_dims P) * Qnat (Pos.to_nat p))%Q.
    + assert (Ep : (Qnat (Pos.to_nat p) == inject_Z (Z.pos p))%Q) by (unfold Qnat; rewrite positive_nat_Z; reflexivity). rewrite Ep.
      apply Qlt_le_weak in Hp. apply (Qmult_le_compat_r _ _ (power D (p_dims P))) in Hp; [|apply Qlt_le_weak; auto].
      setoid_replace (K * cell_volume whole / power D (p_dims P) * power D (p_dims P))%Q with (K * cell_volume whole)%Q in Hp by (field; intros Z; rewrite Z in Dp; discriminate).
      rewrite (Qmult_comm (power D (p_dims P))). exact Hp.
    + rewrite !(Qmult_comm (power D (p_dims P))). apply Qmult_le_compat_r; [apply Qnat_le; auto|apply Qlt_le_weak; auto].
  - exists xw. split; auto. fold c in X3. fold D in Hd. apply Rmult_le_reg_r with (Q2R m); auto. lra.
Qed.
Print Assumptions C117_consistent_partial.

(** The target 1 + x on [0, 1], six samples without resampling. *)
Definition keep_P : tp_params := line Haar Simple false (Some 2) 1 1.
Definition keep_end : tp := out_state (tp_run keep_P slope_op (tp_new keep_P)).
Lemma keep_mode : plain_mode keep_P.
Proof. split; [apply line_proper|]. repeat split; [exists 2%Q; split; reflexivity|simpl; lia]. Qed.
Lemma half_open a : (0 < a)%Q -> (a < 1)%Q -> open_draws keep_P (unit_round a).
Proof. intros A0 A1 i. split; [reflexivity|]. repeat constructor; auto. Qed.
Example C117_refines_partial_example :
  plain_mode keep_P /\ tp_reachable keep_P [(slope_op, true)] keep_end /\ Forall (fun ob => open_fair keep_P 1 2 (fst ob)) [(slope_op, true)] /\
  (2 * power 4 (p_dims keep_P) <= 3 * 3 * 1)%Q /\ length (t_leaves (s_tree keep_end)) = 6%nat /\
  (3 * cell_volume (root_center (p_lo keep_P) (p_hi keep_P), root_radius (p_lo keep_P) (p_hi keep_P)) <= power (1 # 2) (p_dims keep_P) * Qnat 6)%Q /\
  exists i n, In i (t_leaves (s_tree keep_end)) /\ nth_error (t_nodes (s_tree keep_end)) i = Some n /\ (2 * n_radius n == 1 # 4)%Q.
Proof.
  split; [apply keep_mode|]. split; [eapply tp_done; [apply tp_init|vm_compute; reflexivity]|]. split.
  { constructor; [|constructor]. pose proof slope_fair as (Bd & _). split; [exact Bd|]. split; [split; [reflexivity|repeat constructor]|].
    apply Forall_forall. intros r Hr. apply repeat_spec in Hr. subst r. apply half_open; reflexivity. }
  split; [vm_compute; discriminate|]. split; [vm_compute; reflexivity|]. split; [vm_compute; discriminate|].
  exists 5%nat. eexists. split; [vm_compute; tauto|]. split; vm_compute; reflexivity.
Qed.
Example C117_error_partial_example :
  let whole := (root_center (p_lo keep_P) (p_hi keep_P), root_radius (p_lo keep_P) (p_hi keep_P)) in
  plain_mode keep_P /\ bounded keep_P 1 2 slope /\ lipschitz slope whole 1 /\ lipschitz (fun x => slope x * inv_slope x)%Q whole 0 /\
  is_integral slope whole (3 / 2) /\ is_integral (fun x => slope x * inv_slope x)%Q whole 1 /\
  unit_open keep_P [(1 # 2)%Q] /\ Forall (open_draws keep_P) (repeat (unit_round (1 # 2)) 5) /\
  tp_call keep_P slope 6 1 [(1 # 2)%Q] (repeat (unit_round (1 # 2)) 5) (tp_reset keep_P (tp_new keep_P)) = Done keep_end /\
  exists l, get_samples keep_P (s_tree keep_end) = Ok l /\ length l = 6%nat.
Proof.
  destruct C105_error_example as (_ & Bd & L1 & L2 & I0 & I1 & _).
  split; [apply keep_mode|]. split; [exact Bd|]. split; [exact L1|]. split; [exact L2|]. split; [exact I0|]. split; [exact I1|].
  split; [split; [reflexivity|repeat constructor]|]. split.
  { apply Forall_forall. intros r Hr. apply repeat_spec in Hr. subst r. apply half_open; reflexivity. }
  split; [vm_compute; reflexivity|]. eexists. split; vm_compute; reflexivity.
Qed.
(** The same target: beyond some number of samples the weighted mean of 1/target is within one hundredth of 2/3. *)
Example C117_consistent_partial_example :
  exists N, forall s n timeout u tape s' l, unit_open keep_P u -> Forall (open_draws keep_P) tape ->
    tp_call keep_P slope n timeout u tape (tp_reset keep_P s) = Done s' -> get_samples keep_P (s_tree s') = Ok l -> (N <= n)%nat -> (n <= length l)%nat ->
    exists xw, Permutation l (map (fun p => (fst p, Fin (snd p))) xw) /\ (Rabs (Q2R (weighted_sum inv_slope xw) - 1 / (3 / 2)) <= / 100)%R.
Proof.
  destruct C117_error_partial_example as (Md & Bd & L1 & L2 & I0 & I1 & _).
  apply (C117_consistent_partial keep_P 1 2 1 0 slope inv_slope (3 / 2) 1 (/ 100)); auto; try lra; unfold Qlt, Qle; simpl; lia.
Qed.
