(** C105: the estimates of the leaf-resampled tree sampler converge. *)
From Coq Require Import List Bool Arith Lia QArith Qabs Reals Qreals Lra Permutation.
Import ListNotations.
From Verif Require Import Prelude.Py Prelude.QBase Prelude.QFacts Model.Population Model.Tree Model.TreeSampler Spec.TreeSpec Spec.Box Spec.RefineSpec
  Proofs.TreeCells Proofs.TreeProofs Proofs.TreeMask Proofs.TreeSamplerTree Proofs.TreeSamplerInv Proofs.TreeSamplerLeaves Proofs.TreeRequest Proofs.TreeRefine
  Proofs.RefineSums Proofs.LineIntegral Properties.TreeSamplerProps Properties.TreeRefineProps.

Lemma Q2R_le a b : (a <= b)%Q -> (Q2R a <= Q2R b)%R.
Proof. apply Qle_Rle. Qed.
(** A Riemann sum over cubes of sides at most [D]. *)
Lemma riemann f whole L D J rows : lipschitz f whole L -> is_integral f whole J -> tiles (map fst rows) whole ->
  (forall c x, In (c, x) rows -> 0 < snd c /\ 2 * snd c <= D /\ in_closed c x)%Q ->
  (Rabs (Q2R (estimate f rows) - J) <= Q2R L * Q2R D * Q2R (cell_volume whole))%R.
Proof.
  intros Lf Hj T H. destruct (Hj (bands f (L * D)%Q rows)) as (A & C).
  - rewrite bands_cells. exact T.
  - apply (bands_ok f whole L D rows); auto. apply T.
  - rewrite (Qeq_eqR _ _ (bands_low f (L * D)%Q rows)) in A. rewrite (Qeq_eqR _ _ (bands_high f (L * D)%Q rows)) in C.
    destruct T as (_ & _ & _ & V). rewrite Q2R_minus, !Q2R_mult, (Qeq_eqR _ _ V) in A. rewrite Q2R_plus, !Q2R_mult, (Qeq_eqR _ _ V) in C.
    apply Rabs_le. lra.
Qed.
Lemma integral_positive f whole m J : (0 < m)%Q -> (0 < snd whole)%Q -> is_integral f whole J -> (exists Mx, forall x, in_closed whole x -> m <= f x /\ f x <= Mx)%Q -> (0 < J)%R.
Proof.
  intros Mp R Hj (Mx & H). destruct (Hj [(whole, (m, Mx))]) as (A & _).
  - apply whole_tiles.
  - intros c a b [E|[]]. inversion E; subst. auto.
  - simpl in A. assert (0 < m * cell_volume whole + 0)%Q.
    { setoid_replace (m * cell_volume whole + 0)%Q with (m * cell_volume whole)%Q by ring. apply Qmult_lt_0_compat; auto. apply power_pos.
      apply (Qmult_lt_0_compat 2 (snd whole)); [reflexivity|auto]. }
    apply Qlt_Rlt in H0. rewrite RMicromega.Q2R_0 in H0. unfold mass in A. simpl in A. lra.
Qed.

(** C105: a call that makes a turn and delivers the n samples asked for, on a target with values in [m, Mx] on the root's cube, after any history
    of such calls and for every draw in the unit cube. The weighted sum of any [g] over the returned samples differs from the ratio of the
    integrals (the expectation of [g] under the normalised target) by at most D * (M + L * |ratio|) / m, where L and M are Lipschitz
    constants of the target and of its product with [g], and K * volume <= D^d * n: an error of order n^(-1/d), for certain. *)
Theorem C105_error :
  forall P m Mx K D L M pi g J0 J1 ops s n timeout u tape s' l,
  refining P -> (0 < m)%Q -> (m <= Mx)%Q -> (0 <= K)%Q -> (Mx * power 4 (p_dims P) <= K * K * m)%Q -> (0 <= D)%Q ->
  let whole := (root_center (p_lo P) (p_hi P), root_radius (p_lo P) (p_hi P)) in
  bounded P m Mx pi -> lipschitz pi whole L -> lipschitz (fun x => pi x * g x)%Q whole M ->
  is_integral pi whole J0 -> is_integral (fun x => pi x * g x)%Q whole J1 ->
  tp_reachable P ops s -> Forall (fun ob => fair P m Mx (fst ob)) ops -> Forall (unit_draws P) tape ->
  (length (t_leaves (s_tree s)) < n)%nat -> (0 < timeout)%Q -> tp_call P pi n timeout u tape s = Done s' -> get_samples P (s_tree s') = Ok l ->
  (n <= length l)%nat -> (K * cell_volume whole <= power D (p_dims P) * Qnat n)%Q ->
  exists xw, Permutation l (map (fun p => (fst p, Fin (snd p))) xw) /\ (fold_right (fun p s => snd p + s) 0 xw == 1)%Q /\ (0 < J0)%R /\
    (Rabs (Q2R (weighted_sum g xw) - J1 / J0) * Q2R m <= Q2R D * (Q2R M + Q2R L * Rabs (J1 / J0)))%R.
Proof.
  intros P m Mx K D L M pi g J0 J1 ops s n timeout u tape s' l (B & Ek & F & Lr & (e & Ee & E1) & Nm) Mp MM Kp Hk Dp whole Bd Lp Lg H0 H1 R Fr U Ln Ht E El Hn HV.
  destruct (call_rows P m Mx e B Mp MM Ek F Lr Ee E1 Nm pi ops s n timeout u tape s' R Fr Bd U Ln Ht E) as (Ev & l' & rows & El' & Pm & Ec & T & Ep & S1 & Rw).
  assert (l' = l) by congruence. subst l'.
  exists (map (fun row => (snd (fst row), snd row)) rows). split; [rewrite map_map; exact Pm|]. split.
  { rewrite <- S1. clear. induction rows as [|row rows IH]; simpl; [reflexivity|]. rewrite IH. reflexivity. }
  assert (Wp : (0 < snd whole)%Q) by (apply proper_radius; auto).
  assert (JP : (0 < J0)%R) by (apply (integral_positive pi whole m J0 Mp Wp H0); exists Mx; apply Bd).
  split; auto.
  assert (Ecs : map fst (map fst rows) = leaf_cells (s_tree s')) by (rewrite map_map; exact Ec).
  assert (Tr : tiles (map fst (map fst rows)) whole) by (rewrite Ecs; exact T).
  assert (Nl : (length l = length (t_leaves (s_tree s')))%nat).
  { destruct (cache_count P e s' Ee E1 (proj1 Ev)) as (l2 & El2 & Ll2). rewrite El in El2. congruence. }
  assert (Sd : forall c x, In (c, x) (map fst rows) -> (0 < snd c /\ 2 * snd c <= D /\ in_closed c x)%Q).
  { intros c x Hc. apply in_map_iff in Hc. destruct Hc as (((c', x'), w) & Ex & Hc). simpl in Ex. inversion Ex; subst c' x'.
    destruct (Rw c x w Hc) as (R1 & R2 & _). split; auto. split; auto.
    assert (Hl : In c (leaf_cells (s_tree s'))) by (rewrite <- Ec; apply in_map_iff; exists (c, x, w); auto).
    unfold leaf_cells in Hl. apply in_map_iff in Hl. destruct Hl as (i & Ei & Hi). destruct Ev as (S & _ & Bl & _). pose proof (proj1 S) as (k & I).
    destruct (leaf_node _ _ _ _ _ I Hi) as (nd & En & _). rewrite (leaf_cell_of _ _ _ En) in Ei. subst c. simpl.
    assert (Lf : leaf_of (s_tree s') i nd) by (split; auto).
    eapply (even_side P m Mx) with (K := K) (N := n); eauto. split; [lia|]. rewrite <- Nl. exact Hn. }
  pose proof (riemann pi whole L D J0 (map fst rows) Lp H0 Tr Sd) as A0.
  pose proof (riemann (fun x => pi x * g x)%Q whole M D J1 (map fst rows) Lg H1 Tr Sd) as A1.
  assert (Ws : (weighted_sum g (map (fun row => (snd (fst row), snd row)) rows) * estimate pi (map fst rows) == estimate (fun x => pi x * g x) (map fst rows))%Q).
  { apply weighted_estimate. intros c x w Hc. apply (Rw c x w Hc). }
  apply Qeq_eqR in Ws. rewrite Q2R_mult in Ws.
  assert (Vp : (0 < cell_volume whole)%Q) by (apply power_pos; apply (Qmult_lt_0_compat 2 (snd whole)); [reflexivity|auto]).
  assert (Eg : (m * cell_volume whole <= estimate pi (map fst rows))%Q).
  { destruct Tr as (_ & W & _ & V). rewrite <- V. apply estimate_ge. intros c x Hc. destruct (Sd c x Hc) as (R1 & _ & R2). split.
    - apply Qlt_le_weak, power_pos. apply (Qmult_lt_0_compat 2 (snd c)); [reflexivity|auto].
    - apply Bd. apply (W c); auto. apply in_map_iff. exists (c, x). auto. }
  apply Qle_Rle in Eg. rewrite Q2R_mult in Eg. apply Qlt_Rlt in Vp. rewrite RMicromega.Q2R_0 in Vp. apply Qlt_Rlt in Mp. rewrite RMicromega.Q2R_0 in Mp.
  pose proof (Qle_Rle _ _ Dp) as Dp'. rewrite RMicromega.Q2R_0 in Dp'.
  set (W := Q2R (weighted_sum g (map (fun row => (snd (fst row), snd row)) rows))) in *. set (Er := Q2R (estimate pi (map fst rows))) in *.
  set (A := Q2R (estimate (fun x => pi x * g x)%Q (map fst rows))) in *. set (V := Q2R (cell_volume whole)) in *.
  set (rho := (J1 / J0)%R). assert (Er1 : J1 = (rho * J0)%R) by (unfold rho; field; lra).
  assert (Id : ((W - rho) * Er = (A - J1) - rho * (Er - J0))%R) by (rewrite Er1; rewrite <- Ws; ring).
  assert (Up : (Rabs (W - rho) * Er <= (Q2R M + Q2R L * Rabs rho) * Q2R D * V)%R).
  { assert (Ep' : (0 < Er)%R) by nra. rewrite <- (Rabs_pos_eq Er) by lra. rewrite <- Rabs_mult, Id. eapply Rle_trans; [apply Rabs_triang|].
    rewrite Rabs_Ropp, Rabs_mult. pose proof (Rabs_pos rho). assert (Rabs rho * Rabs (Er - J0) <= Rabs rho * (Q2R L * Q2R D * V))%R by (apply Rmult_le_compat_l; auto). lra. }
  pose proof (Rabs_pos (W - rho)) as Ap. set (a := Rabs (W - rho)) in *. set (b := ((Q2R M + Q2R L * Rabs rho) * Q2R D)%R) in *.
  replace (Q2R D * (Q2R M + Q2R L * Rabs rho))%R with b by (unfold b; ring).
  assert (a * (Q2R m * V) <= b * V)%R by (eapply Rle_trans; [apply Rmult_le_compat_l; [exact Ap|exact Eg]|exact Up]).
  apply Rmult_le_reg_r with V; auto. lra.
Qed.
Print Assumptions C105_error.

(** C105: for every tolerance there is a number of samples from which on the estimates are within it, whatever was drawn. *)
Theorem C105_consistent :
  forall P m Mx L M pi g J0 J1 eps, refining P -> (0 < m)%Q -> (m <= Mx)%Q -> (0 < eps)%R ->
  let whole := (root_center (p_lo P) (p_hi P), root_radius (p_lo P) (p_hi P)) in
  bounded P m Mx pi -> lipschitz pi whole L -> lipschitz (fun x => pi x * g x)%Q whole M ->
  is_integral pi whole J0 -> is_integral (fun x => pi x * g x)%Q whole J1 ->
  exists N, forall ops s n timeout u tape s' l,
    tp_reachable P ops s -> Forall (fun ob => fair P m Mx (fst ob)) ops -> Forall (unit_draws P) tape ->
    (length (t_leaves (s_tree s)) < n)%nat -> (0 < timeout)%Q -> tp_call P pi n timeout u tape s = Done s' -> get_samples P (s_tree s') = Ok l ->
    (N <= n)%nat -> (n <= length l)%nat ->
    exists xw, Permutation l (map (fun p => (fst p, Fin (snd p))) xw) /\ (Rabs (Q2R (weighted_sum g xw) - J1 / J0) <= eps)%R.
Proof.
  intros P m Mx L M pi g J0 J1 eps Rf Mp MM He whole Bd Lp Lg H0 H1. pose proof Rf as (B & _).
  pose proof (Qlt_Rlt _ _ Mp) as Mp'. rewrite RMicromega.Q2R_0 in Mp'.
  set (c := (Q2R M + Q2R L * Rabs (J1 / J0))%R). 
  assert (Cp : (0 <= c)%R).
  { unfold c. pose proof (Qle_Rle _ _ (proj1 Lp)) as A. pose proof (Qle_Rle _ _ (proj1 Lg)) as A'. rewrite RMicromega.Q2R_0 in A, A'. pose proof (Rabs_pos (J1 / J0)). nra. }
  assert (Hd : exists k : BinNums.positive, (Q2R (1 # k) * c <= eps * Q2R m)%R).
  { set (z := (c / (eps * Q2R m))%R). destruct (archimed z) as (A & _). assert (Zp : (0 <= z)%R).
    { unfold z. apply Rmult_le_pos; auto. apply Rlt_le, Rinv_0_lt_compat. nra. }
    assert (0 < up z)%Z by (apply lt_IZR; lra). exists (Z.to_pos (up z)). unfold Q2R. simpl Qnum. simpl Qden. rewrite Z2Pos.id by auto.
    assert (Ez : c = (z * (eps * Q2R m))%R) by (unfold z; field; nra). assert (0 < IZR (up z))%R by (apply (IZR_lt 0); auto).
    apply Rmult_le_reg_l with (IZR (up z)); auto. replace (IZR (up z) * (1 * / IZR (up z) * c))%R with c by (field; lra). rewrite Ez. apply Rmult_le_compat_r; [apply Rlt_le, Rmult_lt_0_compat; auto|lra]. }
  destruct Hd as (k & Hd).
  set (K := (Mx * power 4 (p_dims P) / m + 1)%Q).
  assert (Rat : (0 <= Mx * power 4 (p_dims P) / m)%Q).
  { apply Qle_shift_div_l; auto. setoid_replace (0 * m)%Q with 0%Q by ring. apply Qmult_le_0_compat; [apply Qle_trans with m; auto; apply Qlt_le_weak; auto|].
    apply Qlt_le_weak, power_pos. reflexivity. }
  assert (Kp : (0 <= K)%Q) by (apply Qle_trans with (1 := Rat); unfold K; rewrite <- (Qplus_0_r (Mx * power 4 (p_dims P) / m)) at 1; apply Qplus_le_r; discriminate).
  assert (Hk : (Mx * power 4 (p_dims P) <= K * K * m)%Q).
  { set (q := (Mx * power 4 (p_dims P) / m)%Q) in *. assert (Eq : (Mx * power 4 (p_dims P) == q * m)%Q) by (unfold q; field; intros Z; rewrite Z in Mp; discriminate).
    rewrite Eq. apply Qmult_le_compat_r; [|apply Qlt_le_weak; auto]. unfold K. fold q.
    apply Qle_Rle in Rat. rewrite RMicromega.Q2R_0 in Rat. apply Rle_Qle. rewrite Q2R_mult, Q2R_plus. assert (Q1 : Q2R 1 = 1%R) by (unfold Q2R; simpl; lra). rewrite Q1. nra. }
  set (D := (1 # k)%Q). assert (Dp : (0 < power D (p_dims P))%Q) by (apply power_pos; reflexivity).
  destruct (Qarchimedean (K * cell_volume whole / power D (p_dims P))) as (p & Hp). exists (Pos.to_nat p).
  intros ops s n timeout u tape s' l R Fr U Ln Ht E El HN Hn.
  destruct (C105_error P m Mx K D L M pi g J0 J1 ops s n timeout u tape s' l Rf Mp MM Kp Hk) as (xw & X1 & _ & _ & X3); auto.
  - discriminate.
  - apply Qle_trans with (power D (p_dims P) * Qnat (Pos.to_nat p))%Q.
    + assert (Ep : (Qnat (Pos.to_nat p) == inject_Z (Z.pos p))%Q) by (unfold Qnat; rewrite positive_nat_Z; reflexivity). rewrite Ep.
      apply Qlt_le_weak in Hp. apply (Qmult_le_compat_r _ _ (power D (p_dims P))) in Hp; [|apply Qlt_le_weak; auto].
      setoid_replace (K * cell_volume whole / power D (p_dims P) * power D (p_dims P))%Q with (K * cell_volume whole)%Q in Hp by (field; intros Z; rewrite Z in Dp; discriminate).
      rewrite (Qmult_comm (power D (p_dims P))). exact Hp.
    + rewrite !(Qmult_comm (power D (p_dims P))). apply Qmult_le_compat_r; [apply Qnat_le; auto|apply Qlt_le_weak; auto].
  - exists xw. split; auto. fold c in X3. fold D in Hd. apply Rmult_le_reg_r with (Q2R m); auto. lra.
Qed.
Print Assumptions C105_consistent.

(** Target 1 + x on [0, 1] and g = 1 / (1 + x): the integrals are 3/2 and 1, so the expectation is 2/3. *)
Lemma affine_integral f p q a r : (0 < r)%Q -> (forall x, in_closed ([a], r) [x] -> f [x] == p + q * x)%Q -> is_integral f ([a], r) (Q2R ((p + q * a) * (2 * r))).
Proof.
  intros Rp Hf l T H. 
  assert (Pos : forall c, In c (map fst l) -> (0 < snd c)%Q).
  { intros c Hc. apply in_map_iff in Hc. destruct Hc as ((c', (x, y)) & <- & Hc). apply (H _ _ _ Hc). }
  destruct (line_tiles (map fst l) a r Rp Pos T) as (iv & Ll & Em & Es). destruct T as (_ & W & _ & V).
  assert (G : (mass (map (fun e => (fst e, fst (snd e))) l) <= p * total_volume (map fst l) + q * fold_right (fun x s => fst x * (2 * snd x) + s) 0 iv /\
               p * total_volume (map fst l) + q * fold_right (fun x s => fst x * (2 * snd x) + s) 0 iv <= mass (map (fun e => (fst e, snd (snd e))) l))%Q).
  { assert (Hm : forall c x y, In (c, (x, y)) l -> exists z t, c = ([z], t) /\ (0 < t)%Q /\ (x <= p + q * z)%Q /\ (p + q * z <= y)%Q).
    { intros c x y Hc. destruct (H c x y Hc) as (Rc & Hb). assert (Ic : In c (map fst l)) by (apply in_map_iff; exists (c, (x, y)); auto).
      rewrite <- Em in Ic. apply in_map_iff in Ic. destruct Ic as ((z, t) & <- & _). exists z, t. split; auto. split; auto.
      assert (Cz : in_closed ([z], t) [z]).
      { repeat constructor; simpl in *; apply Qlt_le_weak in Rc; [rewrite <- (Qplus_0_r z) at 2; unfold Qminus; apply Qplus_le_r; rewrite <- (Qopp_involutive 0); apply Qopp_le_compat; exact Rc|rewrite <- (Qplus_0_r z) at 1; apply Qplus_le_r; auto]. }
      assert (Hw : in_closed ([a], r) [z]).
      { apply (W ([z], t)); auto. apply in_map_iff. exists (([z], t), (x, y)). auto. }
      rewrite <- (Hf z Hw). apply Hb. exact Cz. }
    clear W V H Pos Es Ll. revert iv Em. induction l as [|(c, (x, y)) l IH]; intros iv Em.
    - destruct iv; [|discriminate]. unfold mass, total_volume. simpl. split; ring_simplify; apply Qle_refl.
    - destruct iv as [|(z, t) iv]; [discriminate|]. cbn [map fst snd] in Em. injection Em as Ec Em'. subst c.
      destruct (Hm ([z], t) x y (or_introl eq_refl)) as (z' & t' & Ec' & Tp & X1 & X2). inversion Ec'; subst z' t'. clear Ec'.
      destruct (IH (fun c x y Hc => Hm c x y (or_intror Hc)) iv Em') as (K1 & K2).
      cbn [map mass total_volume fold_right fst snd]. unfold mass, total_volume in *. 
      set (lo := fold_right _ 0%Q (map (fun e => (fst e, fst (snd e))) l)) in *. set (hi := fold_right _ 0%Q (map (fun e => (fst e, snd (snd e))) l)) in *.
      set (tv := fold_right _ 0%Q (map fst l)) in *. set (sm := fold_right _ 0%Q iv) in *. clearbody lo hi tv sm.
      assert (Ev : (cell_volume ([z], t) == 2 * t)%Q) by (unfold cell_volume; simpl; ring). rewrite Ev.
      assert (Tt : (0 <= 2 * t)%Q) by (apply Qmult_le_0_compat; [discriminate|apply Qlt_le_weak; auto]).
      apply (fun h => Qmult_le_compat_r _ _ (2 * t)%Q h Tt) in X1. apply (fun h => Qmult_le_compat_r _ _ (2 * t)%Q h Tt) in X2.
      split; [setoid_replace (p * (2 * t + tv) + q * (z * (2 * t) + sm))%Q with ((p + q * z) * (2 * t) + (p * tv + q * sm))%Q by ring; apply Qplus_le_compat; auto|
              setoid_replace (p * (2 * t + tv) + q * (z * (2 * t) + sm))%Q with ((p + q * z) * (2 * t) + (p * tv + q * sm))%Q by ring; apply Qplus_le_compat; auto]. }
  assert (Ev : (p * total_volume (map fst l) + q * fold_right (fun x s => fst x * (2 * snd x) + s) 0 iv == (p + q * a) * (2 * r))%Q).
  { rewrite V, Es. unfold cell_volume. simpl. ring. }
  rewrite Ev in G. split; apply Qle_Rle; apply G.
Qed.
Definition inv_slope (x : list Q) : Q := (1 / slope x)%Q.
Example C105_error_example :
  let whole := (root_center (p_lo slope_P) (p_hi slope_P), root_radius (p_lo slope_P) (p_hi slope_P)) in
  refining slope_P /\ bounded slope_P 1 2 slope /\ lipschitz slope whole 1 /\ lipschitz (fun x => slope x * inv_slope x)%Q whole 0 /\
  is_integral slope whole (3 / 2) /\ is_integral (fun x => slope x * inv_slope x)%Q whole 1 /\
  Forall (unit_draws slope_P) (repeat (unit_round (1 # 2)) 5) /\ (length (t_leaves (s_tree (tp_new slope_P))) < 6)%nat /\
  tp_call slope_P slope 6 1 [(1 # 2)%Q] (repeat (unit_round (1 # 2)) 5) (tp_new slope_P) = Done slope_end /\
  exists l, get_samples slope_P (s_tree slope_end) = Ok l /\ length l = 6%nat.
Proof.
  intros whole. pose proof C105_refines_example as (Rf & _). pose proof slope_fair as (Bd & Ud).
  assert (Sp : forall x, (1 <= slope x)%Q).
  { intros x. unfold slope. rewrite <- (Qplus_0_r 1) at 1. apply Qplus_le_r, Qabs_nonneg. }
  assert (One : forall x, (slope x * inv_slope x == 1)%Q).
  { intros x. unfold inv_slope. field. intros Z. specialize (Sp x). rewrite Z in Sp. apply Sp. reflexivity. }
  assert (Hd : forall x : list Q, hd 0%Q x = nth 0 x 0%Q) by (intros [|]; reflexivity).
  assert (Rv : forall a b, (Qabs a - Qabs b <= Qabs (a - b))%Q) by (intros; apply Qabs_triangle_reverse).
  assert (Wp : (0 < snd whole)%Q) by (vm_compute; reflexivity).
  split; auto. split; auto. split; [split; [discriminate|]|].
  { intros x y h _ _ H. specialize (H 0%nat). unfold slope. rewrite !Hd. set (a := nth 0 x 0%Q) in *. set (b := nth 0 y 0%Q) in *.
    setoid_replace (1 + Qabs a - (1 + Qabs b))%Q with (Qabs a - Qabs b)%Q by ring.
    rewrite Qmult_1_l. apply Qle_trans with (2 := H). apply Qabs_Qle_condition. split; [|apply Rv].
    pose proof (Rv b a) as R1. rewrite <- (Qabs_opp (b - a)) in R1. setoid_replace (- (b - a))%Q with (a - b)%Q in R1 by ring.
    apply Qopp_le_compat in R1. setoid_replace (- (Qabs b - Qabs a))%Q with (Qabs a - Qabs b)%Q in R1 by ring. exact R1. }
  split; [split; [discriminate|]|].
  { intros x y h _ _ H. rewrite !One. setoid_replace (1 - 1)%Q with 0%Q by ring. rewrite Qmult_0_l. discriminate. }
  split; [|split].
  - replace (3 / 2)%R with (Q2R ((1 + 1 * hd 0 (fst whole)) * (2 * snd whole))) by (vm_compute Q2R; lra). apply (affine_integral slope 1 1 (hd 0%Q (fst whole)) (snd whole) Wp).
    intros x H. unfold slope. cbn [hd]. rewrite Qmult_1_l. inversion H as [|? v ? ? (A1 & A2) A3]; subst. cbn [snd] in A1.
    assert (Z : (hd 0 (fst whole) - snd whole == 0)%Q) by (vm_compute; reflexivity). assert (A4 : (hd 0 (fst whole) - snd whole <= x)%Q) by exact A1. rewrite Z in A4. rewrite Qabs_pos; [reflexivity|exact A4].
  - replace 1%R with (Q2R ((1 + 0 * hd 0 (fst whole)) * (2 * snd whole))) by (vm_compute Q2R; lra).
    apply (affine_integral (fun x => slope x * inv_slope x)%Q 1 0 (hd 0%Q (fst whole)) (snd whole) Wp). intros x _. rewrite One. ring.
  - split; [exact Ud|]. split; [vm_compute; lia|]. split; [vm_compute; reflexivity|]. eexists. split; vm_compute; reflexivity.
Qed.

(** The same target: beyond some number of samples the weighted mean of 1/target is within one hundredth of 2/3. *)
Example C105_consistent_example :
  exists N, forall ops s n timeout u tape s' l,
    tp_reachable slope_P ops s -> Forall (fun ob => fair slope_P 1 2 (fst ob)) ops -> Forall (unit_draws slope_P) tape ->
    (length (t_leaves (s_tree s)) < n)%nat -> (0 < timeout)%Q -> tp_call slope_P slope n timeout u tape s = Done s' -> get_samples slope_P (s_tree s') = Ok l ->
    (N <= n)%nat -> (n <= length l)%nat ->
    exists xw, Permutation l (map (fun p => (fst p, Fin (snd p))) xw) /\ (Rabs (Q2R (weighted_sum inv_slope xw) - 1 / (3 / 2)) <= / 100)%R.
Proof.
  destruct C105_error_example as (Rf & Bd & L1 & L2 & I0 & I1 & _).
  apply (C105_consistent slope_P 1 2 1 0 slope inv_slope (3 / 2) 1 (/ 100)); auto; try lra; unfold Qlt, Qle; simpl; lia.
Qed.
