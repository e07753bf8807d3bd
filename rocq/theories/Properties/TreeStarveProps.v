(** C117: what the tree sampler without resampling does where the target vanishes, and what a second call returns. *)
From Coq Require Import List Bool Arith Lia QArith Qabs Reals Qreals Lra Permutation.
Import ListNotations.
From Verif Require Import Prelude.Py Prelude.QBase Prelude.QFacts Model.Population Model.Tree Model.TreeSampler Spec.TreeSpec Spec.Box Spec.RefineSpec Spec.ResetSpec
  Proofs.TreeCells Proofs.TreeProofs Proofs.TreeMask Proofs.TreeSamplerTree Proofs.TreeSamplerInv Proofs.TreeSamplerLeaves Proofs.TreeRequest Proofs.TreeFirstCall Proofs.TreeRefine Proofs.TreeKeep Proofs.TreeStarve
  Proofs.RefineSums Proofs.LineIntegral Properties.TreeSamplerProps Properties.TreeRefineProps Properties.TreeRefineError Properties.TreeKeepProps.

(** Target 1 on [0, 1] but 0 on [1/8, 3/8]. *)
Definition gap (x : list Q) : Q := if Qle_bool (Qabs (hd 0%Q x - (1 # 4))) (1 # 8) then 0%Q else 1%Q.
Definition gap_op : tp_op := TpCall gap 2 1 [(1 # 2)%Q] [unit_round (1 # 2)].
Definition gap_end : tp := out_state (tp_run keep_P gap_op (tp_new keep_P)).
(** No reset; every later call is on the same target, with draws inside the open unit cube. *)
Definition quiet (o : tp_op) : Prop :=
  match o with TpCall pi n timeout u tape => pi = gap /\ Forall (open_draws keep_P) tape | TpSample _ _ _ => True | TpReset => False end.

(** C117: a target with a third of its mass left of 1/2, and a state after one call, from which on every call returns exactly one sample
    strictly left of 1/2, however many are asked for. *)
Theorem C117_starved_refuted :
  exists s, plain_mode keep_P /\ tp_reachable keep_P [(gap_op, true)] s /\ open_fair keep_P 0 1 gap_op /\
  forall later b, leads_to (tp_run keep_P) s later b -> Forall (fun of => quiet (fst of)) later ->
  exists l x others, get_samples keep_P (s_tree b) = Ok l /\ Permutation (map fst l) (x :: others) /\ in_open ([(1 # 4)%Q], (1 # 4)%Q) x /\
    Forall (fun y => ~ in_open ([(1 # 4)%Q], (1 # 4)%Q) y) others.
Proof.
  exists gap_end. split; [apply keep_mode|]. assert (R : tp_reachable keep_P [(gap_op, true)] gap_end) by (eapply tp_done; [apply tp_init|vm_compute; reflexivity]).
  split; auto. assert (Gb : forall x, (0 <= gap x)%Q /\ (gap x <= 1)%Q) by (intros x; unfold gap; destruct (Qle_bool _ _); split; discriminate).
  assert (U1 : Forall (open_draws keep_P) [unit_round (1 # 2)]) by (constructor; [apply half_open; reflexivity|constructor]).
  assert (Of : open_fair keep_P 0 1 gap_op).
  { split; [split; [intros x; apply Gb|intros x _; apply Gb]|]. split; [split; [reflexivity|repeat constructor]|exact U1]. }
  split; auto. intros later b Lb Q. destruct keep_mode as (B & Ek & F & Lr & (e & Ee & E1) & Nm).
  assert (Hn : exists nA n2, t_leaves (s_tree gap_end) = [1; 2]%nat /\ nth_error (t_nodes (s_tree gap_end)) 1 = Some nA /\ nth_error (t_nodes (s_tree gap_end)) 2 = Some n2 /\
    (exists z, n_value nA = Fin z /\ z == 0)%Q /\ (exists x w, n_hist nA = HList [([x], w)] /\ x == 1 # 4)%Q /\ (exists x w, n_hist n2 = HList [([x], w)] /\ x == 3 # 4)%Q /\
    (exists v, n_value n2 = Fin v /\ (0 < v)%Q) /\ (exists c r, node_cell nA = ([c], r) /\ c == 1 # 4 /\ r == 1 # 4)%Q /\ (exists c r, node_cell n2 = ([c], r) /\ c == 3 # 4 /\ r == 1 # 4)%Q).
  { eexists; eexists. split; [vm_compute; reflexivity|]. split; [vm_compute; reflexivity|]. split; [vm_compute; reflexivity|]. 
    split; [eexists; split; vm_compute; reflexivity|]. split; [eexists; eexists; split; vm_compute; reflexivity|]. split; [eexists; eexists; split; vm_compute; reflexivity|].
    split; [eexists; split; vm_compute; reflexivity|]. split; eexists; eexists; (split; [vm_compute; reflexivity|split; vm_compute; reflexivity]). }
  destruct Hn as (nA & n2 & El & EA & E2 & VA & (xA & wA & HA & XA) & (x2 & w2 & H2 & X2) & V2 & (cA & rA & Cell & CA & RA) & (c2 & r2 & Cell2 & C2 & R2)).
  assert (Io : forall y, in_open (node_cell nA) y <-> in_open ([(1 # 4)%Q], (1 # 4)%Q) y).
  { intros y. rewrite Cell. split; intros H; inversion H as [|? ? ? ? (A1 & A2) A3]; subst; inversion A3; subst; simpl in A1, A2; (constructor; [|constructor]); simpl; rewrite ?CA, ?RA in *; auto. }
  assert (Pp : forall x, in_closed (whole_cell keep_P) x -> ~ in_open (node_cell nA) x -> (0 < gap x)%Q).
  { intros x Wx Nx. unfold gap. destruct (Qle_bool _ _) eqn:G; [|reflexivity]. exfalso. apply Nx. apply Io. apply Qle_bool_iff in G.
    inversion Wx as [|c y cs ys _ Ht]; subst. inversion Ht; subst. simpl hd in G. apply Qabs_Qle_condition in G. destruct G as (G1 & G2).
    constructor; [|constructor]. simpl. split; apply Qlt_minus_iff; apply Qle_minus_iff in G1; apply Qle_minus_iff in G2.
    - apply Qlt_le_trans with (1 # 8)%Q; [reflexivity|]. apply Qle_minus_iff. setoid_replace (y + - ((1 # 4) - (1 # 4)) + - (1 # 8))%Q with (y - (1 # 4) + - - (1 # 8))%Q by ring. exact G1.
    - apply Qlt_le_trans with (1 # 8)%Q; [reflexivity|]. apply Qle_minus_iff. setoid_replace ((1 # 4) + (1 # 4) + - y + - (1 # 8))%Q with ((1 # 8) + - (y - (1 # 4)))%Q by ring. exact G2. }
  assert (St : starved keep_P 1 nA gap_end).
  { assert (S : settled1 keep_P gap_end).
    { destruct (reach1 keep_P _ _ B F R) as [Z|Z]; auto. rewrite Z in El. discriminate. }
    split; auto. split; [split; [rewrite El; simpl; auto|exact EA]|]. split; auto. split.
    { exists [xA], wA. split; auto. apply Io. constructor; [|constructor]. simpl. rewrite XA. split; reflexivity. }
    split; [rewrite El; simpl; lia|]. intros i n (Hi & En) D. rewrite El in Hi. destruct Hi as [<- |[<- |[]]]; [contradiction|].
    assert (n = n2) by congruence. subst n. split; auto. exists [x2], w2. split; auto. rewrite Cell2. constructor; [|constructor]. simpl. rewrite X2, C2, R2. split; reflexivity. }
  assert (Sb : starved keep_P 1 nA b).
  { apply (later_starved keep_P e gap 1 nA B Ek F Lr Ee E1 Nm ltac:(simpl; lia) (fun x => proj1 (Gb x)) Pp later gap_end b Lb); auto. }
  destruct (starved_rows keep_P e 1 nA Ee E1 b Sb) as (l & x & others & A1 & A2 & A3 & A4). exists l, x, others. split; auto. split; auto. split; [apply Io; exact A3|]. eapply Forall_impl; [|exact A4]. intros y Hy Z. apply Hy, Io. exact Z.
Qed.
Print Assumptions C117_starved_refuted.

(** C117: after a second call the bound of C117_error_partial does not hold, with all its other hypotheses met: target 64 + 4 (1 - x) on [0, 1], eight samples
    and then twelve; the four new pairs of leaves weigh about sixty times too much against the leaves whose weights the first call normalised. *)
Definition tilt (x : list Q) : Q := (64 + Qabs (4 * (1 - hd 0 x)))%Q.
Definition tilt_g (x : list Q) : Q := (64 * hd 0 x / tilt x)%Q.
Definition tilt_op : tp_op := TpCall tilt 8 1 [(1 # 2)%Q] (repeat (unit_round (1 # 2)) 7).
Definition tilt_mid : tp := out_state (tp_run keep_P tilt_op (tp_new keep_P)).
Definition tilt_end : tp := out_state (tp_call keep_P tilt 12 1 [(1 # 2)%Q] (repeat (unit_round (1 # 2)) 4) tilt_mid).
Lemma weighted_sum_perm g a b : Permutation a b -> (weighted_sum g a == weighted_sum g b)%Q.
Proof. induction 1; simpl; try reflexivity; [rewrite IHPermutation; reflexivity|ring|rewrite IHPermutation1; auto]. Qed.
Lemma rows_inj (a b : list (list Q * Q)) : Permutation (map (fun p => (fst p, Fin (snd p))) a) (map (fun p => (fst p, Fin (snd p))) b) -> Permutation a b.
Proof.
  intros H. apply (Permutation_map (fun p : list Q * fl Q => (fst p, match snd p with Fin w => w | _ => 0%Q end))) in H. rewrite !map_map in H. simpl in H.
  rewrite (map_ext _ (fun p => p)), map_id in H by (intros (x, w); reflexivity). rewrite (map_ext _ (fun p => p)), map_id in H by (intros (x, w); reflexivity). exact H.
Qed.
Theorem C117_second_call_refuted :
  exists P m Mx K D L M pi g J0 J1 op s n timeout u tape s' l,
  plain_mode P /\ (0 < m)%Q /\ (m <= Mx)%Q /\ (0 <= K)%Q /\ (Mx * power 4 (p_dims P) <= K * K * m)%Q /\ (0 <= D)%Q /\
  let whole := (root_center (p_lo P) (p_hi P), root_radius (p_lo P) (p_hi P)) in
  bounded P m Mx pi /\ lipschitz pi whole L /\ lipschitz (fun x => pi x * g x)%Q whole M /\
  is_integral pi whole J0 /\ is_integral (fun x => pi x * g x)%Q whole J1 /\
  tp_reachable P [(op, true)] s /\ open_fair P m Mx op /\ unit_open P u /\ Forall (open_draws P) tape /\
  tp_call P pi n timeout u tape s = Done s' /\ get_samples P (s_tree s') = Ok l /\
  (0 < n <= length l)%nat /\ (K * cell_volume whole <= power D (p_dims P) * Qnat n)%Q /\
  forall xw, Permutation l (map (fun p => (fst p, Fin (snd p))) xw) ->
    (Q2R D * (Q2R M + Q2R L * Rabs (J1 / J0)) < Rabs (Q2R (weighted_sum g xw) - J1 / J0) * Q2R m)%R.
Proof.
  exists keep_P, 64%Q, 68%Q, (33 # 16)%Q, (33 # 192)%Q, 4%Q, 64%Q, tilt, tilt_g, 66%R, 32%R, tilt_op, tilt_mid, 12%nat, 1%Q, [(1 # 2)%Q], (repeat (unit_round (1 # 2)) 4), tilt_end.
  assert (El : exists l rows, get_samples keep_P (s_tree tilt_end) = Ok l /\ l = map (fun p => (fst p, Fin (snd p))) rows /\ length l = 12%nat /\ (weighted_sum tilt_g rows == 1104 # 4487)%Q).
  { eexists. exists (match get_samples keep_P (s_tree tilt_end) with Ok l => map (fun p => (fst p, match snd p with Fin w => w | _ => 0%Q end)) l | _ => [] end).
    split; [vm_compute; reflexivity|]. split; [vm_compute; reflexivity|]. split; vm_compute; reflexivity. }
  destruct El as (l & rows & El & Er & Ll & Ew). exists l.
  assert (Tp : forall x, (64 <= tilt x)%Q).
  { intros x. unfold tilt. rewrite <- (Qplus_0_r 64) at 1. apply Qplus_le_r, Qabs_nonneg. }
  assert (In1 : forall x, in_closed (root_center (p_lo keep_P) (p_hi keep_P), root_radius (p_lo keep_P) (p_hi keep_P)) x -> (0 <= hd 0 x /\ hd 0 x <= 1)%Q).
  { intros x H. inversion H as [|? y ? ? (A1 & A2) A3]; subst. simpl hd. 
    assert (Z1 : (0 <= y)%Q) by (eapply Qle_trans; [|exact A1]; vm_compute; discriminate). assert (Z2 : (y <= 1)%Q) by (eapply Qle_trans; [exact A2|]; vm_compute; discriminate). auto. }
  assert (Aff : forall x, (hd 0 x <= 1)%Q -> (tilt x == 68 + (-4) * hd 0 x)%Q).
  { intros x H. unfold tilt. rewrite Qabs_pos; [ring|]. apply Qmult_le_0_compat; [discriminate|]. apply Qle_minus_iff in H. exact H. }
  assert (Pg : forall x, (tilt x * tilt_g x == 64 * hd 0 x)%Q).
  { intros x. unfold tilt_g. field. intros Z. specialize (Tp x). rewrite Z in Tp. apply Tp. reflexivity. }
  assert (Bd : bounded keep_P 64 68 tilt).
  { split; [intros x; apply Qle_trans with (2 := Tp x); discriminate|]. intros x Hx. split; auto. destruct (In1 x Hx) as (A1 & A2). rewrite (Aff x A2).
    apply Qle_minus_iff. setoid_replace (68 + - (68 + (-4) * hd 0 x))%Q with (4 * hd 0 x)%Q by ring. apply Qmult_le_0_compat; auto. discriminate. }
  assert (Wp : (0 < root_radius (p_lo keep_P) (p_hi keep_P))%Q) by (vm_compute; reflexivity).
  assert (Hd : forall x : list Q, hd 0%Q x = nth 0 x 0%Q) by (intros [|]; reflexivity).
  assert (U : forall k, Forall (open_draws keep_P) (repeat (unit_round (1 # 2)) k)).
  { intros k. apply Forall_forall. intros r Hr. apply repeat_spec in Hr. subst r. apply half_open; reflexivity. }
  assert (U1 : unit_open keep_P [(1 # 2)%Q]) by (split; [reflexivity|repeat constructor]).
  split; [apply keep_mode|]. split; [reflexivity|]. split; [discriminate|]. split; [discriminate|]. split; [vm_compute; discriminate|]. split; [discriminate|].
  intros whole. split; [exact Bd|]. split.
  { split; [discriminate|]. intros x y h Hx Hy H. specialize (H 0%nat). rewrite (Aff x), (Aff y) by (apply In1; auto). rewrite !Hd.
    setoid_replace (68 + (-4) * nth 0 x 0 - (68 + (-4) * nth 0 y 0))%Q with ((-4) * (nth 0 x 0 - nth 0 y 0))%Q by ring. rewrite Qabs_Qmult.
    change (Qabs (-4)) with 4%Q. rewrite !(Qmult_comm 4). apply Qmult_le_compat_r; [exact H|discriminate]. }
  split.
  { split; [discriminate|]. intros x y h Hx Hy H. specialize (H 0%nat). rewrite !Pg, !Hd.
    setoid_replace (64 * nth 0 x 0 - 64 * nth 0 y 0)%Q with (64 * (nth 0 x 0 - nth 0 y 0))%Q by ring. rewrite Qabs_Qmult.
    change (Qabs 64) with 64%Q. rewrite !(Qmult_comm 64). apply Qmult_le_compat_r; [exact H|discriminate]. }
  split.
  { replace 66%R with (Q2R ((68 + (-4) * hd 0 (fst whole)) * (2 * snd whole))) by (vm_compute Q2R; lra). apply (affine_integral tilt 68 (-4) (hd 0%Q (fst whole)) (snd whole) Wp).
    intros x H. rewrite (Aff [x]); [reflexivity|]. apply (In1 [x]). exact H. }
  split.
  { replace 32%R with (Q2R ((0 + 64 * hd 0 (fst whole)) * (2 * snd whole))) by (vm_compute Q2R; lra). apply (affine_integral (fun x => tilt x * tilt_g x)%Q 0 64 (hd 0%Q (fst whole)) (snd whole) Wp).
    intros x H. rewrite Pg. cbn [hd]. ring. }
  split; [eapply tp_done; [apply tp_init|vm_compute; reflexivity]|]. split; [split; auto; split; auto; apply (U 7%nat)|]. split; [exact U1|]. split; [apply (U 4%nat)|].
  split; [vm_compute; reflexivity|]. split; [exact El|]. split; [rewrite Ll; lia|]. split; [vm_compute; discriminate|].
  intros xw Pm. rewrite Er in Pm. apply rows_inj in Pm. rewrite <- (Qeq_eqR _ _ (weighted_sum_perm tilt_g _ _ Pm)), (Qeq_eqR _ _ Ew).
  rewrite (Rabs_pos_eq (32 / 66)) by lra. rewrite Rabs_left by (unfold Q2R; simpl; lra). unfold Q2R. simpl. lra.
Qed.
Print Assumptions C117_second_call_refuted.
