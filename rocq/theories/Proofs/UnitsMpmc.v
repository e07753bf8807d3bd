(** M-PMC with another origin: means move, covariances and mixture weights stay. *)
From Coq Require Import List Bool Arith Lia QArith Lqa.
Import ListNotations.
From Verif Require Import Prelude.Py Prelude.QBase Prelude.QFacts Model.Base Model.Mixture Model.Population Model.MPMC Spec.ScaleSpec Spec.UnitsSpec Spec.UnitsOps Proofs.ScaleBase Proofs.ScalePop Proofs.UnitsBase
  Proofs.MixtureProofs Proofs.MixtureSelect Proofs.UnitsPop.
Open Scope Q_scope.

Section Origin.
Variable b : list Q.
Notation R := (recoord 1 b).
Lemma recoord_nth i : forall b x y, recoord 1 b x y -> (i < length b)%nat -> nth i y 0 == nth i x 0 + nth i b 0.
Proof.
  induction i as [|i IH]; intros [|b0 b0'] [|x0 x] [|y0 y]; simpl; try tauto; try lia; intros (E & H) L; [rewrite E; ring|apply IH; auto; lia].
Qed.
Lemma recoord_tabulate (f g : nat -> Q) : (forall i, (i < length b)%nat -> g i == f i + nth i b 0) -> R (map f (seq 0 (length b))) (map g (seq 0 (length b))).
Proof.
  assert (G : forall l s (f g : nat -> Q), (forall i, (i < length l)%nat -> g (s + i)%nat == f (s + i)%nat + nth i l 0) -> recoord 1 l (map f (seq s (length l))) (map g (seq s (length l)))).
  { clear. induction l as [|l0 l IH]; intros s f g H; simpl; auto. split.
    - pose proof (H 0%nat ltac:(simpl; lia)) as E. rewrite Nat.add_0_r in E. simpl in E. rewrite E. ring.
    - apply IH. intros i L. pose proof (H (S i) ltac:(simpl; lia)) as E. rewrite Nat.add_succ_r in E. exact E. }
  intros H. apply G. intros i L. simpl. now apply H.
Qed.
(** A weighted mean moves with the points. *)
Lemma weighted_move i ws : (i < length b)%nat -> forall xs ys, recoords 1 b xs ys -> length ws = length xs ->
  Qsum (map2 (fun (x : vec) w => w * nth i x 0) ys ws) == Qsum (map2 (fun (x : vec) w => w * nth i x 0) xs ws) + nth i b 0 * Qsum ws.
Proof.
  intros I. induction ws as [|w ws IH]; intros xs ys F L; destruct F as [|x y xs ys X F]; try discriminate; simpl; [ring|]. rewrite (recoord_nth i b x y X I). rewrite (IH xs ys F) by (simpl in L; lia). ring.
Qed.
Lemma weighted_eq i (xs : list vec) ws ws' : Forall2 Qeq ws ws' -> Qsum (map2 (fun (x : vec) w => w * nth i x 0) xs ws) == Qsum (map2 (fun (x : vec) w => w * nth i x 0) xs ws').
Proof. intros F. apply Qsum_eq. apply (map2_rel eq Qeq); [|apply Forall2_refl; reflexivity|exact F]. intros x x' w w' <- E. now rewrite E. Qed.
Lemma mu_move xs ys ws ws' rd rd' al al' : recoords 1 b xs ys -> length ws = length xs -> length rd = length xs -> Forall2 Qeq ws ws' -> Forall2 Qeq rd rd' -> al == Qsum (map2 Qmult ws rd) -> al' == al -> ~ al == 0 ->
  R (mp_mu (length b) xs ws rd al) (mp_mu (length b) ys ws' rd' al').
Proof.
  intros F Lw Lr W Rd Ea Ea' Nz. apply recoord_tabulate. intros i I. rewrite Ea'.
  assert (Ww : Forall2 Qeq (map2 Qmult ws rd) (map2 Qmult ws' rd')) by (apply (map2_rel Qeq Qeq); auto; intros; now apply Qmult_comp).
  rewrite <- (weighted_eq i ys _ _ Ww). assert (Lm : length (map2 Qmult ws rd) = length xs). { clear -Lw Lr. revert ws rd Lw Lr. induction xs; intros [|w ws] [|r rd]; simpl; try discriminate; auto. }
  rewrite (weighted_move i (map2 Qmult ws rd) I xs ys F Lm). rewrite <- Ea. cbv beta. match goal with |- (?u + _) / al == ?w / al + _ => change w with u; generalize u end. intros u. field. exact Nz.
Qed.
Lemma scatter_move xs ys mu mu' : recoords 1 b xs ys -> R mu mu' -> meq (mp_scatter (length b) xs mu) (mp_scatter (length b) ys mu').
Proof.
  intros F M. unfold mp_scatter, meq. assert (G : forall (h h' : nat -> list Q), (forall i, (i < length b)%nat -> Forall2 Qeq (h i) (h' i)) -> Forall2 (Forall2 Qeq) (map h (seq 0 (length b))) (map h' (seq 0 (length b)))).
  { intros h h' H. assert (I : Forall (fun i => (i < length b)%nat) (seq 0 (length b))) by (apply Forall_forall; intros i Hi; apply in_seq in Hi; lia). revert I. generalize (seq 0 (length b)). intros l I. induction I; constructor; auto. }
  assert (G1 : forall (h h' : nat -> Q), (forall i, (i < length b)%nat -> h i == h' i) -> Forall2 Qeq (map h (seq 0 (length b))) (map h' (seq 0 (length b)))).
  { intros h h' H. assert (I : Forall (fun i => (i < length b)%nat) (seq 0 (length b))) by (apply Forall_forall; intros i Hi; apply in_seq in Hi; lia). revert I. generalize (seq 0 (length b)). intros l I. induction I; constructor; auto. }
  apply G. intros i I. apply G1. intros j J. apply Qsum_eq. eapply map_rel; [|exact F]. intros x y X. cbv beta. rewrite !(recoord_nth i b _ _ X I), !(recoord_nth j b _ _ X J), (recoord_nth i b _ _ M I), (recoord_nth j b _ _ M J). ring.
Qed.
Lemma cov_zero K ws rd al v : al == 0 -> Forall (Forall (fun q => q == 0)) (mp_cov K ws rd al v).
Proof.
  intros Z. apply Forall_forall. intros l Hl. apply in_map_iff in Hl. destruct Hl as (l0 & <- & _). apply Forall_forall. intros q Hq. apply in_map_iff in Hq. destruct Hq as (q0 & <- & _). unfold Qdiv. rewrite Z. change (/ 0) with 0. ring.
Qed.
Lemma nth_zero l j : Forall (fun q => q == 0) l -> nth j l 0 == 0.
Proof. intros F. revert j. induction F; intros [|j]; simpl; auto; reflexivity. Qed.
Lemma det_zero n m : Forall (Forall (fun q => q == 0)) m -> detn (S n) m == 0.
Proof.
  intros F. destruct F as [|row m R0 F]; [reflexivity|]. cbn [detn]. generalize (seq 0 (S n)). intros l. induction l as [|j l IH]; [reflexivity|]. cbn [map Qsum fold_right]. cbn [Qsum] in IH |- *.
  rewrite (nth_zero row j R0). rewrite IH. ring.
Qed.
Lemma failsafe_zero n m : Forall (Forall (fun q => q == 0)) m -> mp_failsafe n m = m.
Proof.
  intros F. unfold mp_failsafe. replace (existsb (existsb (fun v => Qltb 10 v)) m) with false; auto. symmetry. induction F as [|r m R0 F IH]; auto. simpl. rewrite IH, orb_false_r. clear -R0. induction R0 as [|q l E R0 IH]; auto. simpl. rewrite IH, orb_false_r.
  rewrite (Qltb_eq 10 0 10 q); auto; reflexivity.
Qed.
Definition pmoved (p p' : vec * mat) : Prop := R (fst p) (fst p') /\ meq (snd p) (snd p').
Lemma adapt_move P P' xs ys ws ws' rho rho' ds : mp_dims P = length b -> mp_dims P' = length b -> mp_K P' = mp_K P -> recoords 1 b xs ys -> length ws = length xs -> (forall d, length (rho d) = length xs) ->
  Forall2 Qeq ws ws' -> Forall (fun d => Forall2 Qeq (rho d) (rho' d)) ds -> forall al al' ps ps',
  Forall2 Qeq al al' -> Forall2 pmoved ps ps' ->
  let r := mp_adapt P xs ws rho ds al ps in let r' := mp_adapt P' ys ws' rho' ds al' ps' in
  Forall2 Qeq (fst (fst r)) (fst (fst r')) /\ Forall2 pmoved (snd (fst r)) (snd (fst r')) /\ snd r' = snd r.
Proof.
  intros Dm Dm' EK X Lw Lr W Rh. induction Rh as [|d ds R0 Rh IH]; intros al al' ps ps' A Ps; [simpl; auto|]. cbn [mp_adapt]. rewrite Dm, Dm', EK.
  assert (Ea : Qsum (map2 Qmult ws' (rho' d)) == Qsum (map2 Qmult ws (rho d))).
  { symmetry. apply Qsum_eq. apply (map2_rel Qeq Qeq); auto. intros. now apply Qmult_comp. }
  remember (Qsum (map2 Qmult ws (rho d))) as s eqn:Es. remember (Qsum (map2 Qmult ws' (rho' d))) as s' eqn:Es'.
  assert (A1 : Forall2 Qeq (upd al d s) (upd al' d s')) by (apply upd_rel; auto; now symmetry).
  destruct (Qeq_dec s 0) as [Z|Nz].
  - assert (Z' : s' == 0) by (now rewrite Ea). remember (length b) as n eqn:En. destruct n as [|n].
    + assert (Rn : R [] []) by (clear -En; destruct b; [exact I|discriminate]). simpl. apply IH; auto. apply upd_rel; auto. split; [exact Rn|exact (Forall2_nil _)].
    + assert (H1 : Qltb 0 (detn (S n) (mp_failsafe (S n) (mp_cov (mp_K P) ws (rho d) s (mp_scatter (S n) xs (mp_mu (S n) xs ws (rho d) s))))) = false).
      { pose proof (cov_zero (mp_K P) ws (rho d) s (mp_scatter (S n) xs (mp_mu (S n) xs ws (rho d) s)) Z) as C0. rewrite (failsafe_zero _ _ C0). rewrite (Qltb_eq 0 0 0 (detn (S n) (mp_cov (mp_K P) ws (rho d) s (mp_scatter (S n) xs (mp_mu (S n) xs ws (rho d) s))))); auto; [reflexivity|now apply det_zero]. }
      assert (H2 : Qltb 0 (detn (S n) (mp_failsafe (S n) (mp_cov (mp_K P) ws' (rho' d) s' (mp_scatter (S n) ys (mp_mu (S n) ys ws' (rho' d) s'))))) = false).
      { pose proof (cov_zero (mp_K P) ws' (rho' d) s' (mp_scatter (S n) ys (mp_mu (S n) ys ws' (rho' d) s')) Z') as C0. rewrite (failsafe_zero _ _ C0). rewrite (Qltb_eq 0 0 0 (detn (S n) (mp_cov (mp_K P) ws' (rho' d) s' (mp_scatter (S n) ys (mp_mu (S n) ys ws' (rho' d) s'))))); auto; [reflexivity|now apply det_zero]. }
      rewrite H1, H2. simpl. auto.
  - assert (M : R (mp_mu (length b) xs ws (rho d) s) (mp_mu (length b) ys ws' (rho' d) s')) by (apply mu_move; auto; rewrite Es; reflexivity).
    pose proof (failsafe_eq (length b) _ _ (cov_eq (mp_K P) _ _ _ _ s s' _ _ W R0 (Qeq_sym _ _ Ea) (scatter_move xs ys _ _ X M))) as V.
    rewrite (Qltb_eq 0 _ 0 _ (Qeq_refl 0) (Qeq_sym _ _ (detn_eq (length b) _ _ V))). destruct (Qltb _ _).
    + apply IH; auto. apply upd_rel; auto. split; auto.
    + simpl. auto.
Qed.
Lemma diag_eq n u v : u == v -> meq (diag_const n u) (diag_const n v).
Proof. intros E. apply map_same. intros i. apply map_same. intros j. destruct (_ =? _)%nat; auto; reflexivity. Qed.

Variable c : Q.
Hypothesis C : 0 < c.
Notation dens pi pi' := (forall x y, R x y -> pi' y == c * pi x).
Definition mp_rel (N : nat) (s s' : mp) : Prop :=
  Forall2 pmoved (mp_props s) (mp_props s') /\ Forall2 Qeq (mp_alpha s) (mp_alpha s') /\ Forall2 Qeq (mp_mixw s) (mp_mixw s') /\
  recoords 1 b (mp_samples s) (mp_samples s') /\ same_weights (mp_weights s) (mp_weights s') /\
  mp_q_samples s' = mp_q_samples s /\ mp_q_evals s' = mp_q_evals s /\ mp_pi_evals s' = mp_pi_evals s /\ mp_dead s' = mp_dead s /\ length (mp_props s) = N.
Lemma adapt_length P xs ws rho ds : forall al ps, length (snd (fst (mp_adapt P xs ws rho ds al ps))) = length ps.
Proof. induction ds as [|d ds IH]; intros al ps; [reflexivity|]. cbn [mp_adapt]. destruct (Qltb _ _); auto. rewrite IH. apply upd_length. Qed.

Section Mpmc.
Variables (P P' : mp_params) (pi pi' : vec -> Q).
Hypothesis Sh : R (mp_hi P) (mp_hi P').
Hypothesis SN : mp_N P' = mp_N P.
Hypothesis SK : mp_K P' = mp_K P.
Hypothesis Sc : forall m m' v v', R m m' -> Forall2 (Forall2 Qeq) v v' -> dens (mp_comp P m v) (mp_comp P' m' v').
Hypothesis D : dens pi pi'.
Lemma dims_b : mp_dims P = length b /\ mp_dims P' = length b.
Proof. exact (recoord_length 1 b _ _ Sh). Qed.
Lemma mix_move s s' x y : mp_rel (mp_N P) s s' -> R x y -> mp_mix P' s' y == c * mp_mix P s x.
Proof.
  intros (H1 & _ & H3 & _) X. unfold mp_mix. apply (sum_scale c). apply (map2_rel Qeq pmoved); auto. intros w w' p p' E (Ep & Ev). rewrite <- E. rewrite (Sc _ _ _ _ Ep Ev x y X). ring.
Qed.
Lemma quot_scale u v : c * u / (c * v) == u / v.
Proof. unfold Qdiv. rewrite Qinv_mult_distr. setoid_replace (c * u * (/ c * / v)) with (c * / c * (u * / v)) by ring. rewrite Qmult_inv_r by now apply Qnz. ring. Qed.
Lemma raw_move s s' x y : mp_rel (mp_N P) s s' -> R x y -> mp_raw P' pi' s' y == mp_raw P pi s x.
Proof. intros L X. unfold mp_raw. rewrite (mix_move s s' x y L X), (D x y X). apply quot_scale. Qed.
Lemma rho_move s s' d x y : mp_rel (mp_N P) s s' -> (d < mp_N P)%nat -> R x y -> mp_rho P s d x == mp_rho P' s' d y.
Proof.
  intros L Ld X. unfold mp_rho. rewrite (mix_move s s' x y L X). destruct L as (H1 & H2 & _ & _ & _ & _ & _ & _ & _ & Ln).
  assert (Q0 : pmoved (nth d (mp_props s) ([], [])) (nth d (mp_props s') ([], []))). { rewrite <- Ln in Ld. clear -H1 Ld. revert d Ld. induction H1; intros [|d] L; simpl in *; auto; try lia. apply IHForall2. lia. }
  destruct Q0 as (Ep & Ev). rewrite (Sc _ _ _ _ Ep Ev x y X), <- (nth_eq _ _ d H2).
  setoid_replace (nth d (mp_alpha s) 0 * (c * mp_comp P (fst (nth d (mp_props s) ([], []))) (snd (nth d (mp_props s) ([], []))) x)) with (c * (nth d (mp_alpha s) 0 * mp_comp P (fst (nth d (mp_props s) ([], []))) (snd (nth d (mp_props s) ([], []))) x)) by ring.
  now rewrite quot_scale.
Qed.
Lemma mp_iter_move r r' s s' : mp_round_units 1 b r r' -> mp_rel (mp_N P) s s' -> outs (mp_rel (mp_N P)) (mp_iter P pi r s) (mp_iter P' pi' r' s').
Proof.
  intros (U1 & U2 & _) L. unfold mp_iter. rewrite SK, SN.
  assert (M : match mixture_sample (mp_mixw s) (mp_K P) (mr_us r) (mr_draw r), mixture_sample (mp_mixw s') (mp_K P) (mr_us r') (mr_draw r') with Ok xs, Ok ys => recoords 1 b xs ys | Raise e, Raise e' => e = e' | _, _ => False end).
  { rewrite (mixture_sample_eq (mp_mixw s) (mp_mixw s')) by apply L. unfold mixture_sample. destruct (mp_mixw s) as [|w ws], (mp_K P) as [|K]; try reflexivity; try (exact (Forall2_nil _)).
    apply (recoords_draws 1 b (fun k => mr_draw r k (multinomial1 (w :: ws) 1 (mr_us r k) 0)) (fun k => mr_draw r' k (multinomial1 (w :: ws) 1 (mr_us r' k) 0))). intros k. rewrite (multinomial1_ext _ _ _ _ 0 (U1 k)). apply U2. }
  destruct (mixture_sample (mp_mixw s) _ _ _) as [xs|e], (mixture_sample (mp_mixw s') _ _ _) as [ys|e']; try contradiction; [|subst; split; auto].
  assert (Rw : Forall2 Qeq (map (mp_raw P pi s) xs) (map (mp_raw P' pi' s') ys)) by (eapply map_rel; [|exact M]; intros x y X; symmetry; now apply raw_move).
  pose proof (Qsum_eq _ _ Rw) as Sm. assert (Eb : Qeq_bool (Qsum (map (mp_raw P' pi' s') ys)) 0 = Qeq_bool (Qsum (map (mp_raw P pi s) xs)) 0) by (rewrite Sm; reflexivity).
  rewrite Eb. destruct (Qeq_bool (Qsum (map (mp_raw P pi s) xs)) 0).
  - destruct L as (H1 & H2 & H3 & H4 & H5 & H6 & H7 & H8 & H9 & H10). unfold outs, mp_rel; cbn [mp_props mp_alpha mp_mixw mp_samples mp_weights mp_q_samples mp_q_evals mp_pi_evals mp_dead]. rewrite H6, H7, H8. repeat (split; auto); apply app_rel; auto.
    eapply map_rel; [|exact M]. intros; exact I.
  - set (rs := map (mp_raw P pi s) xs) in *. set (rs' := map (mp_raw P' pi' s') ys) in *.
    assert (W : Forall2 Qeq (map (fun w => w / Qsum rs) rs) (map (fun w => w / Qsum rs') rs')) by (eapply map_rel; [|exact Rw]; intros u v E; cbv beta; now rewrite E, Sm).
    assert (Rh : Forall (fun d => Forall2 Qeq (map (mp_rho P s d) xs) (map (mp_rho P' s' d) ys)) (seq 0 (mp_N P))).
    { apply Forall_forall. intros d Hd. apply in_seq in Hd. eapply map_rel; [|exact M]. intros x y X. apply rho_move; auto. lia. }
    destruct dims_b as (Db & Db').
    pose proof (adapt_move P P' xs ys (map (fun w => w / Qsum rs) rs) (map (fun w => w / Qsum rs') rs') (fun d => map (mp_rho P s d) xs) (fun d => map (mp_rho P' s' d) ys) (seq 0 (mp_N P)) Db Db' SK M) as T.
    specialize (T ltac:(unfold rs; rewrite !map_length; reflexivity) ltac:(intros d; apply map_length) W Rh (mp_alpha s) (mp_alpha s') (mp_props s) (mp_props s') (proj1 (proj2 L)) (proj1 L)).
    pose proof (adapt_length P xs (map (fun w => w / Qsum rs) rs) (fun d => map (mp_rho P s d) xs) (seq 0 (mp_N P)) (mp_alpha s) (mp_props s)) as Lp.
    cbn zeta in T. destruct (mp_adapt P xs (map (fun w => w / Qsum rs) rs) _ _ _ _) as [[al ps] ok]. destruct (mp_adapt P' ys (map (fun w => w / Qsum rs') rs') _ _ _ _) as [[al' ps'] ok'].
    cbn [fst snd] in T, Lp. destruct T as (Ta & Tp & ->). destruct L as (H1 & H2 & H3 & H4 & H5 & H6 & H7 & H8 & H9 & H10). destruct ok.
    + assert (Na : Forall2 Qeq (map (fun a => a / Qsum al) al) (map (fun a => a / Qsum al') al')).
      { eapply map_rel; [|exact Ta]. intros u v Euv. cbv beta. now rewrite Euv, (Qsum_eq _ _ Ta). }
      pose proof (fins_same _ _ Na) as Fs. pose proof (zeroed_scale 1 _ _ eq_refl Fs) as Zs. pose proof (ScalePop.set_weights_scale 1 (mp_N P) _ _ eq_refl Fs) as Sw.
      unfold outs, mp_rel; cbn [mp_props mp_alpha mp_mixw mp_samples mp_weights mp_q_samples mp_q_evals mp_pi_evals mp_dead]. rewrite H6, H7, H8. split; [exact Tp|]. split; [now apply fin_vals_same|]. split.
      * destruct (set_weights _ (map Fin (map (fun a => a / Qsum al) al))), (set_weights _ (map Fin (map (fun a => a / Qsum al') al'))); try tauto; [|constructor]. now apply fin_vals_same.
      * split; [now apply app_rel|]. split; [apply app_rel; auto; now apply fins_same|]. repeat (split; auto). congruence.
    + split; auto. unfold mp_rel; cbn [mp_props mp_alpha mp_mixw mp_samples mp_weights mp_q_samples mp_q_evals mp_pi_evals mp_dead]. rewrite H6, H7, H8. repeat (split; auto). congruence.
Qed.
Lemma mp_loop_move n timeout tape tape' : Forall2 (mp_round_units 1 b) tape tape' -> forall el s s', mp_rel (mp_N P) s s' -> outs (mp_rel (mp_N P)) (mp_loop P pi n timeout tape el s) (mp_loop P' pi' n timeout tape' el s').
Proof.
  assert (Dd : forall s s', mp_rel (mp_N P) s s' -> mp_dead s' = mp_dead s) by (intros s s' (_ & _ & _ & _ & _ & _ & _ & _ & H & _); exact H).
  assert (Ls : forall s s', mp_rel (mp_N P) s s' -> length (mp_samples s') = length (mp_samples s)) by (intros s s' (_ & _ & _ & H & _); exact (recoords_length 1 b _ _ H)).
  induction 1 as [|r r' t t' E F IH]; intros el s s' L; cbn [mp_loop]; rewrite (Ls s s' L), (Dd s s' L); destruct (_ && _); try exact L; destruct (mp_dead s); try exact L.
  replace (mr_clock r') with (mr_clock r) by (symmetry; apply E).
  pose proof (mp_iter_move r r' s s' E L) as H. destruct (mp_iter P pi r s), (mp_iter P' pi' r' s'); simpl in H; try contradiction; try exact H. now apply IH.
Qed.
End Mpmc.
End Origin.
