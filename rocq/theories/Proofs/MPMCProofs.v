(** Proofs about mixture population Monte Carlo. *)
From Coq Require Import List Bool Arith Lia QArith Lqa.
Import ListNotations.
From Verif Require Import Prelude.Py Prelude.QBase Prelude.QFacts Prelude.ListFacts Model.Base Model.Mixture Model.Population Model.MPMC
  Spec.MPMCSpec Proofs.MixtureProofs Proofs.MHLawProofs Proofs.PopulationProofs.
Open Scope Q_scope.

Definition mp_comp_pos (P : mp_params) : Prop := forall m c x, 0 < mp_comp P m c x.
Definition mp_params_ok (P : mp_params) : Prop := (0 < mp_N P)%nat /\ (0 < mp_K P)%nat /\ mp_comp_pos P.
Definition mp_round_ok (r : mp_round) : Prop := forall k i, 0 <= mr_us r k i < 1.

(** Shape of the mixture. *)
Definition mp_ok (P : mp_params) (s : mp) : Prop :=
  length (mp_props s) = mp_N P /\ length (mp_alpha s) = mp_N P /\ length (mp_mixw s) = mp_N P /\
  Forall (fun a => 0 < a) (mp_alpha s) /\ Forall (fun a => 0 < a) (mp_mixw s) /\ Qsum (mp_mixw s) == 1.
(** wproposals agrees with the weights of the mixture model. *)
Definition mp_clean (s : mp) : Prop := Forall2 Qeq (mp_alpha s) (mp_mixw s).

Lemma sum_of_Qsum l : sum_of l = Qsum l.
Proof. induction l; simpl; congruence. Qed.

Lemma map2_pos {A} (f : Q -> A -> Q) l : forall m, l <> [] -> length m = length l -> Forall (fun a => 0 < a) l ->
  (forall a b, 0 < a -> 0 < f a b) -> 0 < Qsum (map2 f l m).
Proof.
  induction l as [|a l IH]; intros [|b m] H L F G; try congruence; try discriminate. simpl. inversion F; subst.
  pose proof (G a b H2). destruct l as [|a' l]; [destruct m; [|discriminate]; simpl; lra|].
  specialize (IH m ltac:(discriminate) ltac:(simpl in *; lia) H3 G). simpl in *. lra.
Qed.

Lemma mix_pos P s x : mp_params_ok P -> mp_ok P s -> 0 < mp_mix P s x.
Proof.
  intros (N & K & C) (L1 & L2 & L3 & A & M & S). unfold mp_mix. apply map2_pos; auto.
  - intros E. rewrite E in L3. simpl in L3. lia.
  - congruence.
  - intros a b H. apply Qmult_lt_0_compat; auto.
Qed.

Lemma nth_pos l d : Forall (fun a => 0 < a) l -> (d < length l)%nat -> 0 < nth d l 0.
Proof. intros F H. rewrite Forall_forall in F. apply F. apply nth_In. auto. Qed.

Lemma rho_pos P s d x : mp_params_ok P -> mp_ok P s -> (d < mp_N P)%nat -> 0 < mp_rho P s d x.
Proof.
  intros PO O D. pose proof (mix_pos P s x PO O). destruct PO as (N & K & C). destruct O as (L1 & L2 & L3 & A & M & S).
  unfold mp_rho. apply Qlt_shift_div_l; auto. rewrite Qmult_0_l. apply Qmult_lt_0_compat; auto. apply nth_pos; auto. lia.
Qed.

Lemma raw_nonneg P pi s x : mp_params_ok P -> mp_ok P s -> (forall x, 0 <= pi x) -> 0 <= mp_raw P pi s x.
Proof.
  intros PO O Pi. pose proof (mix_pos P s x PO O). unfold mp_raw. apply Qle_shift_div_l; auto. rewrite Qmult_0_l. auto.
Qed.

(** ** Posteriors *)
Lemma rho_sum_gen P s x : forall (alpha mixw : list Q) (props : list (vec * mat)), Forall2 Qeq alpha mixw ->
  length props = length alpha ->
  Qsum (map2 (fun a p => a * mp_comp P (fst p) (snd p) x / mp_mix P s x) alpha props) ==
  Qsum (map2 (fun w p => w * mp_comp P (fst p) (snd p) x) mixw props) / mp_mix P s x.
Proof.
  intros alpha mixw props F. revert props. induction F as [|a w alpha mixw E F IH]; intros [|p props] L; try discriminate; simpl.
  - unfold Qdiv. ring.
  - rewrite IH by (simpl in L; lia). rewrite E. unfold Qdiv. ring.
Qed.

Lemma map2_nth {A B C} (f : A -> B -> C) (da : A) (db : B) l : forall m, length m = length l ->
  map2 f l m = map (fun d => f (nth d l da) (nth d m db)) (seq 0 (length l)).
Proof.
  induction l as [|a l IH]; intros [|b m] H; try discriminate; auto. simpl. f_equal.
  rewrite IH by (simpl in H; lia). rewrite <- seq_shift, map_map. reflexivity.
Qed.

Lemma rho_sum P s x : mp_params_ok P -> mp_ok P s -> mp_clean s ->
  Qsum (map (fun d => mp_rho P s d x) (seq 0 (mp_N P))) == 1.
Proof.
  intros PO O Cl. pose proof (mix_pos P s x PO O) as M. destruct O as (L1 & L2 & L3 & _).
  pose proof (rho_sum_gen P s x (mp_alpha s) (mp_mixw s) (mp_props s) Cl ltac:(congruence)) as H.
  rewrite (map2_nth _ 0 (([], []) : vec * mat) (mp_alpha s) (mp_props s)) in H by congruence. rewrite L2 in H.
  transitivity (Qsum (map2 (fun w p => w * mp_comp P (fst p) (snd p) x) (mp_mixw s) (mp_props s)) / mp_mix P s x); [exact H|].
  fold (mp_mix P s x). field. lra.
Qed.

(** ** The loop over the proposals *)
Definition new_alpha (ws rd : list Q) : Q := Qsum (map2 Qmult ws rd).
Definition new_mu (P : mp_params) xs ws rd : vec := mp_mu (mp_dims P) xs ws rd (new_alpha ws rd).
Definition new_cov (P : mp_params) xs ws rd : mat :=
  mp_failsafe (mp_dims P) (mp_cov (mp_K P) ws rd (new_alpha ws rd) (mp_scatter (mp_dims P) xs (new_mu P xs ws rd))).

Lemma upd_oob {A} (l : list A) i a : (length l <= i)%nat -> upd l i a = l.
Proof. revert i. induction l as [|b l IH]; intros [|i] H; simpl in *; auto; try lia. rewrite IH; auto. lia. Qed.

Lemma mp_adapt_spec P xs ws rho ds : forall alpha props alpha' props' ok, NoDup ds ->
  (forall d, In d ds -> (d < length alpha)%nat /\ (d < length props)%nat) ->
  mp_adapt P xs ws rho ds alpha props = (alpha', props', ok) ->
  length alpha' = length alpha /\ length props' = length props /\
  (forall d, nth_error alpha' d = nth_error alpha d \/ In d ds /\ nth_error alpha' d = Some (new_alpha ws (rho d))) /\
  (ok = true -> forall d, In d ds ->
     nth_error alpha' d = Some (new_alpha ws (rho d)) /\
     nth_error props' d = Some (new_mu P xs ws (rho d), new_cov P xs ws (rho d)) /\
     0 < detn (mp_dims P) (new_cov P xs ws (rho d))).
Proof.
  induction ds as [|d0 ds IH]; intros alpha props alpha' props' ok ND B E; simpl in E.
  - assert (alpha' = alpha /\ props' = props) as [-> ->] by (split; congruence). repeat split; auto; simpl; intros; tauto.
  - inversion ND as [|? ? NI ND']; subst. destruct (B d0 (or_introl eq_refl)) as [B1 B2].
    fold (new_alpha ws (rho d0)) in E. fold (new_mu P xs ws (rho d0)) in E. fold (new_cov P xs ws (rho d0)) in E.
    destruct (Qltb_spec 0 (detn (mp_dims P) (new_cov P xs ws (rho d0)))) as [Pd|Pd].
    + assert (B' : forall d, In d ds -> (d < length (upd alpha d0 (new_alpha ws (rho d0))))%nat /\
                  (d < length (upd props d0 (new_mu P xs ws (rho d0), new_cov P xs ws (rho d0))))%nat).
      { intros d D. rewrite !upd_length. apply B. right. auto. }
      destruct (IH _ _ _ _ _ ND' B' E) as (La & Lp & Ev & Ok).
      rewrite upd_length in La. rewrite upd_length in Lp. repeat split; auto.
      * intros d. destruct (Ev d) as [H|[H1 H2]]; [|right; split; [right|]; auto].
        destruct (Nat.eq_dec d d0) as [-> |Ne].
        -- right. rewrite upd_nth_error_eq in H; auto. split; auto. left. auto.
        -- left. rewrite upd_nth_error_neq in H; auto.
      * destruct H0 as [<- |D]; [|apply Ok; auto].
        destruct (Ev d0) as [H1|[H1 H2]]; [|tauto]. rewrite upd_nth_error_eq in H1; auto.
      * destruct H0 as [<- |D]; [|apply Ok; auto].
        assert (G : forall ds alpha props alpha' props' ok, mp_adapt P xs ws rho ds alpha props = (alpha', props', ok) ->
                  forall d, ~ In d ds -> nth_error props' d = nth_error props d).
        { clear. induction ds as [|d0 ds IH]; intros alpha props alpha' props' ok E d D; simpl in E; [congruence|].
          destruct (Qltb _ _); [|congruence]. rewrite (IH _ _ _ _ _ E d); [|intros X; apply D; right; auto].
          apply upd_nth_error_neq. intros ->. apply D. left. auto. }
        rewrite (G _ _ _ _ _ _ E d0 NI), upd_nth_error_eq; auto.
      * destruct H0 as [<- |D]; [auto|apply Ok; auto].
    + assert (alpha' = upd alpha d0 (new_alpha ws (rho d0)) /\ props' = props /\ ok = false) as (-> & -> & ->) by (repeat split; congruence).
      rewrite upd_length. repeat split; auto; try discriminate. intros d. destruct (Nat.eq_dec d d0) as [-> |Ne].
      * right. rewrite upd_nth_error_eq; auto. split; auto. left. auto.
      * left. rewrite upd_nth_error_neq; auto.
Qed.

(** Sums of products with positive weights. *)
Lemma new_alpha_pos ws rd : length rd = length ws -> Forall (fun w => 0 <= w) ws -> Forall (fun r => 0 < r) rd -> 0 < Qsum ws ->
  0 < new_alpha ws rd.
Proof.
  unfold new_alpha. revert rd. induction ws as [|w ws IH]; intros [|r rd] L F G S; simpl in *; try discriminate; try lra.
  inversion F as [|? ? Fw Fs]; inversion G as [|? ? Gr Gs]; subst. assert (H0 : 0 <= Qsum (map2 Qmult ws rd)).
  { clear - Fs Gs. revert rd Gs. induction Fs as [|w ws W F IH]; intros [|r rd] G; simpl; try lra. inversion G as [|? ? Gr Gs]; subst.
    specialize (IH rd Gs). assert (0 <= w * r) by (apply Qmult_le_0_compat; lra). lra. }
  destruct (Qlt_le_dec 0 w) as [W|W].
  - pose proof (Qmult_lt_0_compat w r W Gr). lra.
  - assert (E : w == 0) by lra. specialize (IH rd ltac:(lia) Fs Gs ltac:(lra)).
    assert (E2 : w * r == 0) by (rewrite E; ring). lra.
Qed.

(** The normalised batch weights. *)
Definition norm_ws (P : mp_params) pi s xs : list Q :=
  map (fun w => w / Qsum (map (mp_raw P pi s) xs)) (map (mp_raw P pi s) xs).

Lemma norm_ws_spec P pi s xs : mp_params_ok P -> mp_ok P s -> (forall x, 0 <= pi x) ->
  ~ Qsum (map (mp_raw P pi s) xs) == 0 ->
  0 < Qsum (map (mp_raw P pi s) xs) /\ Forall (fun w => 0 <= w) (norm_ws P pi s xs) /\ Qsum (norm_ws P pi s xs) == 1.
Proof.
  intros PO O Pi Z.
  assert (F : Forall (fun w => 0 <= w) (map (mp_raw P pi s) xs)).
  { apply Forall_forall. intros w W. apply in_map_iff in W. destruct W as (x & <- & _). apply raw_nonneg; auto. }
  pose proof (Qsum_nonneg _ F) as S. assert (S' : 0 < Qsum (map (mp_raw P pi s) xs)) by lra.
  split; auto. split.
  - apply Forall_forall. intros w W. unfold norm_ws in W. apply in_map_iff in W. destruct W as (a & <- & A).
    rewrite Forall_forall in F. apply Qle_shift_div_l; auto. rewrite Qmult_0_l. auto.
  - unfold norm_ws. rewrite Qsum_div. field. lra.
Qed.

Lemma zeroed_pos l : Forall (fun a => 0 < a) l -> map fin_val (zeroed (map Fin l)) = l.
Proof.
  intros F. unfold zeroed. rewrite !map_map. rewrite <- (map_id l) at 2. apply map_ext_in. intros a A.
  rewrite Forall_forall in F. simpl. destruct (Qle_bool_spec a 0); auto. specialize (F a A). lra.
Qed.
Lemma set_weights_pos n l : length l = n -> l <> [] -> Forall (fun a => 0 < a) l ->
  set_weights n (map Fin l) = Ok (map Fin (map (fun a => a / Qsum l) l)).
Proof.
  intros L Ne F. unfold set_weights. rewrite map_length, L, Nat.eqb_refl. simpl.
  assert (Z : zeroed (map Fin l) = map Fin l).
  { unfold zeroed. rewrite map_map. apply map_ext_in. intros a A. rewrite Forall_forall in F. simpl.
    destruct (Qle_bool_spec a 0); auto. specialize (F a A). lra. }
  rewrite Z. rewrite PopulationProofs.fsumQ_fin. simpl. pose proof (Qsum_pos l Ne F) as S.
  destruct (Qle_bool_spec (Qsum l) 0); [lra|]. f_equal. rewrite !map_map. apply map_ext. intros a. simpl. unfold fdivQ.
  destruct (Qeq_bool_spec (Qsum l) 0); auto. lra.
Qed.

Lemma div_pos l : Forall (fun a => 0 < a) l -> l <> [] -> Forall (fun a => 0 < a) (map (fun a => a / Qsum l) l).
Proof.
  intros F Ne. apply Forall_forall. intros w W. apply in_map_iff in W. destruct W as (a & <- & A).
  pose proof (Qsum_pos l Ne F). rewrite Forall_forall in F. apply Qlt_shift_div_l; auto. rewrite Qmult_0_l. auto.
Qed.

Lemma sample_ok P s r : mp_params_ok P -> mp_ok P s -> exists xs,
  mixture_sample (mp_mixw s) (mp_K P) (mr_us r) (mr_draw r) = Ok xs /\ length xs = mp_K P.
Proof.
  intros (N & K & C) (L1 & L2 & L3 & _). unfold mixture_sample. destruct (mp_mixw s) as [|w ws]; [simpl in L3; lia|].
  destruct (mp_K P) as [|k]; [lia|]. eexists. split; [reflexivity|]. rewrite map_length, seq_length. auto.
Qed.

(** What a turn of the loop does. *)
Inductive iter_case (P : mp_params) (pi : vec -> Q) (s : mp) : outcome mp -> Prop :=
| ic_dead xs : length xs = mp_K P -> Forall (fun x => pi x == 0) xs ->
    iter_case P pi s (Done (mkMp (mp_props s) (mp_alpha s) (mp_mixw s) (mp_samples s ++ xs) (mp_weights s ++ map (fun _ => NaN) xs)
      (mp_q_samples s + mp_K P) (mp_q_evals s + mp_K P * (1 + mp_N P)) (mp_pi_evals s + mp_K P) true))
| ic_done xs alpha mixw props : length xs = mp_K P -> Exists (fun x => 0 < pi x) xs ->
    (forall d, (d < mp_N P)%nat ->
       nth_error props d = Some (new_mu P xs (norm_ws P pi s xs) (map (mp_rho P s d) xs), new_cov P xs (norm_ws P pi s xs) (map (mp_rho P s d) xs)) /\
       0 < detn (mp_dims P) (new_cov P xs (norm_ws P pi s xs) (map (mp_rho P s d) xs))) ->
    (forall d, (d < mp_N P)%nat -> nth d alpha 0 * Qsum (map (fun d => new_alpha (norm_ws P pi s xs) (map (mp_rho P s d) xs)) (seq 0 (mp_N P)))
                                 == new_alpha (norm_ws P pi s xs) (map (mp_rho P s d) xs)) ->
    Forall2 Qeq alpha mixw -> Qsum alpha == 1 ->
    mp_ok P (mkMp props alpha mixw (mp_samples s ++ xs) (mp_weights s ++ map Fin (norm_ws P pi s xs))
      (mp_q_samples s + mp_K P) (mp_q_evals s + mp_K P * (1 + mp_N P)) (mp_pi_evals s + mp_K P) false) ->
    iter_case P pi s (Done (mkMp props alpha mixw (mp_samples s ++ xs) (mp_weights s ++ map Fin (norm_ws P pi s xs))
      (mp_q_samples s + mp_K P) (mp_q_evals s + mp_K P * (1 + mp_N P)) (mp_pi_evals s + mp_K P) false))
| ic_fail props alpha : length props = mp_N P -> length alpha = mp_N P -> Forall (fun a => 0 < a) alpha ->
    iter_case P pi s (Failed AssertionError (mkMp props alpha (mp_mixw s) (mp_samples s) (mp_weights s)
      (mp_q_samples s + mp_K P) (mp_q_evals s + mp_K P * (1 + mp_N P)) (mp_pi_evals s + mp_K P) false)).

Lemma Forall2_div l : Forall (fun a => 0 < a) l -> Qsum l == 1 -> Forall2 Qeq l (map (fun a => a / Qsum l) l).
Proof.
  intros _ S. generalize (Qsum l) S. clear S. intros q S. induction l; simpl; constructor; auto. rewrite S. field.
Qed.

Lemma mp_iter_case P pi r s : mp_params_ok P -> mp_ok P s -> (forall x, 0 <= pi x) -> iter_case P pi s (mp_iter P pi r s).
Proof.
  intros PO O Pi. destruct (sample_ok P s r PO O) as (xs & Sm & Lx). unfold mp_iter. rewrite Sm. cbv zeta.
  destruct (Qeq_bool_spec (Qsum (map (mp_raw P pi s) xs)) 0) as [Z|Z].
  - apply ic_dead; auto.
    assert (F : Forall (fun w => 0 <= w) (map (mp_raw P pi s) xs)).
    { apply Forall_forall. intros w W. apply in_map_iff in W. destruct W as (x & <- & _). apply raw_nonneg; auto. }
    pose proof (Qsum_zero_all _ F Z) as G. rewrite Forall_forall in G. apply Forall_forall. intros x X.
    specialize (G _ (in_map _ _ _ X)). unfold mp_raw in G. pose proof (mix_pos P s x PO O) as M.
    assert (E : pi x == pi x / mp_mix P s x * mp_mix P s x) by (field; lra). rewrite E, G. ring.
  - destruct (norm_ws_spec P pi s xs PO O Pi Z) as (Sp & Fw & S1).
    fold (norm_ws P pi s xs). set (ws := norm_ws P pi s xs) in *.
    assert (Lw : length ws = mp_K P) by (unfold ws, norm_ws; rewrite !map_length; auto).
    destruct (mp_adapt P xs ws (fun d => map (mp_rho P s d) xs) (seq 0 (mp_N P)) (mp_alpha s) (mp_props s)) as [[alpha props] ok] eqn:Ad.
    pose proof O as (L1 & L2 & L3 & Ap & Mp & Ms).
    destruct (mp_adapt_spec P xs ws (fun d => map (mp_rho P s d) xs) (seq 0 (mp_N P)) _ _ _ _ _ (seq_NoDup _ _)
      ltac:(intros d D; apply in_seq in D; rewrite L1, L2; lia) Ad) as (La & Lp & Ev & Ok).
    assert (Np : forall d, (d < mp_N P)%nat -> 0 < new_alpha ws (map (mp_rho P s d) xs)).
    { intros d D. apply new_alpha_pos; auto; [rewrite map_length; congruence| |lra].
      apply Forall_forall. intros p Pp. apply in_map_iff in Pp. destruct Pp as (x & <- & _). apply rho_pos; auto. }
    assert (Fa : Forall (fun a => 0 < a) alpha).
    { apply Forall_forall. intros a A. apply In_nth_error in A. destruct A as (d & D). destruct (Ev d) as [H|[H1 H2]].
      - rewrite D in H. rewrite Forall_forall in Ap. apply Ap. symmetry in H. apply (nth_error_In _ _ H).
      - apply in_seq in H1. rewrite D in H2. assert (a = new_alpha ws (map (mp_rho P s d) xs)) by congruence. subst. apply Np. lia. }
    destruct ok.
    + specialize (Ok eq_refl). destruct PO as (N & K & C).
      assert (Ea : alpha = map (fun d => new_alpha ws (map (mp_rho P s d) xs)) (seq 0 (mp_N P))).
      { apply nth_ext with 0 0; [rewrite map_length, seq_length; congruence|]. intros d D.
        destruct (Ok d ltac:(apply in_seq; lia)) as (H & _). rewrite (nth_error_nth _ _ _ H).
        rewrite (nth_indep _ 0 (new_alpha ws (map (mp_rho P s 0) xs))) by (rewrite map_length, seq_length; lia).
        rewrite (map_nth (fun d => new_alpha ws (map (mp_rho P s d) xs))). rewrite seq_nth; auto. lia. }
      assert (Ne : alpha <> []) by (intros E; rewrite E in La; simpl in La; lia).
      pose proof (Qsum_pos alpha Ne Fa) as Sa.
      set (al := map (fun a => a / Qsum alpha) alpha).
      assert (Fal : Forall (fun a => 0 < a) al) by (apply div_pos; auto).
      assert (Sal : Qsum al == 1) by (unfold al; rewrite Qsum_div; field; lra).
      assert (Lal : length al = mp_N P) by (unfold al; rewrite map_length; congruence).
      assert (Nal : al <> []) by (intros E; rewrite E in Lal; simpl in Lal; lia).
      rewrite (zeroed_pos al Fal), (set_weights_pos _ al Lal Nal Fal).
      assert (Em : map fin_val (map Fin (map (fun a => a / Qsum al) al)) = map (fun a => a / Qsum al) al).
      { rewrite (map_map Fin). simpl. apply map_id. }
      rewrite Em. apply ic_done; auto.
      * apply Exists_exists. destruct (Exists_dec (fun x => 0 < pi x) xs) as [H|H].
        { intros x. destruct (Qlt_le_dec 0 (pi x)); [left|right]; auto. lra. }
        { apply Exists_exists. auto. }
        exfalso. apply Z. apply Qsum_all_zero. apply Forall_forall. intros w W. apply in_map_iff in W. destruct W as (x & <- & X).
        unfold mp_raw. assert (E : pi x == 0).
        { pose proof (Pi x). destruct (Qlt_le_dec 0 (pi x)); [|lra]. exfalso. apply H. apply Exists_exists. eauto. }
        rewrite E. unfold Qdiv. ring.
      * intros d D. destruct (Ok d ltac:(apply in_seq; lia)) as (_ & H1 & H2). auto.
      * intros d D. fold ws. rewrite <- Ea. unfold al. destruct (Ok d ltac:(apply in_seq; lia)) as (H & _).
        rewrite (nth_indep _ 0 (0 / Qsum alpha)) by (rewrite map_length; lia).
        rewrite (map_nth (fun a => a / Qsum alpha)). rewrite (nth_error_nth _ _ _ H). field. lra.
      * apply Forall2_div; auto.
      * unfold mp_ok. simpl. rewrite !map_length. repeat split; auto; try congruence; try lia.
        -- apply div_pos; auto.
        -- rewrite Qsum_div. field. lra.
    + apply ic_fail; congruence || auto.
Qed.
