(** M-PMC with the axes in another order: means and covariances are those of the same axes. *)
From Coq Require Import List Bool Arith Lia QArith Lqa Permutation.
Import ListNotations.
From Verif Require Import Prelude.Py Prelude.QBase Prelude.QFacts Model.Base Model.Mixture Model.Population Model.MPMC Spec.ScaleSpec Spec.AxesSpec Spec.AxesMpmcOps Proofs.ScaleBase Proofs.ScalePop
  Proofs.MixtureProofs Proofs.MixtureSelect Proofs.UnitsMpmc Proofs.AxesBase Proofs.AxesDet.
Open Scope Q_scope.

Lemma F2_tab {B} (Rl : nat -> B -> Prop) sg (g : nat -> B) : (forall k, (k < length sg)%nat -> Rl (nth k sg 0%nat) (g k)) -> Forall2 Rl sg (map g (seq 0 (length sg))).
Proof.
  revert g. induction sg as [|i sg IH]; intros g H; [constructor|]. cbn [length seq map]. constructor; [apply (H 0%nat); simpl; lia|]. rewrite <- seq_shift, map_map. apply IH. intros k K. apply (H (S k)). simpl. lia.
Qed.
Lemma F2_nth {B} (Rl : nat -> B -> Prop) sg l d : Forall2 Rl sg l -> forall k, (k < length sg)%nat -> Rl (nth k sg 0%nat) (nth k l d).
Proof. induction 1; intros [|k] K; simpl in *; try lia; auto. apply IHForall2. lia. Qed.
Lemma F2_in {A B} (Rl : A -> B -> Prop) l m b : Forall2 Rl l m -> In b m -> exists a, In a l /\ Rl a b.
Proof. intros F. induction F as [|a b0 l m H F IH]; intros I; [destruct I|]. destruct I as [->|I]; [exists a; split; [now left|exact H]|]. destruct (IH I) as (a' & H1 & H2). exists a'. split; [now right|exact H2]. Qed.
Lemma nth_tab {B} (f : nat -> B) n i d : (i < n)%nat -> nth i (map f (seq 0 n)) d = f i.
Proof. intros H. rewrite (nth_indep _ d (f 0%nat)) by (rewrite map_length, seq_length; auto). rewrite map_nth, seq_nth; auto. Qed.

Section Axes.
Variables (dm : nat) (sg : list nat).
Hypothesis Pm : Permutation (seq 0 dm) sg.
Notation R := (relabel dm sg).
Notation RM := (relabel_mat dm sg).
Notation dens pi pi' := (forall x y, R x y -> pi' y == pi x).
Lemma sg_len : length sg = dm.
Proof. rewrite <- (Permutation_length Pm). apply seq_length. Qed.
Lemma sg_in k : (k < dm)%nat -> (nth k sg 0 < dm)%nat.
Proof. intros K. assert (I : In (nth k sg 0%nat) (seq 0 dm)) by (apply (Permutation_in _ (Permutation_sym Pm)), nth_In; rewrite sg_len; auto). apply in_seq in I. lia. Qed.
Lemma sg_lt : Forall (fun i => (i < dm)%nat) sg.
Proof. apply Forall_forall. intros i I. apply (Permutation_in _ (Permutation_sym Pm)) in I. apply in_seq in I. lia. Qed.
Lemma sg_onto i : (i < dm)%nat -> In i sg.
Proof. intros H. apply (Permutation_in _ Pm), in_seq. lia. Qed.
Lemma sg_nodup : NoDup sg.
Proof. apply (Permutation_NoDup Pm), seq_NoDup. Qed.
Lemma relabel_nth x y k : R x y -> (k < dm)%nat -> nth k y 0 == nth (nth k sg 0%nat) x 0.
Proof. intros (_ & F) K. apply (F2_nth (fun i v => v == nth i x 0) sg y 0 F). now rewrite sg_len. Qed.
Lemma relabel_tab (f g : nat -> Q) : (forall k, (k < dm)%nat -> g k == f (nth k sg 0%nat)) -> R (map f (seq 0 dm)) (map g (seq 0 dm)).
Proof.
  intros H. split; [now rewrite map_length, seq_length|]. assert (G : Forall2 (fun i v => v == nth i (map f (seq 0 dm)) 0) sg (map g (seq 0 (length sg)))); [|rewrite sg_len in G; exact G]. apply F2_tab. intros k K. rewrite sg_len in K. rewrite nth_tab by now apply sg_in. now apply H.
Qed.
Lemma relabel_mat_tab (f g : nat -> nat -> Q) : (forall k l, (k < dm)%nat -> (l < dm)%nat -> g k l == f (nth k sg 0%nat) (nth l sg 0%nat)) ->
  RM (map (fun i => map (f i) (seq 0 dm)) (seq 0 dm)) (map (fun i => map (g i) (seq 0 dm)) (seq 0 dm)).
Proof.
  intros H. split; [now rewrite map_length, seq_length|]. split; [apply Forall_forall; intros r I; apply in_map_iff in I; destruct I as (i & <- & _); now rewrite map_length, seq_length|].
  assert (G : Forall2 (fun i row' => Forall2 (fun j q => q == nth j (nth i (map (fun i => map (f i) (seq 0 dm)) (seq 0 dm)) []) 0) sg row') sg (map (fun i => map (g i) (seq 0 dm)) (seq 0 (length sg)))).
  { apply F2_tab. intros k K. rewrite sg_len in K. rewrite nth_tab by now apply sg_in. assert (G : Forall2 (fun j q => q == nth j (map (f (nth k sg 0%nat)) (seq 0 dm)) 0) sg (map (g k) (seq 0 (length sg)))); [|rewrite sg_len in G; exact G].
    apply F2_tab. intros l L. rewrite sg_len in L. rewrite nth_tab by now apply sg_in. now apply H. }
  rewrite sg_len in G. exact G.
Qed.
Lemma mu_axes xs ys ws ws' rd rd' al al' : relabels dm sg xs ys -> Forall2 Qeq ws ws' -> Forall2 Qeq rd rd' -> al' == al -> R (mp_mu dm xs ws rd al) (mp_mu dm ys ws' rd' al').
Proof.
  intros X W Rd A. apply relabel_tab. intros k K. rewrite A. apply Qdiv_comp; [|reflexivity]. symmetry. apply Qsum_eq.
  apply (map2_rel R Qeq); [|exact X|apply (map2_rel Qeq Qeq); auto; intros; now apply Qmult_comp]. intros x y u v Hx E. now rewrite (relabel_nth x y k Hx K), E.
Qed.
Lemma scatter_axes xs ys mu mu' : relabels dm sg xs ys -> R mu mu' -> RM (mp_scatter dm xs mu) (mp_scatter dm ys mu').
Proof.
  intros X M. unfold mp_scatter.
  apply (relabel_mat_tab (fun i j => Qsum (map (fun x => (nth i x 0 - nth i mu 0) * (nth j x 0 - nth j mu 0)) xs)) (fun i j => Qsum (map (fun x => (nth i x 0 - nth i mu' 0) * (nth j x 0 - nth j mu' 0)) ys))).
  intros k l K L. symmetry. apply Qsum_eq. eapply map_rel; [|exact X]. intros x y H. cbv beta. now rewrite !(relabel_nth _ _ k H K), !(relabel_nth _ _ l H L), (relabel_nth _ _ k M K), (relabel_nth _ _ l M L).
Qed.
Lemma nth_map2 (f : Q -> Q) v i j : length v = dm -> Forall (fun row => length row = dm) v -> (i < dm)%nat -> (j < dm)%nat -> nth j (nth i (map (map f) v) []) 0 = f (nth j (nth i v []) 0).
Proof.
  intros L F I J. change (@nil Q) with (map f []) at 1. rewrite map_nth. assert (Lr : length (nth i v []) = dm). { rewrite Forall_forall in F. apply F, nth_In. lia. }
  rewrite (nth_indep _ 0 (f 0)) by (rewrite map_length; lia). apply map_nth.
Qed.
Lemma Forall2_lt {B} (Rl Rl' : nat -> B -> Prop) l m : (forall i b, (i < dm)%nat -> Rl i b -> Rl' i b) -> Forall (fun i => (i < dm)%nat) l -> Forall2 Rl l m -> Forall2 Rl' l m.
Proof. intros H F G. induction G; inversion F; subst; constructor; auto. Qed.
Lemma F2_map {A B C} (Rl : A -> C -> Prop) (f : B -> C) l m : Forall2 (fun a b => Rl a (f b)) l m -> Forall2 Rl l (map f m).
Proof. induction 1; constructor; auto. Qed.
Lemma mat_map (f g : Q -> Q) v v' : (forall q q', q' == q -> g q' == f q) -> RM v v' -> RM (map (map f) v) (map (map g) v').
Proof.
  intros H (L & F & G). split; [now rewrite map_length|]. split; [apply Forall_forall; intros r I; apply in_map_iff in I; destruct I as (r0 & <- & I0); rewrite map_length; rewrite Forall_forall in F; auto|].
  apply F2_map. revert G. apply Forall2_lt; [|apply sg_lt]. intros i row I G. apply F2_map. revert G. apply Forall2_lt; [|apply sg_lt]. intros j q J E. rewrite nth_map2 by auto. now apply H.
Qed.
Lemma cov_axes K ws ws' rd rd' al al' v v' : Forall2 Qeq ws ws' -> Forall2 Qeq rd rd' -> al' == al -> RM v v' -> RM (mp_cov K ws rd al v) (mp_cov K ws' rd' al' v').
Proof.
  intros W Rd A M. apply mat_map; auto. intros q q' E. rewrite A. apply Qdiv_comp; [|reflexivity]. apply Qsum_eq, map_same. intros i. now rewrite <- (nth_eq _ _ i W), <- (nth_eq _ _ i Rd), E.
Qed.
Lemma diag_axes u v : v == u -> RM (diag_const dm u) (diag_const dm v).
Proof.
  intros E. unfold diag_const. apply (relabel_mat_tab (fun i j => if (i =? j)%nat then u else 0) (fun i j => if (i =? j)%nat then v else 0)). intros k l K L.
  destruct (Nat.eqb_spec k l) as [->|N]; [rewrite Nat.eqb_refl; exact E|]. destruct (Nat.eqb_spec (nth k sg 0%nat) (nth l sg 0%nat)) as [Eq|_]; [|reflexivity].
  elim N. apply (proj1 (NoDup_nth sg 0%nat) sg_nodup); auto; rewrite sg_len; auto.
Qed.
Lemma big_axes v v' : RM v v' -> existsb (existsb (fun q => Qltb 10 q)) v' = existsb (existsb (fun q => Qltb 10 q)) v.
Proof.
  intros (L & F & G). apply eq_true_iff_eq. rewrite !existsb_exists. split.
  - intros (row' & I & B). apply existsb_exists in B. destruct B as (q & J & B). destruct (F2_in _ _ _ _ G I) as (i & Ii & Gi). destruct (F2_in _ _ _ _ Gi J) as (j & Ij & E). pose proof sg_lt as Lt. rewrite Forall_forall in Lt. pose proof (Lt i Ii) as Hi. pose proof (Lt j Ij) as Hj.
    assert (Ir : In (nth i v []) v) by (apply nth_In; lia). exists (nth i v []). split; auto. apply existsb_exists. exists (nth j (nth i v []) 0). split; [apply nth_In; rewrite Forall_forall in F; rewrite (F _ Ir); lia|].
    rewrite <- B. apply Qltb_eq; [reflexivity|now symmetry].
  - intros (row & I & B). apply existsb_exists in B. destruct B as (q & J & B). destruct (In_nth v row [] I) as (i & Hi & Er). destruct (In_nth row q 0 J) as (j & Hj & Eq). rewrite Forall_forall in F. rewrite (F row I) in Hj. rewrite L in Hi.
    destruct (In_nth sg i 0%nat (sg_onto i Hi)) as (k & Hk & Ek). destruct (In_nth sg j 0%nat (sg_onto j Hj)) as (l & Hl & El).
    pose proof (F2_nth _ sg v' [] G k Hk) as H. cbv beta in H. rewrite Ek, Er in H. pose proof (F2_nth _ sg _ 0 H l Hl) as H'. cbv beta in H'. rewrite El, Eq in H'.
    exists (nth k v' []). split; [apply nth_In; rewrite <- (rel_length _ _ _ G); auto|]. apply existsb_exists. exists (nth l (nth k v' []) 0). split; [apply nth_In; rewrite <- (rel_length _ _ _ H); auto|].
    rewrite <- B. apply Qltb_eq; [reflexivity|exact H'].
Qed.
Lemma failsafe_axes v v' : RM v v' -> RM (mp_failsafe dm v) (mp_failsafe dm v').
Proof. intros M. unfold mp_failsafe. rewrite (big_axes v v' M). destruct (existsb _ v); auto. apply diag_axes. reflexivity. Qed.
Lemma tab_self {A B} (f : A -> B) l d : map (fun i => f (nth i l d)) (seq 0 (length l)) = map f l.
Proof. rewrite <- (map_map (fun i => nth i l d) f). f_equal. induction l as [|a l IH]; [reflexivity|]. cbn [length seq map nth]. f_equal. rewrite <- seq_shift, map_map. exact IH. Qed.
Lemma det_axes v v' : RM v v' -> detn dm v' == detn dm v.
Proof.
  intros (L & F & G). set (A := fun i j => nth j (nth i v []) 0).
  assert (E1 : map (fun i => map (A i) (seq 0 dm)) (seq 0 dm) = v).
  { transitivity (map (fun r => map (fun j => nth j r 0) (seq 0 dm)) v).
    - rewrite <- (tab_self (fun r => map (fun j => nth j r 0) (seq 0 dm)) v []). rewrite L. reflexivity.
    - rewrite <- (map_id v) at 2. apply map_ext_in. intros r I. rewrite Forall_forall in F. rewrite <- (F r I). rewrite (tab_self (fun q => q) r 0). apply map_id. }
  assert (E2 : meq (map (fun i => map (A i) sg) sg) v').
  { assert (G1 : forall i row, Forall2 (fun j q => q == A i j) sg row -> Forall2 Qeq (map (A i) sg) row) by (intros i row H; clear -H; induction H; simpl; constructor; auto; now symmetry).
    assert (G2 : forall l, Forall2 (fun i row => Forall2 (fun j q => q == A i j) sg row) l v' -> Forall2 (Forall2 Qeq) (map (fun i => map (A i) sg) l) v') by (intros l H; clear -H G1; induction H; simpl; constructor; auto).
    apply G2. exact G. }
  rewrite <- (detn_eq dm _ _ E2). rewrite <- sg_len at 1. rewrite detn_Dl by reflexivity. rewrite <- E1. rewrite <- (seq_length dm 0) at 1. rewrite detn_Dl by reflexivity. symmetry. now apply Dl_perm.
Qed.

Definition pax (p p' : vec * mat) : Prop := R (fst p) (fst p') /\ RM (snd p) (snd p').
Lemma adapt_axes P P' xs ys ws ws' rho rho' ds : mp_dims P = dm -> mp_dims P' = dm -> mp_K P' = mp_K P -> relabels dm sg xs ys ->
  Forall2 Qeq ws ws' -> Forall (fun d => Forall2 Qeq (rho d) (rho' d)) ds -> forall al al' ps ps',
  Forall2 Qeq al al' -> Forall2 pax ps ps' ->
  let r := mp_adapt P xs ws rho ds al ps in let r' := mp_adapt P' ys ws' rho' ds al' ps' in
  Forall2 Qeq (fst (fst r)) (fst (fst r')) /\ Forall2 pax (snd (fst r)) (snd (fst r')) /\ snd r' = snd r.
Proof.
  intros Dm Dm' EK X W Rh. induction Rh as [|d ds R0 Rh IH]; intros al al' ps ps' A Ps; [simpl; auto|]. cbn [mp_adapt]. rewrite Dm, Dm', EK.
  assert (Ea : Qsum (map2 Qmult ws' (rho' d)) == Qsum (map2 Qmult ws (rho d))).
  { symmetry. apply Qsum_eq. apply (map2_rel Qeq Qeq); auto. intros. now apply Qmult_comp. }
  remember (Qsum (map2 Qmult ws (rho d))) as s eqn:Es. remember (Qsum (map2 Qmult ws' (rho' d))) as s' eqn:Es'.
  assert (A1 : Forall2 Qeq (upd al d s) (upd al' d s')) by (apply upd_rel; auto; now symmetry).
  pose proof (mu_axes xs ys ws ws' (rho d) (rho' d) s s' X W R0 Ea) as M.
  pose proof (failsafe_axes _ _ (cov_axes (mp_K P) _ _ _ _ s s' _ _ W R0 Ea (scatter_axes xs ys _ _ X M))) as V.
  rewrite (Qltb_eq 0 _ 0 _ (Qeq_refl 0) (det_axes _ _ V)). destruct (Qltb _ _).
  - apply IH; auto. apply upd_rel; auto. split; auto.
  - simpl. auto.
Qed.

Definition mp_rel (N : nat) (s s' : mp) : Prop :=
  Forall2 pax (mp_props s) (mp_props s') /\ Forall2 Qeq (mp_alpha s) (mp_alpha s') /\ Forall2 Qeq (mp_mixw s) (mp_mixw s') /\
  relabels dm sg (mp_samples s) (mp_samples s') /\ same_weights (mp_weights s) (mp_weights s') /\
  mp_q_samples s' = mp_q_samples s /\ mp_q_evals s' = mp_q_evals s /\ mp_pi_evals s' = mp_pi_evals s /\ mp_dead s' = mp_dead s /\ length (mp_props s) = N.

Section Mpmc.
Variables (P P' : mp_params) (pi pi' : vec -> Q).
Hypothesis Sh : R (mp_hi P) (mp_hi P').
Hypothesis SN : mp_N P' = mp_N P.
Hypothesis SK : mp_K P' = mp_K P.
Hypothesis Sc : forall m m' v v', R m m' -> RM v v' -> dens (mp_comp P m v) (mp_comp P' m' v').
Hypothesis D : dens pi pi'.
Lemma dims_axes : mp_dims P = dm /\ mp_dims P' = dm.
Proof. destruct Sh as (L & F). split; [exact L|]. unfold mp_dims. rewrite <- (rel_length _ _ _ F). apply sg_len. Qed.
Lemma mix_axes s s' x y : mp_rel (mp_N P) s s' -> R x y -> mp_mix P' s' y == mp_mix P s x.
Proof.
  intros (H1 & _ & H3 & _) X. unfold mp_mix. symmetry. apply Qsum_eq. apply (map2_rel Qeq pax); auto. intros w w' p p' E (Ep & Ev). rewrite <- E. now rewrite (Sc _ _ _ _ Ep Ev x y X).
Qed.
Lemma raw_axes s s' x y : mp_rel (mp_N P) s s' -> R x y -> mp_raw P' pi' s' y == mp_raw P pi s x.
Proof. intros L X. unfold mp_raw. now rewrite (mix_axes s s' x y L X), (D x y X). Qed.
Lemma rho_axes s s' d x y : mp_rel (mp_N P) s s' -> (d < mp_N P)%nat -> R x y -> mp_rho P s d x == mp_rho P' s' d y.
Proof.
  intros L Ld X. unfold mp_rho. rewrite (mix_axes s s' x y L X). destruct L as (H1 & H2 & _ & _ & _ & _ & _ & _ & _ & Ln).
  assert (Q0 : pax (nth d (mp_props s) ([], [])) (nth d (mp_props s') ([], []))). { rewrite <- Ln in Ld. clear -H1 Ld. revert d Ld. induction H1; intros [|d] L; simpl in *; auto; try lia. apply IHForall2. lia. }
  destruct Q0 as (Ep & Ev). now rewrite (Sc _ _ _ _ Ep Ev x y X), <- (nth_eq _ _ d H2).
Qed.
Lemma mp_iter_axes r r' s s' : mp_round_axes dm sg r r' -> mp_rel (mp_N P) s s' -> outs (mp_rel (mp_N P)) (mp_iter P pi r s) (mp_iter P' pi' r' s').
Proof.
  intros (U1 & U2 & _) L. unfold mp_iter. rewrite SK, SN.
  assert (M : match mixture_sample (mp_mixw s) (mp_K P) (mr_us r) (mr_draw r), mixture_sample (mp_mixw s') (mp_K P) (mr_us r') (mr_draw r') with Ok xs, Ok ys => relabels dm sg xs ys | Raise e, Raise e' => e = e' | _, _ => False end).
  { rewrite (mixture_sample_eq (mp_mixw s) (mp_mixw s')) by apply L. unfold mixture_sample. destruct (mp_mixw s) as [|w ws], (mp_K P) as [|K]; try reflexivity; try (exact (Forall2_nil _)).
    apply (relabels_draws dm sg (fun k => mr_draw r k (multinomial1 (w :: ws) 1 (mr_us r k) 0)) (fun k => mr_draw r' k (multinomial1 (w :: ws) 1 (mr_us r' k) 0))). intros k. rewrite (multinomial1_ext _ _ _ _ 0 (U1 k)). apply U2. }
  destruct (mixture_sample (mp_mixw s) _ _ _) as [xs|e], (mixture_sample (mp_mixw s') _ _ _) as [ys|e']; try contradiction; [|subst; split; auto].
  assert (Rw : Forall2 Qeq (map (mp_raw P pi s) xs) (map (mp_raw P' pi' s') ys)) by (eapply map_rel; [|exact M]; intros x y X; symmetry; now apply raw_axes).
  pose proof (Qsum_eq _ _ Rw) as Sm. assert (Eb : Qeq_bool (Qsum (map (mp_raw P' pi' s') ys)) 0 = Qeq_bool (Qsum (map (mp_raw P pi s) xs)) 0) by (rewrite Sm; reflexivity).
  rewrite Eb. destruct (Qeq_bool (Qsum (map (mp_raw P pi s) xs)) 0).
  - destruct L as (H1 & H2 & H3 & H4 & H5 & H6 & H7 & H8 & H9 & H10). unfold outs, mp_rel; cbn [mp_props mp_alpha mp_mixw mp_samples mp_weights mp_q_samples mp_q_evals mp_pi_evals mp_dead]. rewrite H6, H7, H8. repeat (split; auto); apply app_rel; auto.
    eapply map_rel; [|exact M]. intros; exact I.
  - set (rs := map (mp_raw P pi s) xs) in *. set (rs' := map (mp_raw P' pi' s') ys) in *.
    assert (W : Forall2 Qeq (map (fun w => w / Qsum rs) rs) (map (fun w => w / Qsum rs') rs')) by (eapply map_rel; [|exact Rw]; intros u v E; cbv beta; now rewrite E, Sm).
    assert (Rh : Forall (fun d => Forall2 Qeq (map (mp_rho P s d) xs) (map (mp_rho P' s' d) ys)) (seq 0 (mp_N P))).
    { apply Forall_forall. intros d Hd. apply in_seq in Hd. eapply map_rel; [|exact M]. intros x y X. apply rho_axes; auto. lia. }
    destruct dims_axes as (Db & Db').
    pose proof (adapt_axes P P' xs ys (map (fun w => w / Qsum rs) rs) (map (fun w => w / Qsum rs') rs') (fun d => map (mp_rho P s d) xs) (fun d => map (mp_rho P' s' d) ys) (seq 0 (mp_N P)) Db Db' SK M) as T.
    specialize (T W Rh (mp_alpha s) (mp_alpha s') (mp_props s) (mp_props s') (proj1 (proj2 L)) (proj1 L)).
    pose proof (adapt_length P xs (map (fun w => w / Qsum rs) rs) (fun d => map (mp_rho P s d) xs) (seq 0 (mp_N P)) (mp_alpha s) (mp_props s)) as Lp.
    cbn zeta in T. destruct (mp_adapt P xs (map (fun w => w / Qsum rs) rs) _ _ _ _) as [[al ps] ok]. destruct (mp_adapt P' ys (map (fun w => w / Qsum rs') rs') _ _ _ _) as [[al' ps'] ok'].
    cbn [fst snd] in T, Lp. destruct T as (Ta & Tp & ->). destruct L as (H1 & H2 & H3 & H4 & H5 & H6 & H7 & H8 & H9 & H10). destruct ok.
    + assert (Na : Forall2 Qeq (map (fun a => a / Qsum al) al) (map (fun a => a / Qsum al') al')).
      { eapply map_rel; [|exact Ta]. intros u v Euv. cbv beta. now rewrite Euv, (Qsum_eq _ _ Ta). }
      pose proof (fins_same _ _ Na) as Fs. pose proof (zeroed_scale 1 _ _ eq_refl Fs) as Zs. pose proof (ScalePop.set_weights_scale 1 (mp_N P) _ _ eq_refl Fs) as Sw.
      unfold outs, mp_rel; cbn [mp_props mp_alpha mp_mixw mp_samples mp_weights mp_q_samples mp_q_evals mp_pi_evals mp_dead]. rewrite H6, H7, H8. split; [exact Tp|]. split; [now apply fin_vals_same|]. split.
      * destruct (set_weights _ (map Fin (map (fun a => a / Qsum al) al))), (set_weights _ (map Fin (map (fun a => a / Qsum al') al'))); try tauto; [|constructor]. now apply fin_vals_same.
      * split; [now apply app_rel|]. split; [apply app_rel; auto; now apply fins_same|]. repeat (split; auto). congruence.
    + split; auto. unfold mp_rel; cbn [mp_props mp_alpha mp_mixw mp_samples mp_weights mp_q_samples mp_q_evals mp_pi_evals mp_dead]. rewrite H6, H7, H8. repeat (split; auto). congruence.
Qed.
Lemma mp_loop_axes n timeout tape tape' : Forall2 (mp_round_axes dm sg) tape tape' -> forall el s s', mp_rel (mp_N P) s s' -> outs (mp_rel (mp_N P)) (mp_loop P pi n timeout tape el s) (mp_loop P' pi' n timeout tape' el s').
Proof.
  assert (Dd : forall s s', mp_rel (mp_N P) s s' -> mp_dead s' = mp_dead s) by (intros s s' (_ & _ & _ & _ & _ & _ & _ & _ & H & _); exact H).
  assert (Ls : forall s s', mp_rel (mp_N P) s s' -> length (mp_samples s') = length (mp_samples s)) by (intros s s' (_ & _ & _ & H & _); exact (relabels_length dm sg _ _ H)).
  induction 1 as [|r r' t t' E F IH]; intros el s s' L; cbn [mp_loop]; rewrite (Ls s s' L), (Dd s s' L); destruct (_ && _); try exact L; destruct (mp_dead s); try exact L.
  replace (mr_clock r') with (mr_clock r) by (symmetry; apply E).
  pose proof (mp_iter_axes r r' s s' E L) as H. destruct (mp_iter P pi r s), (mp_iter P' pi' r' s'); simpl in H; try contradiction; try exact H. now apply IH.
Qed.
End Mpmc.
End Axes.
