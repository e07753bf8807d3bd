(** Deterministic-mixture AIS, layered AIS and M-PMC on scaled targets. *)
From Coq Require Import List Bool Arith Lia QArith Lqa.
Import ListNotations.
From Verif Require Import Prelude.Py Prelude.QBase Prelude.QFacts Model.Base Model.Mixture Model.Population Model.MPMC Spec.ScaleSpec Proofs.ScaleBase.
Open Scope Q_scope.

Lemma Qnz c : 0 < c -> ~ c == 0.
Proof. intros C E. rewrite E in C. discriminate. Qed.

(** * Deterministic mixture and layered AIS *)
Definition pop_like (c : Q) (s s' : pop) : Prop :=
  pop_means s' = pop_means s /\ pop_samples s' = pop_samples s /\ Forall2 (times c) (pop_weights s) (pop_weights s') /\
  pop_q_samples s' = pop_q_samples s /\ pop_q_evals s' = pop_q_evals s /\ pop_pi_evals s' = pop_pi_evals s /\ pop_qdens s' = pop_qdens s.

Section Pop.
Variables (P : pop_params) (c : Q) (pi pi' : vec -> Q).
Hypothesis C : 0 < c.
Hypothesis S : scaled c pi pi'.
Lemma pop_weigh_scale means xs : Forall2 (times c) (pop_weigh P pi means xs) (pop_weigh P pi' means xs).
Proof.
  apply map_same. intros x. apply times_k with (c / 1); [field|]. apply times_fdivQ; [exact C|reflexivity|apply S|ring].
Qed.
Lemma fin_vals_same l l' : same_weights l l' -> Forall2 Qeq (map fin_val l) (map fin_val l').
Proof. intros H. eapply map_rel; [|exact H]. intros a b T. symmetry. now apply same_fin_val. Qed.
Lemma dm_adapt_scale r xs ws ws' s s' : Forall2 (times c) ws ws' -> pop_like c s s' -> outs (pop_like c) (dm_adapt P pi r xs ws s) (dm_adapt P pi' r xs ws' s').
Proof.
  intros W L. unfold dm_adapt. pose proof (normalise_same c C _ _ W) as N. rewrite (all_fin 1 _ _ N). destruct (forallb is_fin (normalise ws)); [|simpl; auto].
  destruct L as (A & B & D & F & G & H & I). unfold pop_like. simpl. rewrite A, B, F, G, H, I. repeat split; auto.
  apply map_ext. intros j. f_equal. apply multinomial_eq; [apply fin_vals_same; exact N|reflexivity].
Qed.
Lemma mcmc_scale ev n : forall l x, mcmc_mh P pi' ev n l x = mcmc_mh P pi ev n l x.
Proof.
  induction n as [|n IH]; intros l x; simpl; auto. rewrite IH. f_equal.
  replace (fgtQ (fdivQ (pi' (vclip (vadd x (fst (ev l))) (pp_lo P) (pp_hi P))) (pi' x)) (snd (ev l)))
    with (fgtQ (fdivQ (pi (vclip (vadd x (fst (ev l))) (pp_lo P) (pp_hi P))) (pi x)) (snd (ev l))); auto.
  symmetry. apply (times_gt 1); [reflexivity| |ring]. apply times_k with (c / c); [field; now apply Qnz|]. apply times_fdivQ; auto; apply S.
Qed.
Lemma lais_adapt_scale r xs ws ws' s s' : pop_like c s s' -> outs (pop_like c) (lais_adapt P pi r xs ws s) (lais_adapt P pi' r xs ws' s').
Proof.
  intros (A & B & D & F & G & H & I). unfold lais_adapt, pop_like. simpl. rewrite A, B, F, G, H, I. repeat split; auto. apply map_ext. intros jm. apply mcmc_scale.
Qed.
Lemma pop_iter_scale k r s s' : pop_like c s s' -> outs (pop_like c) (pop_iter k P pi r s) (pop_iter k P pi' r s').
Proof.
  intros L. unfold pop_iter. replace (pop_means s') with (pop_means s) by (symmetry; apply L).
  pose proof (pop_weigh_scale (pop_means s) (pop_draws P (pop_means s) r)) as W. revert W.
  generalize (pop_draws P (pop_means s) r). intros xs W. set (ws := pop_weigh P pi (pop_means s) xs) in *. set (ws' := pop_weigh P pi' (pop_means s) xs) in *.
  match goal with |- outs _ (match pop_adapt k P pi r xs ws ?a with _ => _ end) (match pop_adapt k P pi' r xs ws' ?b with _ => _ end) => assert (L1 : pop_like c a b) end.
  { destruct L as (A & B & D & F & G & H & I). unfold pop_like; simpl. rewrite B, F, G, H, I. repeat split; auto. }
  match goal with |- outs _ (match pop_adapt k P pi r xs ws ?a with _ => _ end) (match pop_adapt k P pi' r xs ws' ?b with _ => _ end) =>
    assert (T : outs (pop_like c) (pop_adapt k P pi r xs ws a) (pop_adapt k P pi' r xs ws' b)); [destruct k; [apply dm_adapt_scale; auto|apply lais_adapt_scale; auto]|];
    destruct (pop_adapt k P pi r xs ws a), (pop_adapt k P pi' r xs ws' b) end; simpl in T; try tauto; try exact T; cbn [outs].
  destruct T as (A & B & D & F & G & H & I). unfold pop_like; simpl. rewrite A, B, F, G, H, I. repeat split; auto. apply app_rel; auto.
Qed.
Lemma pop_loop_scale k n timeout tape : forall el s s', pop_like c s s' -> outs (pop_like c) (pop_loop k P pi n timeout tape el s) (pop_loop k P pi' n timeout tape el s').
Proof.
  induction tape as [|r t IH]; intros el s s' L; cbn [pop_loop]; replace (pop_samples s') with (pop_samples s) by (symmetry; apply L);
    destruct (_ && _); try exact L.
  pose proof (pop_iter_scale k r s s' L) as H. destruct (pop_iter k P pi r s), (pop_iter k P pi' r s'); simpl in H; try tauto; try (now apply IH); simpl; auto.
Qed.
End Pop.

(** * M-PMC *)
Lemma Qsum_eq l l' : Forall2 Qeq l l' -> Qsum l == Qsum l'.
Proof. induction 1; simpl; [reflexivity|]. now rewrite H, IHForall2. Qed.
Lemma map2_rel {A A' B B' E E'} (R : A -> A' -> Prop) (T : B -> B' -> Prop) (V : E -> E' -> Prop) f g l l' m m' :
  (forall a a' b b', R a a' -> T b b' -> V (f a b) (g a' b')) -> Forall2 R l l' -> Forall2 T m m' -> Forall2 V (map2 f l m) (map2 g l' m').
Proof. intros H F. revert m m'. induction F; intros m m' G; simpl; [constructor|]. destruct G; constructor; auto. Qed.
Lemma Forall2_refl {A} (R : A -> A -> Prop) l : (forall a, R a a) -> Forall2 R l l.
Proof. intros H. induction l; constructor; auto. Qed.
Lemma nth_eq l l' i : Forall2 Qeq l l' -> nth i l 0 == nth i l' 0.
Proof. intros F. revert i. induction F; intros [|i]; simpl; auto; reflexivity. Qed.
Definition meq : mat -> mat -> Prop := Forall2 (Forall2 Qeq).
Lemma drop_col_eq j l l' : Forall2 Qeq l l' -> Forall2 Qeq (drop_col j l) (drop_col j l').
Proof. intros F. revert j. induction F; intros [|j]; simpl; auto. Qed.
Lemma detn_eq n : forall m m', meq m m' -> detn n m == detn n m'.
Proof.
  induction n as [|n IH]; intros m m' M; [reflexivity|]. destruct M as [|row row' m m' R M]; [reflexivity|]. cbn [detn]. apply Qsum_eq. apply map_same. intros j.
  rewrite (nth_eq _ _ j R). rewrite (IH (map (drop_col j) m) (map (drop_col j) m')); [reflexivity|]. eapply map_rel; [|exact M]. intros a b. apply drop_col_eq.
Qed.
Lemma scatter_eq n xs mu mu' : Forall2 Qeq mu mu' -> meq (mp_scatter n xs mu) (mp_scatter n xs mu').
Proof.
  intros M. unfold mp_scatter. apply map_same. intros i. apply map_same. intros j. apply Qsum_eq, map_same. intros x. now rewrite (nth_eq _ _ i M), (nth_eq _ _ j M).
Qed.
Lemma existsb_rel {A B} (R : A -> B -> Prop) f g l l' : (forall a b, R a b -> f a = g b) -> Forall2 R l l' -> existsb f l = existsb g l'.
Proof. intros H. induction 1; simpl; auto. now rewrite (H _ _ H0), IHForall2. Qed.
Lemma failsafe_eq n v v' : meq v v' -> meq (mp_failsafe n v) (mp_failsafe n v').
Proof.
  intros M. unfold mp_failsafe. rewrite (existsb_rel (Forall2 Qeq) (existsb (fun v => Qltb 10 v)) (existsb (fun v => Qltb 10 v)) v v'); auto.
  - destruct (existsb _ v'); auto. apply Forall2_refl. intros. apply Forall2_refl. reflexivity.
  - intros a b F. apply (existsb_rel Qeq); auto. intros x y E. symmetry. apply Qltb_eq; [reflexivity|now symmetry].
Qed.
Lemma mu_eq n xs ws ws' rd rd' a a' : Forall2 Qeq ws ws' -> Forall2 Qeq rd rd' -> a == a' -> Forall2 Qeq (mp_mu n xs ws rd a) (mp_mu n xs ws' rd' a').
Proof.
  intros W R A. apply map_same. intros i. rewrite A. apply Qdiv_comp; [|reflexivity]. apply Qsum_eq.
  apply (map2_rel eq Qeq); [|apply Forall2_refl; reflexivity|apply (map2_rel Qeq Qeq); auto; intros; now apply Qmult_comp].
  intros x x' u u' <- E. now rewrite E.
Qed.
Lemma cov_eq K ws ws' rd rd' a a' v v' : Forall2 Qeq ws ws' -> Forall2 Qeq rd rd' -> a == a' -> meq v v' -> meq (mp_cov K ws rd a v) (mp_cov K ws' rd' a' v').
Proof.
  intros W R A M. unfold mp_cov. eapply map_rel; [|exact M]. intros l l' L. eapply map_rel; [|exact L]. intros x x' E. rewrite A. apply Qdiv_comp; [|reflexivity].
  apply Qsum_eq, map_same. intros i. now rewrite (nth_eq _ _ i W), (nth_eq _ _ i R), E.
Qed.
Definition peq (p p' : vec * mat) : Prop := Forall2 Qeq (fst p) (fst p') /\ meq (snd p) (snd p').
Lemma nth_rel {A B} (R : A -> B -> Prop) l l' i d d' : Forall2 R l l' -> R d d' -> R (nth i l d) (nth i l' d').
Proof. intros F D. revert i. induction F; intros [|i]; simpl; auto. Qed.
Lemma adapt_eq P xs ws ws' rho rho' ds : Forall2 Qeq ws ws' -> (forall d, Forall2 Qeq (rho d) (rho' d)) -> forall al al' ps ps',
  Forall2 Qeq al al' -> Forall2 peq ps ps' ->
  let r := mp_adapt P xs ws rho ds al ps in let r' := mp_adapt P xs ws' rho' ds al' ps' in
  Forall2 Qeq (fst (fst r)) (fst (fst r')) /\ Forall2 peq (snd (fst r)) (snd (fst r')) /\ snd r' = snd r.
Proof.
  intros W R. induction ds as [|d ds IH]; intros al al' ps ps' A Ps; [simpl; auto|]. cbn [mp_adapt].
  assert (Ea : Qsum (map2 Qmult ws (rho d)) == Qsum (map2 Qmult ws' (rho' d))).
  { apply Qsum_eq. apply (map2_rel Qeq Qeq); auto. intros. now apply Qmult_comp. }
  set (a := Qsum (map2 Qmult ws (rho d))) in *. set (a' := Qsum (map2 Qmult ws' (rho' d))) in *.
  pose proof (mu_eq (mp_dims P) xs _ _ _ _ a a' W (R d) Ea) as M. set (mu := mp_mu (mp_dims P) xs ws (rho d) a) in *. set (mu' := mp_mu (mp_dims P) xs ws' (rho' d) a') in *.
  pose proof (failsafe_eq (mp_dims P) _ _ (cov_eq (mp_K P) _ _ _ _ a a' _ _ W (R d) Ea (scatter_eq (mp_dims P) xs _ _ M))) as V.
  set (cv := mp_failsafe _ (mp_cov (mp_K P) ws _ _ _)) in *. set (cv' := mp_failsafe _ (mp_cov (mp_K P) ws' _ _ _)) in *.
  rewrite (Qltb_eq 0 (detn (mp_dims P) cv) 0 (detn (mp_dims P) cv')) by (try reflexivity; symmetry; now apply detn_eq).
  destruct (Qltb 0 (detn (mp_dims P) cv)).
  - apply IH; apply upd_rel; auto. split; auto.
  - simpl. split; [apply upd_rel; auto|auto].
Qed.

(** Weights normalised by CMixtureModel.set_weights. *)
Lemma zeroed_cases l : Forall (fun w => w = Fin 0 \/ bad_weight w = false) (zeroed l).
Proof. apply Forall_forall. intros w H. apply in_map_iff in H. destruct H as (x & E & _). destruct (bad_weight x) eqn:B; subst w; auto. Qed.
Lemma zeroed_sum l : Forall (fun w => w = Fin 0 \/ bad_weight w = false) l ->
  (exists s, fsumQ l = Fin s /\ 0 <= s /\ (s <= 0 -> Forall (eq (Fin 0)) l)) \/ fsumQ l = PInf.
Proof.
  induction 1 as [|w l [E|B] F IH]; cbn [fsumQ].
  - left. exists 0. repeat split; auto. lra.
  - subst w. destruct IH as [(s & Es & Sp & Z)|Es]; rewrite Es; simpl; auto. left. exists (0 + s). repeat split; [lra|]. intros H. constructor; auto. apply Z. lra.
  - destruct w as [a| | |]; simpl in B; try discriminate.
    + destruct (Qle_bool_spec a 0) as [|Na]; [discriminate|]. apply Qnot_le_lt in Na.
      destruct IH as [(s & Es & Sp & Z)|Es]; rewrite Es; simpl; auto. left. exists (a + s). repeat split; [lra|]. intros H. lra.
    + destruct IH as [(s & Es & _)|Es]; rewrite Es; simpl; auto.
Qed.
Lemma zeroed_scale k l l' : 0 < k -> Forall2 (times k) l l' -> Forall2 (times k) (zeroed l) (zeroed l').
Proof.
  intros K. apply map_rel. intros a b T. rewrite (times_bad k K a b T). destruct (bad_weight a); auto. simpl. ring.
Qed.
Lemma set_weights_scale k n l l' : 0 < k -> Forall2 (times k) l l' ->
  match set_weights n l, set_weights n l' with Ok w, Ok w' => same_weights w w' | Raise e, Raise e' => e = e' | _, _ => False end.
Proof.
  intros K F. unfold set_weights. rewrite <- (rel_length _ _ _ F). destruct (negb _); auto.
  pose proof (zeroed_scale k l l' K F) as Z. pose proof (times_sum k _ _ Z) as T. rewrite (times_nonpos k K _ _ T). destruct (fnonpos (fsumQ (zeroed l))) eqn:N.
  - destruct (zeroed_sum (zeroed l) (zeroed_cases l)) as [(s & Es & _ & H)|E]; [|rewrite E in N; discriminate]. rewrite Es in N. simpl in N. apply Qle_bool_iff in N. specialize (H N).
    revert Z H. generalize (zeroed l) (zeroed l'). clear. intros w w' Z H. induction Z; [constructor|]. inversion H; subst. constructor; [|now apply IHZ]. eapply times_zero; eauto.
  - unfold same_weights. eapply map_rel; [|exact Z]. intros a b Tb. apply times_k with (k / k); [field; now apply Qnz|]. now apply times_div.
Qed.

Definition mp_like (s s' : mp) : Prop :=
  Forall2 peq (mp_props s) (mp_props s') /\ Forall2 Qeq (mp_alpha s) (mp_alpha s') /\ Forall2 Qeq (mp_mixw s) (mp_mixw s') /\
  mp_samples s' = mp_samples s /\ same_weights (mp_weights s) (mp_weights s') /\
  mp_q_samples s' = mp_q_samples s /\ mp_q_evals s' = mp_q_evals s /\ mp_pi_evals s' = mp_pi_evals s /\ mp_dead s' = mp_dead s.
Lemma mixture_sample_eq {X} ws ws' n us (draw : nat -> nat -> X) : Forall2 Qeq ws ws' -> mixture_sample ws' n us draw = mixture_sample ws n us draw.
Proof.
  intros F. unfold mixture_sample. destruct F as [|a b ws ws' E F]; auto. destruct n; auto. f_equal. apply map_ext. intros k. f_equal. apply multinomial_eq; [constructor; auto|reflexivity].
Qed.
(** The density of a proposal depends on the values of mean and covariance only. *)
Definition comp_ext (P : mp_params) : Prop :=
  forall m m' v v' x, Forall2 Qeq m m' -> Forall2 (Forall2 Qeq) v v' -> mp_comp P m v x == mp_comp P m' v' x.

Section Mpmc.
Variables (P : mp_params) (c : Q) (pi pi' : vec -> Q).
Hypothesis X : comp_ext P.
Hypothesis C : 0 < c.
Hypothesis S : scaled c pi pi'.
Lemma mix_eq s s' x : mp_like s s' -> mp_mix P s x == mp_mix P s' x.
Proof.
  intros (A & _ & M & _). unfold mp_mix. apply Qsum_eq. apply (map2_rel Qeq peq); auto. intros w w' p p' E (Ep & Ev). rewrite E. now rewrite (X _ _ _ _ x Ep Ev).
Qed.
Lemma rho_eq s s' d x : mp_like s s' -> mp_rho P s d x == mp_rho P s' d x.
Proof.
  intros L. unfold mp_rho. rewrite (mix_eq s s' x L). destruct L as (A & B & _). rewrite (nth_eq _ _ d B).
  assert (Q0 : peq ([], []) ([], [])) by (split; constructor). destruct (nth_rel peq _ _ d ([], []) ([], []) A Q0) as (Ep & Ev). now rewrite (X _ _ _ _ x Ep Ev).
Qed.
Lemma raw_eq s s' x : mp_like s s' -> mp_raw P pi' s' x == c * mp_raw P pi s x.
Proof. intros L. unfold mp_raw. pose proof (S x) as E. cbv beta in E. rewrite <- (mix_eq s s' x L), E. unfold Qdiv. ring. Qed.
Lemma fins_same l l' : Forall2 Qeq l l' -> same_weights (map Fin l) (map Fin l').
Proof. apply map_rel. intros a b E. simpl. rewrite E. ring. Qed.
Lemma mp_iter_scale r s s' : mp_like s s' -> outs mp_like (mp_iter P pi r s) (mp_iter P pi' r s').
Proof.
  intros L. unfold mp_iter. rewrite (mixture_sample_eq (mp_mixw s) (mp_mixw s')) by apply L. destruct (mixture_sample _ _ _ _) as [xs|e]; [|split; auto].
  pose proof (map_same (fun a b => b == c * a) (mp_raw P pi s) (mp_raw P pi' s') xs (fun x => raw_eq s s' x L)) as R.
  assert (Sm : Qsum (map (mp_raw P pi' s') xs) == c * Qsum (map (mp_raw P pi s) xs)).
  { revert R. generalize (map (mp_raw P pi s) xs) (map (mp_raw P pi' s') xs). induction 1; simpl; [ring|]. rewrite H, IHR. ring. }
  rewrite (Qeq_bool_scale c _ _ C Sm). destruct (Qeq_bool_spec (Qsum (map (mp_raw P pi s) xs)) 0) as [Z|Z].
  - destruct L as (A & B & D & E & F & G & H & I & J). unfold mp_like; simpl. rewrite E, G, H, I. repeat split; auto. apply app_rel; auto. apply map_same. exact (fun _ => Logic.I).
  - set (rs := map (mp_raw P pi s) xs) in *. set (rs' := map (mp_raw P pi' s') xs) in *.
    assert (W : Forall2 Qeq (map (fun w => w / Qsum rs) rs) (map (fun w => w / Qsum rs') rs')).
    { eapply map_rel; [|exact R]. intros a b E. cbv beta in E |- *. rewrite E, Sm. field. split; auto. now apply Qnz. }
    assert (Rh : forall d, Forall2 Qeq (map (mp_rho P s d) xs) (map (mp_rho P s' d) xs)) by (intros d; apply map_same; intros x; now apply rho_eq).
    pose proof (adapt_eq P xs _ _ (fun d => map (mp_rho P s d) xs) (fun d => map (mp_rho P s' d) xs) (seq 0 (mp_N P)) W Rh (mp_alpha s) (mp_alpha s') (mp_props s) (mp_props s') (proj1 (proj2 L)) (proj1 L)) as T.
    cbn zeta in T. destruct (mp_adapt P xs (map (fun w => w / Qsum rs) rs) _ _ _ _) as [[al ps] ok]. destruct (mp_adapt P xs (map (fun w => w / Qsum rs') rs') _ _ _ _) as [[al' ps'] ok'].
    cbn [fst snd] in T. destruct T as (Ta & Tp & ->). destruct L as (A & B & D & E & F & G & H & I & J). destruct ok.
    + assert (Na : Forall2 Qeq (map (fun a => a / Qsum al) al) (map (fun a => a / Qsum al') al')).
      { eapply map_rel; [|exact Ta]. intros a b Eab. cbv beta. now rewrite Eab, (Qsum_eq _ _ Ta). }
      pose proof (fins_same _ _ Na) as Fs. pose proof (zeroed_scale 1 _ _ eq_refl Fs) as Zs. pose proof (set_weights_scale 1 (mp_N P) _ _ eq_refl Fs) as Sw.
      unfold mp_like; simpl. rewrite E, G, H, I. repeat split; auto.
      * now apply fin_vals_same.
      * destruct (set_weights _ (map Fin (map (fun a => a / Qsum al) al))), (set_weights _ (map Fin (map (fun a => a / Qsum al') al'))); try tauto; [|constructor]. now apply fin_vals_same.
      * apply app_rel; auto. now apply fins_same.
    + split; auto. unfold mp_like; simpl. rewrite E, G, H, I. repeat split; auto.
Qed.
Lemma mp_loop_scale n timeout tape : forall el s s', mp_like s s' -> outs mp_like (mp_loop P pi n timeout tape el s) (mp_loop P pi' n timeout tape el s').
Proof.
  induction tape as [|r t IH]; intros el s s' L; cbn [mp_loop]; replace (mp_samples s') with (mp_samples s) by (symmetry; apply L);
    replace (mp_dead s') with (mp_dead s) by (symmetry; apply L); destruct (_ && _); try exact L; destruct (mp_dead s); try exact L.
  pose proof (mp_iter_scale r s s' L) as H. destruct (mp_iter P pi r s), (mp_iter P pi' r s'); simpl in H; try tauto; try (now apply IH); simpl; auto.
Qed.
End Mpmc.
Lemma mp_like_refl s : mp_like s s.
Proof.
  unfold mp_like. repeat split; auto; try (apply Forall2_refl; reflexivity); apply Forall2_refl; [|apply times_refl].
  intros p. split; apply Forall2_refl; [reflexivity|]. intros l. apply Forall2_refl. reflexivity.
Qed.
