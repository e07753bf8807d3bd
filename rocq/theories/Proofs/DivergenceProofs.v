(** Lemmas about divergences. *)
From Coq Require Import List Bool Arith Lia Reals Lra.
Import ListNotations.
From Verif Require Import Prelude.Py Prelude.QBase Prelude.RBase Model.Divergence Spec.DivergenceSpec Spec.DensitySpec.
Open Scope R_scope.

(** ** textbook facts *)
Definition pospairs (c : list (R * R)) : Prop := Forall (fun ab => 0 < fst ab /\ 0 < snd ab) c.

Lemma common_pos p : forall q, pospairs (common p q).
Proof.
  induction p as [|a p IH]; intros [|b q]; simpl; try constructor.
  destruct (Rlt_dec 0 a); [|apply IH]. destruct (Rlt_dec 0 b); [|apply IH]. constructor; [auto|apply IH].
Qed.

Lemma total_pos l : l <> [] -> Forall (fun x => 0 < x) l -> 0 < total l.
Proof.
  intros N F. destruct F as [|x l P F]; [congruence|]. simpl.
  assert (0 <= total l) by (clear - F; induction F; simpl; lra). lra.
Qed.
Lemma pos_fst c : pospairs c -> Forall (fun x => 0 < x) (map fst c).
Proof. intros H. rewrite Forall_map. eapply Forall_impl; [|exact H]. cbv beta. tauto. Qed.
Lemma pos_snd c : pospairs c -> Forall (fun x => 0 < x) (map snd c).
Proof. intros H. rewrite Forall_map. eapply Forall_impl; [|exact H]. cbv beta. tauto. Qed.
Lemma map_nonnil {A B} (f : A -> B) l : l <> [] -> map f l <> [].
Proof. destruct l; [congruence|discriminate]. Qed.

Lemma total_div l s : total (map (fun x => x / s) l) = total l / s.
Proof. induction l; simpl; [unfold Rdiv; ring|]. rewrite IHl. unfold Rdiv. ring. Qed.

Lemma ln_le_sub x : 0 < x -> ln x <= x - 1.
Proof.
  intros H. destruct (Req_dec x 1) as [->|N]; [rewrite ln_1; lra|].
  assert (G : 1 + ln x < exp (ln x)).
  { apply exp_ineq1. intros E. apply N. rewrite <- (exp_ln x), E by auto. apply exp_0. }
  rewrite exp_ln in G by auto. lra.
Qed.
Lemma ln_eq_sub x : 0 < x -> ln x = x - 1 -> x = 1.
Proof.
  intros H E. destruct (Req_dec x 1) as [|N]; [assumption|]. exfalso.
  assert (G : 1 + ln x < exp (ln x)).
  { apply exp_ineq1. intros Z. apply N. rewrite <- (exp_ln x), Z by auto. apply exp_0. }
  rewrite exp_ln in G by auto. lra.
Qed.

Lemma entropy_term a b : 0 < a -> 0 < b -> a - b <= a * ln (a / b) /\ (a * ln (a / b) = a - b -> a = b).
Proof.
  intros A B. assert (E : ln (a / b) = - ln (b / a)).
  { unfold Rdiv. rewrite !ln_mult, !ln_Rinv by (auto using Rinv_0_lt_compat). ring. }
  assert (P : 0 < b / a) by (apply Rdiv_lt_0_compat; auto).
  assert (F : a * (b / a - 1) = b - a) by (field; lra). rewrite E. split.
  - pose proof (ln_le_sub _ P). nra.
  - intros H. assert (L : ln (b / a) = b / a - 1) by (apply Rmult_eq_reg_l with a; lra).
    apply ln_eq_sub in L; auto. rewrite L in F. lra.
Qed.

Lemma gibbs c : pospairs c -> total (map fst c) - total (map snd c) <= rel_entropy c /\
  (rel_entropy c = total (map fst c) - total (map snd c) -> Forall (fun ab => fst ab = snd ab) c).
Proof.
  unfold rel_entropy. induction 1 as [|[a b] c [A B] F [IH1 IH2]]; simpl in *; [split; [lra|constructor]|].
  destruct (entropy_term a b A B) as [T1 T2]. split; [lra|]. intros E. constructor; [apply T2; lra|apply IH2; lra].
Qed.

Lemma entropy_eq c : Forall (fun ab : R * R => fst ab = snd ab) c -> pospairs c -> rel_entropy c = 0.
Proof.
  unfold rel_entropy. intros H P. induction H as [|[a b] c E H IH]; [reflexivity|]. inversion P as [|? ? [A B] P']; subst.
  simpl in *. subst b. rewrite IH by auto. replace (a / a) with 1 by (field; lra). rewrite ln_1. ring.
Qed.

Lemma rescaled_pos c : pospairs c -> c <> [] -> pospairs (rescaled c) /\
  total (map fst (rescaled c)) = 1 /\ total (map snd (rescaled c)) = 1.
Proof.
  intros P N. pose proof (total_pos _ (map_nonnil fst c N) (pos_fst c P)) as T1.
  pose proof (total_pos _ (map_nonnil snd c N) (pos_snd c P)) as T2. unfold rescaled. split; [|split].
  - unfold pospairs. rewrite Forall_map. eapply Forall_impl; [|exact P]. intros [a b] [A B]. simpl in *.
    split; apply Rdiv_lt_0_compat; auto.
  - rewrite map_map. simpl. set (s := total (map fst c)) in *.
    change (map (fun x => fst x / s) c) with (map (fun x => (fun y => y / s) (fst x)) c). rewrite <- map_map, total_div. fold s. field. lra.
  - rewrite map_map. simpl. set (s := total (map snd c)) in *.
    change (map (fun x => snd x / s) c) with (map (fun x => (fun y => y / s) (snd x)) c). rewrite <- map_map, total_div. fold s. field. lra.
Qed.

Lemma rescaled_eq c : pospairs c -> c <> [] ->
  (Forall (fun ab => fst ab = snd ab) (rescaled c) <-> exists k, 0 < k /\ Forall (fun ab => fst ab = k * snd ab) c).
Proof.
  intros P N. pose proof (total_pos _ (map_nonnil fst c N) (pos_fst c P)) as T1.
  pose proof (total_pos _ (map_nonnil snd c N) (pos_snd c P)) as T2. unfold rescaled. rewrite Forall_map. cbn [fst snd].
  set (s := total (map fst c)) in *. set (t := total (map snd c)) in *. split.
  - intros H. exists (s / t). split; [apply Rdiv_lt_0_compat; auto|]. eapply Forall_impl; [|exact H].
    intros [a b] E. simpl in *. apply Rmult_eq_reg_r with (/ s); [|apply Rinv_neq_0_compat; lra].
    unfold Rdiv in E. rewrite E. field. lra.
  - intros (k & K & H). assert (S1 : s = k * t).
    { unfold s, t. clear - H. induction H as [|[a b] c E H IH]; simpl in *; [ring|]. rewrite E, IH. ring. }
    eapply Forall_impl; [|exact H]. intros [a b] E. simpl in *. rewrite E, S1. field. lra.
Qed.

Lemma kl_div_facts p q : common p q <> [] -> 0 <= kl_div p q /\ (kl_div p q = 0 <-> proportional p q).
Proof.
  intros N. destruct (rescaled_pos _ (common_pos p q) N) as (P & T1 & T2). destruct (gibbs _ P) as [G1 G2].
  rewrite T1, T2 in *. unfold kl_div. split; [lra|]. unfold proportional.
  rewrite <- (rescaled_eq _ (common_pos p q) N). split.
  - intros E. apply G2. lra.
  - intros E. now apply entropy_eq.
Qed.

Lemma common_scale a b p : 0 < a -> 0 < b -> forall q,
  common (map (Rmult a) p) (map (Rmult b) q) = map (fun xy => (a * fst xy, b * snd xy)) (common p q).
Proof.
  intros A B. induction p as [|x p IH]; intros [|y q]; simpl; auto. rewrite IH.
  destruct (Rlt_dec 0 (a * x)), (Rlt_dec 0 x); try (exfalso; nra); [|reflexivity].
  destruct (Rlt_dec 0 (b * y)), (Rlt_dec 0 y); try (exfalso; nra); reflexivity.
Qed.

Lemma total_scal a l : total (map (Rmult a) l) = a * total l.
Proof. induction l; simpl; [ring|]. rewrite IHl. ring. Qed.

Lemma rescaled_scale a b c : 0 < a -> 0 < b -> pospairs c -> c <> [] ->
  rescaled (map (fun xy => (a * fst xy, b * snd xy)) c) = rescaled c.
Proof.
  intros A B P N. pose proof (total_pos _ (map_nonnil fst c N) (pos_fst c P)) as T1.
  pose proof (total_pos _ (map_nonnil snd c N) (pos_snd c P)) as T2. unfold rescaled. rewrite !map_map. cbn [fst snd].
  change (map (fun x => a * fst x) c) with (map (fun x => Rmult a (fst x)) c).
  change (map (fun x => b * snd x) c) with (map (fun x => Rmult b (snd x)) c).
  rewrite <- (map_map fst (Rmult a)), <- (map_map snd (Rmult b)), !total_scal.
  apply map_ext. intros [x y]. simpl. f_equal; field; lra.
Qed.

Lemma mid_entropy (u v : R * R -> R) c : (forall ab, In ab c -> 0 < u ab /\ 0 < v ab) ->
  rel_entropy (map (fun ab => (u ab, (u ab + v ab) / 2)) c) <= ln 2 * total (map u c).
Proof.
  unfold rel_entropy. induction c as [|x c IH]; intros H; simpl; [lra|].
  assert (IHc := IH (fun ab I => H ab (or_intror I))). destruct (H x (or_introl eq_refl)) as [U V].
  assert (ln (u x / ((u x + v x) / 2)) <= ln 2).
  { assert (u x / ((u x + v x) / 2) < 2).
    { apply Rmult_lt_reg_r with ((u x + v x) / 2); [lra|]. unfold Rdiv at 1. rewrite Rmult_assoc, Rinv_l by lra. lra. }
    left. apply ln_increasing; [apply Rdiv_lt_0_compat; lra|assumption]. }
  nra.
Qed.

Lemma total_mid c : total (map (fun ab : R * R => (fst ab + snd ab) / 2) c) = (total (map fst c) + total (map snd c)) / 2.
Proof. induction c; simpl; [lra|]. rewrite IHc. lra. Qed.

Lemma ln2_pos : 0 < ln 2.
Proof. rewrite <- ln_1. apply ln_increasing; lra. Qed.

Lemma js_div_facts p q : common p q <> [] -> 0 <= js_div p q <= 1 /\ (js_div p q = 0 <-> proportional p q).
Proof.
  intros N. destruct (rescaled_pos _ (common_pos p q) N) as (P & T1 & T2). unfold js_div, proportional.
  rewrite <- (rescaled_eq _ (common_pos p q) N). set (c := rescaled (common p q)) in *. clearbody c.
  pose proof ln2_pos as L2.
  set (cp := map (fun ab => (fst ab, (fst ab + snd ab) / 2)) c).
  set (cq := map (fun ab => (snd ab, (fst ab + snd ab) / 2)) c).
  assert (PP : pospairs cp). { unfold cp, pospairs. rewrite Forall_map. eapply Forall_impl; [|exact P]. intros [a b]. simpl. lra. }
  assert (PQ : pospairs cq). { unfold cq, pospairs. rewrite Forall_map. eapply Forall_impl; [|exact P]. intros [a b]. simpl. lra. }
  destruct (gibbs _ PP) as [GP1 GP2]. destruct (gibbs _ PQ) as [GQ1 GQ2].
  assert (M1 : map fst cp = map fst c) by (unfold cp; rewrite map_map; reflexivity).
  assert (M2 : map snd cp = map (fun ab => (fst ab + snd ab) / 2) c) by (unfold cp; rewrite map_map; reflexivity).
  assert (M3 : map fst cq = map snd c) by (unfold cq; rewrite map_map; reflexivity).
  assert (M4 : map snd cq = map (fun ab => (fst ab + snd ab) / 2) c) by (unfold cq; rewrite map_map; reflexivity).
  rewrite M1, M2, total_mid, T1, T2 in *. rewrite M3, M4, total_mid, T1, T2 in *.
  assert (UP : rel_entropy cp <= ln 2).
  { rewrite <- (Rmult_1_r (ln 2)), <- T1. unfold cp. apply (mid_entropy fst snd). unfold pospairs in P. rewrite Forall_forall in P. exact P. }
  assert (UQ : rel_entropy cq <= ln 2).
  { rewrite <- (Rmult_1_r (ln 2)), <- T2. unfold cq.
    rewrite (map_ext _ (fun ab => (snd ab, (snd ab + fst ab) / 2))) by (intros; f_equal; lra).
    apply (mid_entropy snd fst). unfold pospairs in P. rewrite Forall_forall in P. intros ab I. specialize (P ab I). tauto. }
  assert (EQ0 : Forall (fun ab => fst ab = snd ab) c -> rel_entropy cp = 0 /\ rel_entropy cq = 0).
  { intros H. split; apply entropy_eq; auto; unfold cp, cq; rewrite Forall_map; eapply Forall_impl; [|exact H| |exact H]; intros [a b]; simpl; lra. }
  assert (EQ1 : rel_entropy cp = 0 -> Forall (fun ab => fst ab = snd ab) c).
  { intros E. assert (H : Forall (fun ab => fst ab = snd ab) cp) by (apply GP2; lra). unfold cp in H. rewrite Forall_map in H.
    eapply Forall_impl; [|exact H]. intros [a b]. simpl. lra. }
  clearbody cp cq. set (x := rel_entropy cp) in *. set (y := rel_entropy cq) in *. clearbody x y.
  assert (B1 : 0 <= (x / 2 + y / 2) / ln 2) by (apply Rmult_le_pos; [lra|left; now apply Rinv_0_lt_compat]).
  split; [split; [exact B1|]|].
  - apply Rmult_le_reg_r with (ln 2); [lra|]. unfold Rdiv at 1. rewrite Rmult_assoc, Rinv_l by lra. lra.
  - split.
    + intros E. apply EQ1. assert (x / 2 + y / 2 = 0).
      { apply Rmult_eq_reg_r with (/ ln 2); [|apply Rinv_neq_0_compat; lra]. unfold Rdiv in E. unfold Rdiv. rewrite E. ring. }
      lra.
    + intros H. destruct (EQ0 H) as [-> ->]. unfold Rdiv. ring.
Qed.

Lemma common_swap p : forall q, common q p = map (fun ab => (snd ab, fst ab)) (common p q).
Proof.
  induction p as [|a p IH]; intros [|b q]; simpl; auto. destruct (Rlt_dec 0 a), (Rlt_dec 0 b); simpl; now rewrite IH.
Qed.

Lemma js_div_sym p q : js_div q p = js_div p q.
Proof.
  unfold js_div. rewrite common_swap. set (c := common p q). assert (R1 : rescaled (map (fun ab => (snd ab, fst ab)) c) = map (fun ab => (snd ab, fst ab)) (rescaled c)).
  { unfold rescaled. rewrite !map_map. reflexivity. }
  rewrite R1, !map_map. cbn [fst snd]. f_equal. rewrite Rplus_comm. f_equal; f_equal; f_equal; apply map_ext; intros; f_equal; lra.
Qed.

(** ** the model computes them *)
Lemma fsum_fin l : fsumR (map Fin l) = Fin (total l).
Proof. induction l; simpl; [reflexivity|]. now rewrite IHl. Qed.

Lemma Rltb_t a b : a < b -> Rltb a b = true.
Proof. unfold Rltb. destruct (Rlt_dec a b); tauto. Qed.
Lemma Rltb_f a b : ~ a < b -> Rltb a b = false.
Proof. unfold Rltb. destruct (Rlt_dec a b); tauto. Qed.
Lemma fdiv_fin a b : b <> 0 -> fdivR (Fin a) (Fin b) = Fin (a / b).
Proof. intros H. simpl. unfold Reqb. destruct (Req_EM_T b 0); [contradiction|reflexivity]. Qed.
Lemma fln_fin a : 0 < a -> fln (Fin a) = Fin (ln a).
Proof. intros H. simpl. now rewrite Rltb_t. Qed.

Definition fpair (ab : R * R) : fl R * fl R := (Fin (fst ab), Fin (snd ab)).

(** a density value, or NaN *)
Lemma inliers_common ok p q :
  (forall a b, ok (Fin a) (Fin b) = Rltb 0 a && Rltb 0 b) ->
  inlier_pairs ok (map Fin p) (map Fin q) = map fpair (common p q).
Proof.
  intros H. unfold inlier_pairs. revert q. induction p as [|a p IH]; intros [|b q]; simpl; auto. rewrite H, IH. unfold Rltb.
  destruct (Rlt_dec 0 a); simpl; [|reflexivity]. destruct (Rlt_dec 0 b); reflexivity.
Qed.

Lemma map_fst_fpair c : map fst (map fpair c) = map Fin (map fst c).
Proof. rewrite !map_map. reflexivity. Qed.
Lemma map_snd_fpair c : map snd (map fpair c) = map Fin (map snd c).
Proof. rewrite !map_map. reflexivity. Qed.

Lemma kl_terms (c : list (R * R)) (s t : R) : pospairs c -> 0 < s -> 0 < t ->
  fsumR (map2 (fun a b => if fgtninf b && negb (fpos b) then Fin 0 else fmulR a (fln (fdivR a b)))
    (map (fun x => fdivR x (Fin s)) (map Fin (map fst c))) (map (fun x => fdivR x (Fin t)) (map Fin (map snd c))))
  = Fin (rel_entropy (map (fun ab => (fst ab / s, snd ab / t)) c)).
Proof.
  intros P S1 T1. unfold rel_entropy. induction P as [|[a b] c [A B] P IH]; [reflexivity|].
  cbn [map fst snd total fold_right]. rewrite !fdiv_fin by lra. cbn [map2]. cbn [fst snd] in A, B.
  assert (BT : 0 < b / t) by (apply Rdiv_lt_0_compat; lra). assert (AS : 0 < a / s) by (apply Rdiv_lt_0_compat; lra).
  cbn [fgtninf fpos]. rewrite (Rltb_t _ _ BT). cbn [negb andb].
  rewrite fdiv_fin by lra. rewrite fln_fin by (apply Rdiv_lt_0_compat; lra). cbn [fmulR fsumR]. rewrite IH. reflexivity.
Qed.

Lemma kl_probs_value p q : p <> [] -> common p q <> [] ->
  exists l, kl_from_probs (map Fin p) (map Fin q) = Ok (KlArray l) /\ fsumR l = Fin (kl_div p q).
Proof.
  intros NP N. unfold kl_from_probs. destruct (map Fin p) eqn:E; [destruct p; [congruence|discriminate]|]. rewrite <- E.
  rewrite (inliers_common _ p q) by reflexivity. rewrite map_fst_fpair, map_snd_fpair, !fsum_fin.
  pose proof (common_pos p q) as P. pose proof (total_pos _ (map_nonnil fst _ N) (pos_fst _ P)) as T1.
  pose proof (total_pos _ (map_nonnil snd _ N) (pos_snd _ P)) as T2. cbn [fpos]. rewrite !Rltb_t by auto.
  eexists. split; [reflexivity|]. now rewrite kl_terms.
Qed.

Lemma kl_probs_disjoint p q : p <> [] -> common p q = [] -> kl_from_probs (map Fin p) (map Fin q) = Ok KlInf.
Proof.
  intros NP N. unfold kl_from_probs. destruct (map Fin p) eqn:E; [destruct p; [congruence|discriminate]|]. rewrite <- E.
  rewrite (inliers_common _ p q) by reflexivity. rewrite N. cbn [map fsumR fpos]. now rewrite Rltb_f by lra.
Qed.

(** logs *)
Lemma reduce_fin l : forall z, 0 <= z -> fold_left logaddexp (map Fin l) (if Rltb 0 z then Fin (ln z) else NInf)
  = if Rltb 0 (z + total (map exp l)) then Fin (ln (z + total (map exp l))) else NInf.
Proof.
  induction l as [|a l IH]; intros z Z; simpl; [now rewrite Rplus_0_r|]. pose proof (exp_pos a) as EA.
  replace (z + (exp a + total (map exp l))) with (z + exp a + total (map exp l)) by ring. rewrite <- IH by lra.
  rewrite (Rltb_t 0 (z + exp a)) by lra. f_equal. unfold Rltb. destruct (Rlt_dec 0 z); simpl.
  - now rewrite exp_ln.
  - assert (z = 0) as -> by lra. now rewrite Rplus_0_l, ln_exp.
Qed.
Lemma reduce_total l : l <> [] -> logaddexp_reduce (map Fin l) = Fin (ln (total (map exp l))).
Proof.
  intros N. unfold logaddexp_reduce. pose proof (reduce_fin l 0 (Rle_refl _)) as H. rewrite (Rltb_f 0 0) in H by lra.
  rewrite H, Rplus_0_l. rewrite Rltb_t; [reflexivity|]. apply total_pos; [now apply map_nonnil|].
  rewrite Forall_map. apply Forall_forall. intros. apply exp_pos.
Qed.

Definition logpair (ab : R * R) : fl R * fl R := (Fin (ln (fst ab)), Fin (ln (snd ab))).

Lemma inliers_log lp lq : Forall log_value lp -> Forall log_value lq ->
  inlier_pairs (fun a b => fgtninf a && fgtninf b) lp lq = map logpair (common (map density_of lp) (map density_of lq)).
Proof.
  unfold inlier_pairs. intros P. revert lq. induction P as [|a lp A P IH]; intros lq Q; [reflexivity|].
  destruct Q as [|b lq B Q]; [reflexivity|]. cbn [combine filter map common fst snd]. rewrite IH by auto.
  destruct a as [a| | |]; simpl in A |- *; try tauto.
  - destruct (Rlt_dec 0 (exp a)) as [_|NE]; [|exfalso; apply NE; apply exp_pos].
    destruct b as [b| | |]; simpl in B |- *; try tauto.
    + destruct (Rlt_dec 0 (exp b)) as [_|NE]; [|exfalso; apply NE; apply exp_pos]. cbn [map]. f_equal. unfold logpair. cbn [fst snd]. now rewrite !ln_exp.
    + destruct (Rlt_dec 0 0); [lra|reflexivity].
  - destruct (Rlt_dec 0 0); [lra|]. reflexivity.
Qed.

Lemma map_exp_ln l : Forall (fun x => 0 < x) l -> map exp (map ln l) = l.
Proof. induction 1; simpl; [reflexivity|]. rewrite exp_ln by auto. now f_equal. Qed.

Lemma kl_log_terms (c : list (R * R)) (s t : R) : pospairs c -> 0 < s -> 0 < t ->
  fsumR (map (fun pq => let a := fsubR (fst pq) (Fin (ln s)) in let b := fsubR (snd pq) (Fin (ln t)) in
      if fisnan b then PInf else fmulR (fexp a) (fsubR a b)) (map logpair c))
  = Fin (rel_entropy (map (fun ab => (fst ab / s, snd ab / t)) c)).
Proof.
  intros P S1 T1. unfold rel_entropy. induction P as [|[a b] c [A B] P IH]; [reflexivity|].
  cbn [map fsumR]. rewrite IH. cbn [logpair fst snd fsubR foppR faddR fisnan fexp fmulR total fold_right] in *. cbv zeta. cbn [fisnan fsubR foppR faddR fexp fmulR].
  f_equal. f_equal.
  assert (EA : ln a + - ln s = ln (a / s)) by (unfold Rdiv; rewrite ln_mult, ln_Rinv; auto using Rinv_0_lt_compat).
  assert (EB : ln b + - ln t = ln (b / t)) by (unfold Rdiv; rewrite ln_mult, ln_Rinv; auto using Rinv_0_lt_compat).
  assert (PA : 0 < a / s) by (apply Rdiv_lt_0_compat; auto). assert (PB : 0 < b / t) by (apply Rdiv_lt_0_compat; auto).
  rewrite EA, EB, exp_ln by auto. f_equal. unfold Rdiv at 3. rewrite ln_mult, ln_Rinv; auto using Rinv_0_lt_compat.
Qed.

Lemma kl_log_value lp lq : lp <> [] -> Forall log_value lp -> Forall log_value lq ->
  common (map density_of lp) (map density_of lq) <> [] ->
  kl_value lp lq = Ok (Fin (kl_div (map density_of lp) (map density_of lq))).
Proof.
  intros NP P Q N. unfold kl_value, kl_from_log_probs, kl_div. destruct lp as [|x lp']; [congruence|]. set (lp := x :: lp') in *.
  rewrite inliers_log by auto. set (c := common (map density_of lp) (map density_of lq)) in *.
  assert (PC : pospairs c) by apply common_pos. clearbody c lp. clear x lp'.
  assert (E1 : map fst (map logpair c) = map Fin (map ln (map fst c))) by (rewrite !map_map; reflexivity).
  assert (E2 : map snd (map logpair c) = map Fin (map ln (map snd c))) by (rewrite !map_map; reflexivity).
  rewrite E1, E2, !reduce_total by (repeat apply map_nonnil; auto). rewrite !map_exp_ln by auto using pos_fst, pos_snd.
  cbn [bind]. rewrite kl_log_terms; auto.
  - apply total_pos; auto using pos_fst, map_nonnil.
  - apply total_pos; auto using pos_snd, map_nonnil.
Qed.

Lemma kl_log_disjoint lp lq : lp <> [] -> Forall log_value lp -> Forall log_value lq ->
  common (map density_of lp) (map density_of lq) = [] -> kl_value lp lq = Ok (Fin 0).
Proof.
  intros NP P Q N. unfold kl_value, kl_from_log_probs. destruct lp as [|x lp']; [congruence|].
  rewrite inliers_log by auto. rewrite N. reflexivity.
Qed.

(** JS *)
Lemma js_terms c : pospairs c ->
  let r := map2 (fun pq x => faddR (fmulR (fmulR (Fin (1 / 2)) (fst pq)) (fln (fdivR (fst pq) x)))
                       (fmulR (fmulR (Fin (1 / 2)) (snd pq)) (fln (fdivR (snd pq) x))))
     (map fpair c) (map Fin (map (fun ab => (fst ab + snd ab) / 2) c)) in
  filter (fun x => negb (fisnan x)) r = r /\
  fsumR r = Fin (rel_entropy (map (fun ab => (fst ab, (fst ab + snd ab) / 2)) c) / 2
   + rel_entropy (map (fun ab => (snd ab, (fst ab + snd ab) / 2)) c) / 2).
Proof.
  unfold rel_entropy. induction 1 as [|[a b] c [A B] P [IH1 IH2]]; [split; [reflexivity|simpl; f_equal; lra]|].
  cbn [map map2 fst snd fpair] in *. set (r := map2 _ (map fpair c) _) in *. clearbody r. rewrite !fdiv_fin by lra. rewrite !fln_fin by (apply Rdiv_lt_0_compat; lra).
  cbn [fmulR faddR filter fisnan negb fsumR]. rewrite IH1, IH2. split; [reflexivity|]. cbn [faddR total fold_right]. f_equal. fold (total). unfold total. lra.
Qed.

Lemma js_model p q ok : p <> [] -> common p q <> [] ->
  (ok = fun a b => fpos a && fpos b && negb (fisnan b) && negb (fisnan a)) ->
  js_value (map Fin p) (map Fin q) = Ok (Fin (js_div p q)).
Proof.
  intros NP N EOK. unfold js_value. destruct (map Fin p) eqn:E; [destruct p; [congruence|discriminate]|]. rewrite <- E.
  rewrite <- EOK. rewrite (inliers_common ok p q).
  2:{ intros a b. rewrite EOK. simpl. now rewrite !andb_true_r. }
  destruct (rescaled_pos _ (common_pos p q) N) as (P & T1 & T2).
  pose proof (common_pos p q) as PC. pose proof (total_pos _ (map_nonnil fst _ N) (pos_fst _ PC)) as S1.
  pose proof (total_pos _ (map_nonnil snd _ N) (pos_snd _ PC)) as S2.
  rewrite map_fst_fpair, map_snd_fpair, !fsum_fin.
  set (c := common p q) in *.
  assert (NR : map (fun pq => (fdivR (fst pq) (Fin (total (map fst c))), fdivR (snd pq) (Fin (total (map snd c))))) (map fpair c) = map fpair (rescaled c)).
  { unfold rescaled. rewrite !map_map. apply map_ext. intros [a b]. unfold fpair. cbn [fst snd]. now rewrite !fdiv_fin by lra. }
  rewrite NR. set (r := rescaled c) in *.
  assert (MM : map (fun pq => fmulR (Fin (1 / 2)) (faddR (fst pq) (snd pq))) (map fpair r) = map Fin (map (fun ab => (fst ab + snd ab) / 2) r)).
  { rewrite !map_map. apply map_ext. intros [a b]. unfold fpair. cbn [fst snd faddR fmulR]. f_equal. lra. }
  rewrite MM, fsum_fin, total_mid, T1, T2. replace ((1 + 1) / 2) with 1 by lra.
  assert (DD : map (fun x => fdivR x (Fin 1)) (map Fin (map (fun ab : R * R => (fst ab + snd ab) / 2) r)) = map Fin (map (fun ab => (fst ab + snd ab) / 2) r)).
  { rewrite !map_map. apply map_ext. intros ab. rewrite fdiv_fin by lra. f_equal. lra. }
  rewrite DD. destruct (js_terms r P) as [J1 J2]. cbv zeta in J1, J2. rewrite J1, J2. rewrite fdiv_fin by (pose proof ln2_pos; lra). reflexivity.
Qed.

Lemma js_model_disjoint p q : p <> [] -> common p q = [] -> js_value (map Fin p) (map Fin q) = Ok (Fin 0).
Proof.
  intros NP N. unfold js_value. destruct (map Fin p) eqn:E; [destruct p; [congruence|discriminate]|]. rewrite <- E.
  rewrite (inliers_common (fun a b => fpos a && fpos b && negb (fisnan b) && negb (fisnan a)) p q).
  2:{ intros a b. simpl. now rewrite !andb_true_r. }
  rewrite N. cbn [map map2 filter fsumR]. rewrite fdiv_fin by (pose proof ln2_pos; lra). do 2 f_equal. unfold Rdiv. ring.
Qed.
