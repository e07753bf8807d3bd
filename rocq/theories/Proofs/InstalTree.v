(** Requests in instalments: the simple flow of the tree sampler. The end of a call normalises the cached weights once more and rebuilds the model. *)
From Coq Require Import List Bool Arith Lia QArith Lqa Permutation.
Import ListNotations.
From Verif Require Import Prelude.Py Prelude.QBase Prelude.QFacts Model.Base Model.Tree Model.TreeSampler Spec.InstalmentSpec Spec.TreeSpec
  Proofs.TreeProofs Proofs.TreeMask Proofs.TreeSamplerInv Proofs.TreeSamplerLeaves Proofs.ScaleBase Proofs.InstalLoop.
Open Scope Q_scope.

(** Trees that agree in everything but the cached weights. *)
Definition wt (t t' : tree) : Prop :=
  t_nodes t' = t_nodes t /\ t_leaves t' = t_leaves t /\ t_centers t' = t_centers t /\ t_radii t' = t_radii t /\ t_samples t' = t_samples t /\ t_mask t' = t_mask t /\
  length (t_weights t') = length (t_weights t).
(** The cached weights of the leaves agree. *)
Definition agree (t t' : tree) : Prop := forall i, nth_error (t_mask t) i = Some true -> nth_error (t_weights t') i = nth_error (t_weights t) i.
Lemma wt_refl t : wt t t.
Proof. unfold wt. repeat split. Qed.
Lemma wt_sym t t' : wt t t' -> wt t' t.
Proof. unfold wt. intuition. Qed.
Lemma wt_trans a b c : wt a b -> wt b c -> wt a c.
Proof. unfold wt. intuition congruence. Qed.
Ltac wopen t t' H := destruct t as [nd lv ce ra sa w ma], t' as [nd' lv' ce' ra' sa' w' ma']; unfold wt in H; cbn [t_nodes t_leaves t_centers t_radii t_samples t_mask t_weights] in H;
  destruct H as (-> & -> & -> & -> & -> & -> & LW).
Lemma wt_expand_at t t' p n li : wt t t' -> wt (expand_at t p n li) (expand_at t' p n li) /\ expand_children t' n li = expand_children t n li.
Proof.
  intros H. wopen t t' H. unfold expand_at, expand_children, wt; simpl. split; [|reflexivity]. repeat split. rewrite !app_length. lia.
Qed.
Lemma wt_expand e m p t t' : wt t t' -> wt (fst (expand e m p t)) (fst (expand e m p t')) /\ snd (expand e m p t') = snd (expand e m p t).
Proof.
  intros H. unfold expand. pose proof H as H0. destruct H as (-> & _). destruct (nth_error (t_nodes t) p) as [n|]; [|simpl; auto]. destruct (n_leaf n) as [li|]; [|simpl; auto].
  destruct (may_expand e m (n_hist n)) as [[]|]; simpl; auto. destruct (wt_expand_at t t' p n li H0) as (A & B). rewrite B. auto.
Qed.
Lemma wt_expand_nodes P ps : forall t t' m acc, wt t t' -> wt (fst (expand_nodes P t ps m acc)) (fst (expand_nodes P t' ps m acc)) /\ snd (expand_nodes P t' ps m acc) = snd (expand_nodes P t ps m acc).
Proof.
  induction ps as [|p ps IH]; intros t t' m acc H; cbn [expand_nodes]; [simpl; auto|]. destruct (wt_expand (p_ess P) (p_nmin P) p t t' H) as (A & B).
  destruct (expand (p_ess P) (p_nmin P) p t) as [u r], (expand (p_ess P) (p_nmin P) p t') as [u' r']. cbn [fst snd] in A, B. subst r'.
  destruct r as [[new|]|e]; [|apply IH; auto|simpl; auto]. destruct (m <? length (acc ++ new))%nat; [simpl; auto|]. apply IH; auto.
Qed.
Lemma wt_take t t' ref x p q : wt t t' -> wt (take_sample t ref x p q) (take_sample t' ref x p q).
Proof.
  intros H. wopen t t' H. unfold take_sample; simpl. destruct (nth_error nd ref) as [n|]; [|unfold wt; simpl; repeat split; auto]. unfold wt; simpl. rewrite !upd_length. repeat split; auto.
Qed.
Lemma wt_lambda t t' r : wt t t' -> lambda_hat t' r = lambda_hat t r.
Proof. intros H. wopen t t' H. reflexivity. Qed.
Lemma put_masked_length {A} mask : forall (l vals : list A), length (put_masked mask l vals) = length l.
Proof. induction mask as [|[] mask IH]; intros [|a l] vals; simpl; auto; try (destruct vals; simpl; now rewrite IH); now rewrite IH. Qed.
Lemma wt_normalize t t' : wt t t' -> wt (self_normalize t) (self_normalize t').
Proof.
  intros H. pose proof H as (H1 & H2 & H3 & H4 & H5 & H6 & H7). unfold self_normalize. destruct (fgtQ _ 0), (fgtQ _ 0); unfold wt; cbn [put_cache t_nodes t_leaves t_centers t_radii t_samples t_mask t_weights]; rewrite ?put_masked_length; repeat split; auto.
Qed.
Lemma wt_normal t : wt t (self_normalize t).
Proof. unfold self_normalize. destruct (fgtQ _ 0); unfold wt; simpl; rewrite ?put_masked_length; repeat split; auto. Qed.
(** Masked parts of equal length that agree where the mask is set. *)
Lemma masked_agree {A} mask : forall (l l' : list A), length l' = length l -> (forall i, nth_error mask i = Some true -> nth_error l' i = nth_error l i) -> masked mask l' = masked mask l.
Proof.
  induction mask as [|b mask IH]; intros [|a l] [|a' l'] Ln H; simpl in *; try discriminate; auto. injection Ln as Ln. assert (X : masked mask l' = masked mask l) by (apply IH; auto; intros i Hi; apply (H (S i)); exact Hi).
  destruct b; auto. specialize (H 0%nat eq_refl). simpl in H. injection H as ->. now rewrite X.
Qed.
Lemma agree_masked t t' : wt t t' -> agree t t' -> masked (t_mask t') (t_weights t') = masked (t_mask t) (t_weights t).
Proof. intros (_ & _ & _ & _ & _ & M & L) H. rewrite M. apply masked_agree; auto. Qed.
Lemma agree_normalize t t' : wt t t' -> length (t_weights t) = length (t_mask t) -> agree t t' -> agree (self_normalize t) (self_normalize t').
Proof.
  intros W Ln H. pose proof (agree_masked t t' W H) as M. unfold self_normalize. rewrite M. destruct (fgtQ _ 0); [|exact H]. intros i Hi. cbn [put_cache t_mask t_weights] in *.
  destruct W as (_ & _ & _ & _ & _ & E & L). rewrite E. assert (C : length (map (fun x => fdivflQ x (fsumQ (masked (t_mask t) (t_weights t)))) (masked (t_mask t) (t_weights t))) = count_true (t_mask t)) by (rewrite map_length; now apply masked_length).
  rewrite !put_rank; auto. congruence.
Qed.
Lemma nth_of {A} (l : list A) i d : nth i l d = match nth_error l i with Some a => a | None => d end.
Proof. revert i. induction l as [|a l IH]; intros [|i]; simpl; auto. Qed.
Lemma agree_refresh l : forall t t', (forall ref n, In ref l -> nth_error (t_nodes t) ref = Some n -> nth_error (t_mask t) (n_idx n) = Some true) -> wt t t' -> agree t t' ->
  wt (fold_left refresh_leaf l t) (fold_left refresh_leaf l t') /\ agree (fold_left refresh_leaf l t) (fold_left refresh_leaf l t').
Proof.
  induction l as [|ref l IH]; intros t t' H W A; [simpl; auto|]. simpl. unfold refresh_leaf at 2 4 6 8. pose proof W as (W1 & W2 & W3 & W4 & W5 & W6 & W7). rewrite W1.
  destruct (nth_error (t_nodes t) ref) as [n|] eqn:En; [|apply IH; auto; intros; eapply H; [right|]; eauto].
  assert (Ew : nth (n_idx n) (t_weights t') NaN = nth (n_idx n) (t_weights t) NaN) by (rewrite !nth_of, (A (n_idx n)); auto; eapply H; [left; reflexivity|exact En]). rewrite Ew, W5. apply IH.
  - intros r2 n2 Hr E2. cbn [put_node t_nodes t_mask] in *. destruct (Nat.eq_dec r2 ref) as [->|D].
    + rewrite upd_nth_error_eq in E2 by (apply nth_error_Some; congruence). injection E2 as <-. cbn [set_payload n_idx]. eapply H; [left; reflexivity|exact En].
    + rewrite upd_nth_error_neq in E2 by auto. eapply H; [right; exact Hr|exact E2].
  - unfold wt; cbn [put_node t_nodes t_leaves t_centers t_radii t_samples t_mask t_weights]. rewrite W1. repeat split; auto.
  - intros i Hi. cbn [put_node t_mask t_weights] in *. now apply A.
Qed.
Lemma resample_wt P pi r d whole k t t' : tree_inv d whole k t -> wt t t' -> wt (resample_tree P pi r t) (resample_tree P pi r t') /\ agree (resample_tree P pi r t) (resample_tree P pi r t').
Proof.
  intros I W. pose proof W as (W1 & W2 & W3 & W4 & W5 & W6 & W7). unfold resample_tree. rewrite W3, W4, W5, W6.
  set (rows := resample_rows P r _). set (xs := map _ rows). set (ws := map _ rows). assert (Lm : length (t_weights t) = length (t_mask t)) by (rewrite (ti_weights _ _ _ _ I), (mask_length _ _ _ _ I); reflexivity).
  assert (Lc : length ws = count_true (t_mask t)).
  { unfold ws, rows, resample_rows. rewrite !map_length, combine_length, seq_length, Nat.min_id, combine_length, !masked_length, Nat.min_id; auto; rewrite (mask_length _ _ _ _ I), ?(ti_centers _ _ _ _ I), ?(ti_radii _ _ _ _ I), map_length; reflexivity. }
  set (u := put_cache t (put_masked (t_mask t) (t_samples t) xs) (put_masked (t_mask t) (t_weights t) ws)).
  set (u' := put_cache t' (put_masked (t_mask t) (t_samples t) xs) (put_masked (t_mask t) (t_weights t') ws)).
  assert (U : wt u u') by (unfold wt, u, u'; cbn [put_cache t_nodes t_leaves t_centers t_radii t_samples t_mask t_weights]; rewrite !put_masked_length; repeat split; auto).
  assert (A : agree u u'). { intros i Hi. unfold u, u' in *. cbn [put_cache t_mask t_weights] in *. rewrite !put_rank; auto; congruence. }
  assert (Lu : length (t_weights u) = length (t_mask u)) by (unfold u; cbn [put_cache t_mask t_weights]; rewrite put_masked_length; exact Lm).
  assert (El : t_leaves (self_normalize u') = t_leaves (self_normalize u)) by apply (wt_normalize _ _ U). rewrite El. apply agree_refresh; [|now apply wt_normalize|now apply agree_normalize].
  intros ref n Hr En. assert (X : t_nodes (self_normalize u) = t_nodes t /\ t_leaves (self_normalize u) = t_leaves t /\ t_mask (self_normalize u) = t_mask t) by (pose proof (wt_normal u) as (-> & -> & _ & _ & _ & -> & _); repeat split).
  destruct X as (X1 & X2 & X3). rewrite X1 in En. rewrite X2 in Hr. rewrite X3. destruct (ti_node _ _ _ _ I ref n En) as (-> & _). rewrite (mask_leaf _ _ _ _ _ _ I En). f_equal. now apply (leaf_in _ _ _ _ _ _ I En).
Qed.

Section Simple.
Variables (P : tp_params) (pi : vec -> Q).
Hypothesis box : proper (p_lo P) (p_hi P).
Hypothesis flow : p_flow P = Simple.
Definition tcounts (s : tp) : nat * nat * nat * nat * nat * nat := (s_q_samples s, s_q_evals s, s_pi_evals s, g_draws s, g_qs s, g_pis s).
(** The state up to the cached weights and the model, and up to the model only where leaves are resampled. *)
Definition loose (s s' : tp) : Prop := wt (s_tree s) (s_tree s') /\ tcounts s' = tcounts s /\ settled1 P s /\ settled1 P s'.
Definition tight (s s' : tp) : Prop := loose s s' /\ (p_leaf_resampling P = true -> agree (s_tree s) (s_tree s')).
Lemma loose_nodes r new : forall s s', wt (s_tree s) (s_tree s') -> tcounts s' = tcounts s ->
  let f := fold_left (fun s ref => node_turn P pi (rd_draw r ref) ref s) new in wt (s_tree (f s)) (s_tree (f s')) /\ tcounts (f s') = tcounts (f s).
Proof.
  induction new as [|ref new IH]; intros s s' W C; [simpl; auto|]. cbn [fold_left]. apply IH.
  - unfold node_turn. pose proof W as (E & _). rewrite E. destruct (nth_error (t_nodes (s_tree s)) ref); auto. cbn [s_tree]. now apply wt_take.
  - unfold node_turn. pose proof W as (E & _). rewrite E. destruct (nth_error (t_nodes (s_tree s)) ref); auto. unfold tcounts in *. cbn [s_q_samples s_q_evals s_pi_evals g_draws g_qs g_pis].
    assert (X : s_q_samples s' = s_q_samples s /\ s_q_evals s' = s_q_evals s /\ s_pi_evals s' = s_pi_evals s /\ g_draws s' = g_draws s /\ g_qs s' = g_qs s /\ g_pis s' = g_pis s) by (repeat split; congruence).
    destruct X as (-> & -> & -> & -> & -> & ->). reflexivity.
Qed.
Definition tp_same (r r' : tp_round) : Prop := rd_key r' = rd_key r /\ rd_draw r' = rd_draw r /\ rd_re r' = rd_re r.
Lemma turn_same r r' s : tp_same r r' -> simple_turn P pi r' s = simple_turn P pi r s.
Proof. destruct r, r'. unfold tp_same; simpl. intros (-> & -> & ->). reflexivity. Qed.
Lemma turn_tight r r' s s' : tp_same r r' -> loose s s' -> outs tight (simple_turn P pi r s) (simple_turn P pi r' s').
Proof.
  intros Sr (W & C & S1 & S2). rewrite (turn_same r r' s' Sr). clear r' Sr. destruct (turn1 P pi 0 r s box flow S1) as (s1 & E1 & T1). destruct (turn1 P pi 0 r s' box flow S2) as (s1' & E1' & T1').
  unfold turn in E1, E1'. rewrite flow in E1, E1'. rewrite E1, E1'. simpl. unfold simple_turn in E1, E1'. rewrite (wt_lambda _ _ r W) in E1'.
  assert (ND : NoDup (lambda_hat (s_tree s) r)) by (eapply Permutation_NoDup; [apply Permutation_sym, lambda_perm|destruct S1 as ((k & I) & _); eapply leaves_nodup; eauto]).
  pose proof (wt_expand_nodes P (lambda_hat (s_tree s) r) (s_tree s) (s_tree s') (p_parallel P) [] W) as (H1 & H2).
  destruct (expand_nodes P (s_tree s) (lambda_hat (s_tree s) r) (p_parallel P) []) as [t rr] eqn:X, (expand_nodes P (s_tree s') (lambda_hat (s_tree s) r) (p_parallel P) []) as [t' rr'] eqn:X'.
  cbn [fst snd] in H1, H2. subst rr'. destruct rr as [new|e]; [|discriminate].
  assert (W0 : wt (s_tree (with_tree s t)) (s_tree (with_tree s' t'))) by exact H1. assert (C0 : tcounts (with_tree s' t') = tcounts (with_tree s t)) by exact C.
  destruct (loose_nodes r new _ _ W0 C0) as (N1 & N2). set (s2 := fold_left (fun s ref => node_turn P pi (rd_draw r ref) ref s) new (with_tree s t)) in *.
  set (s2' := fold_left (fun s ref => node_turn P pi (rd_draw r ref) ref s) new (with_tree s' t')) in *.
  assert (Es : s1 = maybe_resample P pi r s2) by congruence. assert (Es' : s1' = maybe_resample P pi r s2') by congruence. clear E1 E1'. unfold maybe_resample in Es, Es'. unfold tight, loose.
  destruct (p_leaf_resampling P) eqn:Lr; [|subst s1 s1'; split; [split; [exact N1|split; [exact N2|split; [exact T1|exact T1']]]|intros H; discriminate]].
  assert (T2 : exists j, tree_inv (p_dims P) (whole_cell P) j (s_tree s2)).
  { pose proof S1 as (Ti & G). destruct (expand_nodes_good P pi (whole_cell P) (Q1 P) anyU (proper_radius _ _ box) (Q1_hist P) ltac:(intros n0 u0 _ _ H; simpl; apply Q1_take; auto) (lambda_hat (s_tree s) r) (s_tree s) (p_parallel P) [] Ti G ND (NoDup_nil _)) as (t0 & new0 & E0 & T0 & G0 & N0 & L0).
    - intros p Hp. split; [|intros []]. eapply Permutation_in; [apply lambda_perm|exact Hp].
    - intros a [].
    - rewrite X in E0. inversion E0; subst t0 new0.
      apply (nodes_good P pi (whole_cell P) (Q1 P) anyU (proper_radius _ _ box) ltac:(intros n0 u0 _ _ H; simpl; apply Q1_take; auto) r new (with_tree s t)); auto. intros; exact Logic.I. }
  destruct T2 as (j & T2). destruct (resample_wt P pi r _ _ _ _ _ T2 N1) as (R1 & R2). split; [|intros _; rewrite Es, Es'; exact R2]. split; [rewrite Es, Es'; exact R1|]. split; [|auto].
  rewrite Es, Es'. unfold tcounts, resample in *. cbn [s_q_samples s_q_evals s_pi_evals g_draws g_qs g_pis]. pose proof N1 as (_ & -> & _).
  assert (Z : s_q_samples s2' = s_q_samples s2 /\ s_q_evals s2' = s_q_evals s2 /\ s_pi_evals s2' = s_pi_evals s2 /\ g_draws s2' = g_draws s2 /\ g_qs s2' = g_qs s2 /\ g_pis s2' = g_pis s2) by (repeat split; congruence).
  destruct Z as (-> & -> & -> & -> & -> & ->). reflexivity.
Qed.

(** The number of samples reported. *)
Definition held (s : tp) : nat := match get_samples P (s_tree s) with Ok l => length l | Raise _ => 0%nat end.
Lemma masked_count {A B} mask : forall (l : list A) (l' : list B), length l' = length l -> length (masked mask l') = length (masked mask l).
Proof. induction mask as [|b mask IH]; intros [|x u] [|y v] H; simpl in *; try discriminate; auto. destruct b; simpl; rewrite (IH u v); auto. Qed.
Lemma histories_same t t' refs : t_nodes t' = t_nodes t -> leaf_histories t' refs = leaf_histories t refs.
Proof. intros E. induction refs as [|i refs IH]; simpl; auto. now rewrite E, IH. Qed.
Lemma held_wt s s' : wt (s_tree s) (s_tree s') -> held s' = held s.
Proof.
  intros (W1 & W2 & W3 & W4 & W5 & W6 & W7). unfold held, get_samples. destruct (p_ess P) as [e|]; auto. destruct (Qltb 1 e).
  - rewrite !combine_length, W5, W6. f_equal. now apply masked_count.
  - now rewrite (histories_same _ _ _ W1), W2.
Qed.
Lemma get_ok e s : p_ess P = Some e -> settled1 P s -> exists l, get_samples P (s_tree s) = Ok l.
Proof. intros Ee S. apply (get_samples_ok P (fun _ => 0) (whole_cell P) (Q1 P) (fun _ => False) (Q1_hist P)); auto; [intros n u _ []|congruence]. Qed.
Lemma tp_loop_is e n T tape : p_ess P = Some e -> forall el s, settled1 P s ->
  tp_loop P pi n T tape el s = match loop tp tp_round held (simple_turn P pi) rd_clock (fun _ => false) n T tape el s with Done a => Done (update_model a) | o => o end.
Proof.
  intros Ee. induction tape as [|r t IH]; intros el s S; cbn [tp_loop loop]; unfold held at 1; destruct (get_ok e s Ee S) as (l & G); rewrite ?G; destruct (_ && _); auto.
  unfold turn. rewrite flow. destruct (turn1 P pi 0 r s box flow S) as (s1 & E1 & S1). unfold turn in E1. rewrite flow in E1. rewrite E1. now apply IH.
Qed.
Lemma loop_settles e n T tape : p_ess P = Some e -> forall el s a, settled1 P s -> loop tp tp_round held (simple_turn P pi) rd_clock (fun _ => false) n T tape el s = Done a -> settled1 P a.
Proof.
  intros Ee. induction tape as [|r t IH]; intros el s a S H; cbn [loop] in H; destruct (_ && _); try discriminate; try (injection H as <-; exact S).
  destruct (turn1 P pi 0 r s box flow S) as (s1 & E1 & S1). unfold turn in E1. rewrite flow in E1. rewrite E1 in H. eapply IH; eauto.
Qed.
Lemma update1 s : settled1 P s -> settled1 P (update_model s).
Proof. intros S. apply (update_settled P (whole_cell P) (Q1 P) anyW); auto; try (intros; exact I). Qed.
(** What a call returns from states that agree. *)
Lemma tight_end s s' : tight s s' -> p_leaf_resampling P = true \/ (exists e, p_ess P = Some e /\ e <= 1) ->
  get_samples P (s_tree (update_model s')) = get_samples P (s_tree (update_model s)) /\ t_nodes (s_tree (update_model s')) = t_nodes (s_tree (update_model s)) /\ t_leaves (s_tree (update_model s')) = t_leaves (s_tree (update_model s)) /\
  tcounts (update_model s') = tcounts (update_model s) /\ (p_leaf_resampling P = true -> s_model (update_model s') = s_model (update_model s)).
Proof.
  intros ((W & C & S1 & S2) & A) M. pose proof (wt_normalize _ _ W) as V. cbn [update_model s_tree]. pose proof V as (V1 & V2 & V3 & V4 & V5 & V6 & V7). split.
  - unfold get_samples. destruct M as [Lr|(e & -> & Le)].
    + destruct (p_ess P) as [e|]; auto. destruct (Qltb 1 e); [|now rewrite (histories_same _ _ _ V1), V2]. rewrite V5. rewrite (agree_masked _ _ V); [now rewrite V6|].
      apply agree_normalize; auto. destruct S1 as ((k & I) & _). rewrite (ti_weights _ _ _ _ I), (mask_length _ _ _ _ I). reflexivity.
    + replace (Qltb 1 e) with false by (symmetry; unfold Qltb; apply negb_false_iff, Qle_bool_iff; exact Le). now rewrite (histories_same _ _ _ V1), V2.
  - split; [exact V1|]. split; [exact V2|]. split; [exact C|]. intros Lr. unfold update_model. cbn [s_model]. rewrite (agree_masked _ _ W (A Lr)). destruct W as (_ & _ & -> & -> & _ & -> & _). reflexivity.
Qed.
Lemma tight_refl s : settled1 P s -> tight s s.
Proof. intros S. split; [split; [apply wt_refl|auto]|]. intros _ i _. reflexivity. Qed.
Lemma tight_trans a b c : tight a b -> tight b c -> tight a c.
Proof.
  intros ((W & C & S1 & S2) & A) ((W' & C' & S1' & S2') & A'). split; [split; [eapply wt_trans; eauto|split; [congruence|auto]]|]. intros Lr i Hi. rewrite (A' Lr), (A Lr); auto. destruct W as (_ & _ & _ & _ & _ & -> & _). exact Hi.
Qed.
Lemma tight_turn r r' s s' : tp_same r r' -> tight s s' -> outs tight (simple_turn P pi r s) (simple_turn P pi r' s').
Proof. intros Sr (L & _). now apply turn_tight. Qed.
Lemma held_tight s s' : tight s s' -> held s' = held s.
Proof. intros ((W & _) & _). now apply held_wt. Qed.
Lemma loose_update a : settled1 P a -> loose (update_model a) a.
Proof. intros S. split; [apply wt_sym, wt_normal|]. split; [reflexivity|]. split; [now apply update1|exact S]. Qed.
Lemma loose_tight a b c : loose a b -> tight b c -> loose a c.
Proof. intros (W & C & S1 & S2) ((W' & C' & S1' & S2') & _). split; [eapply wt_trans; eauto|]. split; [congruence|auto]. Qed.
Lemma tree_twice n1 T1 u1 tape1 n2 T2 u2 tape2 s s1 s2 : s_tree s = tree_new (p_lo P) (p_hi P) \/ settled1 P s -> p_leaf_resampling P = true \/ (exists e, p_ess P = Some e /\ e <= 1) -> (n1 <= n2)%nat ->
  tp_call P pi n1 T1 u1 tape1 s = Done s1 -> (n1 <= held s1)%nat -> (held s1 < n2)%nat -> tp_call P pi n2 T2 u2 tape2 s1 = Done s2 -> (n2 <= held s2)%nat ->
  exists used1 used2, initial used1 tape1 /\ initial used2 tape2 /\ forall T again, 0 < T -> in_time tp_same rd_clock T (used1 ++ used2) again ->
    exists s2', tp_call P pi n2 T u1 again s = Done s2' /\ get_samples P (s_tree s2') = get_samples P (s_tree s2) /\ t_nodes (s_tree s2') = t_nodes (s_tree s2) /\ t_leaves (s_tree s2') = t_leaves (s_tree s2) /\
      tcounts s2' = tcounts s2 /\ (p_leaf_resampling P = true -> s_model s2' = s_model s2).
Proof.
  intros St Md L H1 G1 G2 H2 G3. unfold tp_call in *. pose proof (root1 P pi u1 s box St) as R1. set (s0 := root_turn P pi u1 s) in *.
  destruct (p_ess P) as [e|] eqn:Ee; [|exfalso; unfold get_samples in H1; destruct tape1; simpl in H1; unfold get_samples in H1; rewrite Ee in H1; discriminate].
  rewrite (tp_loop_is e n1 T1 tape1 Ee 0 s0 R1) in H1. destruct (loop _ _ _ _ _ _ n1 T1 tape1 0 s0) as [a1|a1|x a1] eqn:L1; try discriminate. injection H1 as <-.
  pose proof (loop_settles e n1 T1 tape1 Ee 0 s0 a1 R1 L1) as Sa. pose proof (update1 a1 Sa) as Su. rewrite (root_noop P pi (whole_cell P) (Q1 P) (Q1_hist P) u2 _ Su) in H2.
  assert (Ha : held a1 = held (update_model a1)) by (symmetry; apply held_wt; apply wt_normal).
  rewrite (tp_loop_is e n2 T2 tape2 Ee 0 _ Su) in H2. destruct (loop _ _ _ _ _ _ n2 T2 tape2 0 _) as [b|b|x b] eqn:L2; try discriminate. injection H2 as <-.
  assert (Hb : held b = held (update_model b)) by (symmetry; apply held_wt; apply wt_normal). rewrite <- Hb in G3.
  destruct tape2 as [|r tape2]; [cbn [loop] in L2; destruct (_ && _); [discriminate|]; injection L2 as <-; lia|]. cbn [loop] in L2.
  destruct ((held (update_model a1) <? n2)%nat && Qltb 0 T2) eqn:B; [|injection L2 as <-; lia].
  destruct (turn1 P pi 0 r (update_model a1) box flow Su) as (d & Ed & Sd). unfold turn in Ed. rewrite flow in Ed. rewrite Ed in L2.
  assert (Tz : forall a b, tight a b -> held b = held a) by (intros; now apply held_tight).
  destruct (loop_used tp tp_round held (simple_turn P pi) rd_clock (fun _ => false) tight tp_same Tz (fun _ _ _ => eq_refl) tight_turn n1 T1 tape1 0 s0 a1 L1 ltac:(lia)) as (us1 & I1 & K1).
  destruct (loop_used tp tp_round held (simple_turn P pi) rd_clock (fun _ => false) tight tp_same Tz (fun _ _ _ => eq_refl) tight_turn n2 T2 tape2 (rd_clock r) d b L2 G3) as (us2 & (rest2 & I2) & K2).
  exists us1, (r :: us2). split; [exact I1|]. split; [exists rest2; rewrite I2; reflexivity|]. intros T again Tp (F & C).
  apply Forall2_app_inv_l in F. destruct F as (g1 & g2 & F1 & F2 & ->). apply Forall_app in C. destruct C as (C1 & C2). inversion F2 as [|? r' ? g3 Sr F3]; subst. inversion C2 as [|? ? Cr C3]; subst.
  rewrite (tp_loop_is e n2 T _ Ee 0 s0 R1). destruct (K1 n2 T g1 (r' :: g3) 0 s0 L (conj F1 C1) Tp (tight_refl s0 R1)) as (el & a1' & El & Ta & ->).
  pose proof (turn_tight r r' _ _ Sr (loose_tight _ _ _ (loose_update a1 Sa) Ta)) as O. rewrite Ed in O. cbn [loop]. rewrite (held_tight _ _ Ta), Ha.
  replace ((held (update_model a1) <? n2)%nat && Qltb el T) with true by (symmetry; apply andb_true_iff; split; [now apply Nat.ltb_lt|now apply Qltb_true]).
  destruct (simple_turn P pi r' a1') as [d'|d'|x d']; simpl in O; try contradiction.
  destruct (K2 n2 T g3 [] (rd_clock r') d' (le_n _) (conj F3 C3) Cr O) as (el2 & b' & _ & Tb & K). rewrite app_nil_r in K. rewrite K.
  rewrite loop_enough by (rewrite (held_tight _ _ Tb); exact G3). exists (update_model b'). split; [reflexivity|]. rewrite <- Ee in Md. now apply tight_end.
Qed.
End Simple.
