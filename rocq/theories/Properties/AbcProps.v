(** C99: targets defined through a generative model (CABCDistribution.py, CGenericNoisyFunction.py,
    GenericNuisanceGenModel.py). *)
From Coq Require Import List Bool Arith QArith Reals Lia Lra Qreals Qabs.
Import ListNotations.
From Verif Require Import Prelude.Py Prelude.QBase Prelude.RBase Model.Shape Model.NoisyFunction Model.AbcWorld Spec.AbcSpec.

Local Arguments check_shape : simpl never.

Lemma put_nth {X} i (x : X) l k :
  nth_error (put i x l) k = if (k =? i)%nat then (match nth_error l i with None => None | Some _ => Some x end) else nth_error l k.
Proof.
  unfold put. revert l k. induction i as [|i IH]; intros [|a l] k; simpl; destruct k; simpl; auto; try now destruct (k =? i)%nat.
Qed.

(** The same object up to its conditioning, with parameters p. *)
Definition alike (p : option (list Q)) (g g' : gen) : Prop :=
  match g, g' with
  | Noisy a, Noisy b => nz_dims a = nz_dims b /\ nz_f a = nz_f b /\ nz_z b = p
  | Nuisance a, Nuisance b => nu_dims a = nu_dims b /\ nu_f a = nu_f b
  | _, _ => False
  end.
Definition own_params (g : gen) : option (list Q) := match g with Noisy o => nz_z o | Nuisance _ => None end.

Lemma alike_refl g : alike (own_params g) g g.
Proof. destruct g; simpl; auto. Qed.
Lemma alike_condition p g g' g'' z : alike p g g' -> gen_condition g' z = Ok g'' -> alike p g g''.
Proof.
  intros A H. destruct g', g; simpl in *; try contradiction.
  - inversion H; subst. simpl. tauto.
  - destruct (check_shape _ _); [|discriminate]. simpl in H. inversion H; subst. simpl. tauto.
Qed.

(** Tables of models that agree up to conditioning. *)
Definition tables (P : nat -> option (list Q) -> option (list Q)) (l l' : list gen) : Prop :=
  forall j, match nth_error l j, nth_error l' j with
            | Some g, Some g' => alike (P j (own_params g)) g g'
            | None, None => True
            | _, _ => False
            end.
Lemma tables_put P l l' j g' z g'' : tables P l l' -> nth_error l' j = Some g' -> gen_condition g' z = Ok g'' -> tables P l (put j g'' l').
Proof.
  intros T N C k. specialize (T k). rewrite put_nth. destruct (Nat.eqb_spec k j) as [->|]; [|exact T].
  rewrite N in *. destruct (nth_error l j); [|contradiction]. eapply alike_condition; eauto.
Qed.

(** What a sequence of calls can change. *)
Lemma step_gens P l w c : tables P l (w_gens w) ->
  tables (fun j p => parameters j [c] (P j p)) l (w_gens (fst (do_call w c))).
Proof.
  intros T. destruct c as [i o|i lg z n|i z n1 n2|j z|j p|j n]; simpl.
  - destruct (nth_error _ i); exact T.
  - unfold abc_query. destruct (nth_error (w_targets w) i) as [t|]; [|exact T]. destruct (t_obs t); [|exact T].
    destruct (nth_error (w_gens w) (t_gen t)) as [g|] eqn:N; [|exact T].
    destruct (gen_condition g z) as [g'|] eqn:C; [|exact T]. simpl. eapply tables_put; eauto.
  - unfold abc_sample. destruct (nth_error (w_targets w) i) as [t|]; [|exact T].
    destruct (nth_error (w_gens w) (t_gen t)) as [g|] eqn:N; [|exact T].
    destruct (gen_condition g z) as [g'|] eqn:C; [|exact T]. pose proof (tables_put _ _ _ _ _ _ _ T N C) as T1.
    destruct (gen_sample_n g' n1) as [x|]; [|exact T1]. simpl.
    destruct (nth_error (put (t_gen t) g' (w_gens w)) (t_sensor t)) as [s|] eqn:N2; [|exact T1].
    destruct (gen_condition s _) as [s'|] eqn:C2; [|exact T1]. simpl. eapply tables_put; eauto.
  - unfold on_gen. destruct (nth_error (w_gens w) j) as [g|] eqn:N; [|exact T].
    destruct (gen_condition g z) eqn:C; [|exact T]. simpl. eapply tables_put; eauto.
  - unfold on_gen. intros k. specialize (T k). destruct (nth_error (w_gens w) j) as [g|] eqn:N.
    + destruct g as [o|o]; simpl.
      * rewrite put_nth. rewrite (Nat.eqb_sym j k). destruct (Nat.eqb_spec k j) as [->|]; [|exact T]. rewrite N in *.
        destruct (nth_error l j) as [[a|a]|]; simpl in *; try contradiction. tauto.
      * rewrite (Nat.eqb_sym j k). destruct (Nat.eqb_spec k j) as [->|]; [|exact T]. rewrite N in *.
        destruct (nth_error l j) as [[a|a]|]; simpl in *; tauto.
    + simpl. rewrite (Nat.eqb_sym j k). destruct (Nat.eqb_spec k j) as [->|]; [|exact T]. rewrite N in *.
      destruct (nth_error l j); simpl in *; tauto.
  - exact T.
Qed.
Lemma tables_ext P P' l l' : (forall j p, P j p = P' j p) -> tables P l l' -> tables P' l l'.
Proof. intros E T j. specialize (T j). destruct (nth_error l j), (nth_error l' j); auto. now rewrite <- E. Qed.
Lemma parameters_cons j c cs p : parameters j (c :: cs) p = parameters j cs (parameters j [c] p).
Proof. destruct c; reflexivity. Qed.
Lemma observation_cons j c cs p : observation j (c :: cs) p = observation j cs (observation j [c] p).
Proof. destruct c; reflexivity. Qed.
Lemma after_gens l cs : forall P w, tables P l (w_gens w) ->
  tables (fun j p => parameters j cs (P j p)) l (w_gens (after w cs)).
Proof.
  induction cs as [|c cs IH]; intros P w T; [exact T|]. simpl after.
  apply (tables_ext (fun j p => parameters j cs (parameters j [c] (P j p)))); [intros; symmetry; apply parameters_cons|].
  apply (IH (fun j p => parameters j [c] (P j p))). now apply step_gens.
Qed.
Lemma gens_after w cs : tables (fun j p => parameters j cs p) (w_gens w) (w_gens (after w cs)).
Proof.
  apply (after_gens (w_gens w) cs (fun _ p => p)). intros j. destruct (nth_error (w_gens w) j); auto. apply alike_refl.
Qed.

Definition with_obs (t : target) (o : option (list Q)) : target :=
  mkTarget (t_gen t) (t_sensor t) (t_lik t) (t_loglik t) (t_prior t) o.
Lemma with_obs_same t : with_obs t (t_obs t) = t. Proof. now destruct t. Qed.
Lemma targets_kept w c : (forall i o, c <> Observe i o) -> w_targets (fst (do_call w c)) = w_targets w.
Proof.
  intros H. destruct c as [i o|i lg z n|i z n1 n2|j z|j p|j n]; simpl; auto.
  - now destruct (H i o).
  - unfold abc_query. destruct (nth_error (w_targets w) i) as [t|]; auto. destruct (t_obs t); auto.
    destruct (nth_error (w_gens w) (t_gen t)) as [g|]; auto. destruct (gen_condition g z); auto.
  - unfold abc_sample. destruct (nth_error (w_targets w) i) as [t|]; auto.
    destruct (nth_error (w_gens w) (t_gen t)) as [g|]; auto. destruct (gen_condition g z) as [g'|]; auto.
    destruct (gen_sample_n g' n1) as [x|]; auto. simpl. destruct (nth_error _ (t_sensor t)) as [s|]; auto.
    destruct (gen_condition s _); auto.
  - unfold on_gen. destruct (nth_error _ j) as [g|]; auto. destruct (gen_condition g z); auto.
  - unfold on_gen. destruct (nth_error _ j) as [g|]; auto. destruct (gen_params g p); auto.
Qed.
Lemma targets_after cs : forall w i, nth_error (w_targets (after w cs)) i =
  match nth_error (w_targets w) i with None => None | Some t => Some (with_obs t (observation i cs (t_obs t))) end.
Proof.
  induction cs as [|c cs IH]; intros w i; simpl after.
  - simpl. destruct (nth_error (w_targets w) i); auto. now rewrite with_obs_same.
  - rewrite IH. destruct c as [k o|k lg z n|k z n1 n2|j z|j p|j n];
      try (rewrite targets_kept by discriminate; reflexivity).
    simpl. destruct (nth_error (w_targets w) k) as [t|] eqn:N.
    + simpl. rewrite put_nth, N. rewrite (Nat.eqb_sym k i). destruct (Nat.eqb_spec i k) as [->|]; [now rewrite N|]. reflexivity.
    + destruct (Nat.eqb_spec k i) as [->|]; [cbn [fst]; now rewrite N|]. reflexivity.
Qed.

(** Sampling right after conditioning at z: the earlier conditioning does not matter. *)
Lemma alike_sample p g g1 g2 z noise : alike p g g1 -> alike p g g2 ->
  match gen_condition g1 z, gen_condition g2 z with
  | Ok h1, Ok h2 => gen_sample h1 noise = gen_sample h2 noise
  | Raise e1, Raise e2 => e1 = e2
  | _, _ => False
  end.
Proof.
  intros A B. destruct g as [a|a], g1 as [b|b], g2 as [c|c]; simpl in *; try contradiction.
  - destruct A as (A1 & A2 & A3), B as (B1 & B2 & B3). unfold noisy_sample; simpl. rewrite A3, B3, <- A1, <- B1, <- A2, <- B2. reflexivity.
  - destruct A as (A1 & A2), B as (B1 & B2). rewrite <- A1, <- B1.
    destruct (check_shape _ _); simpl; [|reflexivity]. now rewrite <- A2, <- B2.
Qed.

(** A density query answers by the target's own latest observation and the model's latest parameters, whatever else happened to the
    target, to its model or to any other object in between: two histories that agree on these two give the same answer. *)
Theorem C99_isolated : forall w cs1 cs2 i t log z noise,
  nth_error (w_targets w) i = Some t ->
  (forall prev, observation i cs1 prev = observation i cs2 prev) ->
  (forall prev, parameters (t_gen t) cs1 prev = parameters (t_gen t) cs2 prev) ->
  snd (do_call (after w cs1) (Query i log z noise)) = snd (do_call (after w cs2) (Query i log z noise)).
Proof.
  intros w cs1 cs2 i t log z noise N O P. cbn [do_call snd]. f_equal. unfold abc_query. rewrite !targets_after, N.
  unfold with_obs; cbn [t_obs t_gen t_prior]. rewrite (O (t_obs t)). destruct (observation i cs2 (t_obs t)) as [o|]; [|reflexivity].
  pose proof (gens_after w cs1 (t_gen t)) as G1. pose proof (gens_after w cs2 (t_gen t)) as G2. cbv beta in G1, G2.
  destruct (nth_error (w_gens w) (t_gen t)) as [g|];
    destruct (nth_error (w_gens (after w cs1)) (t_gen t)) as [g1|]; try contradiction;
    destruct (nth_error (w_gens (after w cs2)) (t_gen t)) as [g2|]; try contradiction; [|reflexivity].
  rewrite P in G1. pose proof (alike_sample _ _ _ _ z noise G1 G2) as S.
  destruct (gen_condition g1 z) as [h1|], (gen_condition g2 z) as [h2|]; try contradiction; cbn [snd]; [|now rewrite S].
  rewrite S. reflexivity.
Qed.
Print Assumptions C99_isolated.

Lemma chunks_concat d rows : Forall (fun r => length r = d) rows -> chunks d (length rows) (concat rows) = rows.
Proof.
  induction 1 as [|r rows L F IH]; [reflexivity|]. simpl. rewrite firstn_app, skipn_app, L, Nat.sub_diag. simpl.
  rewrite app_nil_r, <- L, firstn_all, skipn_all, L. simpl. now rewrite IH.
Qed.
Lemma concat_len d (rows : list (list Q)) : Forall (fun r => length r = d) rows -> length (concat rows) = (length rows * d)%nat.
Proof. induction 1 as [|r rows L F IH]; [reflexivity|]. simpl. rewrite app_length. lia. Qed.
Lemma add_zero v : faddR v (Fin 0%R) = v.
Proof. destruct v; simpl; auto. now rewrite Rplus_0_r. Qed.
Lemma map2_map_l {A B C D} (f : B -> C -> D) (g : A -> B) l m : map2 f (map g l) m = map2 (fun a c => f (g a) c) l m.
Proof. revert m. induction l as [|a l IH]; intros [|c m]; simpl; auto. now rewrite IH. Qed.
Lemma map_map2 {A B C D} (h : C -> D) (f : A -> B -> C) l m : map h (map2 f l m) = map2 (fun a b => h (f a b)) l m.
Proof. revert m. induction l as [|a l IH]; intros [|c m]; simpl; auto. now rewrite IH. Qed.
Lemma map2_len {A B C} (f : A -> B -> C) l m : length l = length m -> length (map2 f l m) = length l.
Proof. revert m. induction l as [|a l IH]; intros [|c m]; simpl; intros H; try discriminate; [reflexivity|]. f_equal. apply IH. lia. Qed.
Lemma map2_nth {A B C} (f : A -> B -> C) : forall l m k a b, nth_error l k = Some a -> nth_error m k = Some b ->
  nth_error (map2 f l m) k = Some (f a b).
Proof. induction l as [|x l IH]; intros [|y m] [|k] a b; simpl; try discriminate; [now intros [= ->] [= ->]|apply IH]. Qed.
Lemma zipb_same {X} (f : X -> X -> X) d a b : length a = length b -> zipb f d a b = Ok (map2 f a b).
Proof. intros H. unfold zipb, extent. rewrite H, Nat.eqb_refl. simpl. rewrite ?H, ?Nat.eqb_refl; reflexivity. Qed.
Lemma zipb_ok_map f (h : fl R -> fl R) d a b : length a = length b ->
  bind (zipb f d a b) (fun s => Ok (map h s)) = Ok (map2 (fun x y => h (f x y)) a b).
Proof. intros H. rewrite zipb_same by exact H. simpl. now rewrite map_map2. Qed.

(** The value of a query, row by row: before an observation ValueError, afterwards the surrogate likelihood of the latest
    observation against the row simulated at the queried point itself with the model's latest parameters, times the prior of that
    point. *)
Theorem C99_answer : forall w cs i t g f1 in_log L P log z noise,
  unused w -> nth_error (w_targets w) i = Some t -> nth_error (w_gens w) (t_gen t) = Some (Noisy g) ->
  row_function (nz_f g) f1 -> (forall p r, length (f1 p r) = nz_dims g) ->
  surrogate t in_log L -> t_prior t z = Ok (map P (a_rows z)) -> length noise = length (a_rows z) ->
  match observation i cs None with
  | None => snd (do_call (after w cs) (Query i log z noise)) = Raise ValueError
  | Some o => exists v, snd (do_call (after w cs) (Query i log z noise)) = Ok (Values v) /\
      length v = length (a_rows z) /\
      forall k r e, nth_error (a_rows z) k = Some r -> nth_error noise k = Some e ->
        nth_error v k = Some (posterior log in_log
          (L o (firstn (length o) (vadd (f1 (parameters (t_gen t) cs None) r) e))) (P r))
  end.
Proof.
  intros w cs i t g f1 in_log L P log z noise [UG UT] NT NG RF FL SU PR LN.
  assert (T0 : t_obs t = None) by (rewrite Forall_forall in UT; apply UT; eapply nth_error_In; eauto).
  assert (G0 : nz_z g = None) by (rewrite Forall_forall in UG; apply (UG _ (nth_error_In _ _ NG))).
  cbn [do_call snd]. unfold abc_query. rewrite targets_after, NT. unfold with_obs; cbn [t_obs t_gen t_prior]. rewrite T0.
  destruct (observation i cs None) as [o|] eqn:O; [|reflexivity].
  pose proof (gens_after w cs (t_gen t)) as G. cbv beta in G. rewrite NG in G.
  destruct (nth_error (w_gens (after w cs)) (t_gen t)) as [[g'|g']|]; try contradiction.
  simpl in G. rewrite G0 in G. destruct G as (D & F & Z). set (p := parameters (t_gen t) cs None) in *.
  cbn [gen_condition snd noisy_do gen_sample]. unfold noisy_sample; cbn [nz_x nz_f nz_z nz_dims].
  rewrite <- F, <- D, Z, (RF z p).
  assert (W : Forall (fun r => length r = nz_dims g) (map (f1 p) (a_rows z))).
  { rewrite Forall_map. apply Forall_forall. intros; apply FL. }
  rewrite (concat_len _ _ W), map_length, Nat.eqb_refl.
  replace (chunks _ _ _) with (map (f1 p) (a_rows z)) by (rewrite <- (chunks_concat _ _ W) at 1; now rewrite map_length).
  cbn [bind a_rows]. rewrite PR. cbn [bind]. rewrite map2_map_l, map_map2.
  set (hat := map2 (fun r e => firstn (length o) (vadd (f1 p r) e)) (a_rows z) noise).
  assert (LH : length hat = length (a_rows z)) by (apply map2_len; now symmetry).
  assert (N : forall k r e, nth_error (a_rows z) k = Some r -> nth_error noise k = Some e ->
    nth_error (map (L o) hat) k = Some (L o (firstn (length o) (vadd (f1 p r) e))) /\ nth_error (map P (a_rows z)) k = Some (P r)).
  { intros k r e K1 K2. split; [apply map_nth_error; unfold hat; now apply (map2_nth (fun r e => firstn (length o) (vadd (f1 p r) e)))|now apply map_nth_error]. }
  assert (LE : length (map (L o) hat) = length (map P (a_rows z))) by now rewrite !map_length.
  unfold abc_value, surrogate in *; cbn [t_loglik t_lik]. destruct in_log.
  - rewrite SU. destruct log; rewrite zipb_ok_map by exact LE; cbn [as_answer bind]; eexists; (split; [reflexivity|]); split;
      try (now rewrite map2_len, map_length by exact LE); intros k r e K1 K2; destruct (N k r e K1 K2) as [N1 N2];
      erewrite map2_nth by eassumption; cbn [posterior]; now rewrite add_zero.
  - destruct SU as [S1 S2]. rewrite S1, S2. destruct log.
    + rewrite zipb_ok_map by now rewrite map_length. cbn [as_answer bind]. eexists. split; [reflexivity|]. split.
      * rewrite map2_len; rewrite !map_length; auto.
      * intros k r e K1 K2; destruct (N k r e K1 K2) as [N1 N2]. erewrite map2_nth; [|apply map_nth_error; exact N1|exact N2].
        cbn [posterior]. now rewrite add_zero.
    + rewrite zipb_same by now rewrite (map_length _ (map P _)). cbn [as_answer bind]. eexists. split; [reflexivity|]. split.
      * rewrite map2_len; rewrite !map_length; auto.
      * intros k r e K1 K2; destruct (N k r e K1 K2) as [N1 N2]. erewrite map2_nth; [|exact N1|apply map_nth_error; exact N2].
        cbn [posterior]. now rewrite add_zero.
Qed.
Print Assumptions C99_answer.

(** The conditioning of model j after calls that do not use it through a target. *)
Definition shown (x : option arr) (g : gen) : Prop := match g with Noisy o => nz_x o = x | Nuisance _ => True end.
Lemma shown_step w c j g : nth_error (w_gens w) j = Some (Noisy g) -> ~ uses_model (w_targets w) j c ->
  match nth_error (w_gens (fst (do_call w c))) j with Some g' => shown (conditioning j [c] (nz_x g)) g' | None => False end.
Proof.
  intros N U. assert (B : match nth_error (w_gens w) j with Some g' => shown (nz_x g) g' | None => False end) by now rewrite N.
  destruct c as [i o|i lg z n|i z n1 n2|k z|k p|k n]; simpl.
  - destruct (nth_error _ i); exact B.
  - unfold abc_query. destruct (nth_error (w_targets w) i) as [t|] eqn:NT; [|exact B]. destruct (t_obs t); [|exact B].
    destruct (nth_error (w_gens w) (t_gen t)) as [h|]; [|exact B]. destruct (gen_condition h z); [|exact B]. simpl.
    rewrite put_nth. destruct (Nat.eqb_spec j (t_gen t)) as [E|]; [|exact B]. destruct U. exists t. simpl. auto.
  - unfold abc_sample. destruct (nth_error (w_targets w) i) as [t|] eqn:NT; [|exact B].
    assert (J1 : j <> t_gen t) by (intros ->; apply U; exists t; auto).
    assert (J2 : j <> t_sensor t) by (intros ->; apply U; exists t; auto).
    apply Nat.eqb_neq in J1, J2.
    destruct (nth_error (w_gens w) (t_gen t)) as [h|]; [|exact B]. destruct (gen_condition h z) as [h'|]; [|exact B].
    destruct (gen_sample_n h' n1) as [x|]; [|simpl; now rewrite put_nth, J1]. simpl.
    destruct (nth_error (put _ _ _) (t_sensor t)) as [s|]; [|simpl; now rewrite put_nth, J1].
    destruct (gen_condition s _) as [s'|]; simpl; [now rewrite put_nth, J2, put_nth, J1|now rewrite put_nth, J1].
  - unfold on_gen. destruct (Nat.eqb_spec k j) as [->|K].
    + rewrite N. simpl. rewrite put_nth, Nat.eqb_refl, N. reflexivity.
    + destruct (nth_error (w_gens w) k) as [h|]; [|exact B]. destruct (gen_condition h z); [|exact B]. simpl.
      rewrite put_nth. destruct (Nat.eqb_spec j k); [congruence|exact B].
  - unfold on_gen. destruct (nth_error (w_gens w) k) as [h|] eqn:NK; [|exact B]. destruct (gen_params h p) as [h'|] eqn:HP; [|exact B].
    simpl. rewrite put_nth. destruct (Nat.eqb_spec j k) as [->|]; [|exact B]. rewrite NK. rewrite N in NK. inversion NK; subst.
    simpl in HP. inversion HP; subst. reflexivity.
  - exact B.
Qed.
Lemma conditioning_cons j c cs x : conditioning j (c :: cs) x = conditioning j cs (conditioning j [c] x).
Proof. destruct c; reflexivity. Qed.
Lemma uses_same ts ts' j c : (forall i, match nth_error ts i, nth_error ts' i with
    | Some t, Some t' => t_gen t = t_gen t' /\ t_sensor t = t_sensor t' | None, None => True | _, _ => False end) ->
  uses_model ts' j c -> uses_model ts j c.
Proof.
  intros S. destruct c as [i o|i lg z n|i z n1 n2|k z|k p|k n]; simpl; auto; intros (t' & N & E); specialize (S i); rewrite N in S;
    destruct (nth_error ts i) as [t|]; try contradiction; exists t; (split; [reflexivity|]); destruct S as [S1 S2]; rewrite ?S1, ?S2; exact E.
Qed.
Lemma noisy_stays w c j g : nth_error (w_gens w) j = Some (Noisy g) -> exists g', nth_error (w_gens (fst (do_call w c))) j = Some (Noisy g').
Proof.
  intros N. pose proof (gens_after w [c] j) as G. cbv beta in G. rewrite N in G. simpl after in G.
  destruct (nth_error (w_gens (fst (do_call w c))) j) as [[g'|g']|]; try contradiction. now exists g'.
Qed.
Lemma shown_after j cs : forall w g, nth_error (w_gens w) j = Some (Noisy g) -> Forall (fun c => ~ uses_model (w_targets w) j c) cs ->
  exists g', nth_error (w_gens (after w cs)) j = Some (Noisy g') /\ nz_x g' = conditioning j cs (nz_x g).
Proof.
  induction cs as [|c cs IH]; intros w g N U; [now exists g|]. inversion U as [|? ? U1 U2]; subst. simpl after.
  pose proof (shown_step w c j g N U1) as S. destruct (noisy_stays w c j g N) as [g1 N1]. rewrite N1 in S. simpl in S.
  destruct (IH (fst (do_call w c)) g1 N1) as (g' & N' & E).
  - eapply Forall_impl; [|exact U2]. intros d V W. apply V. revert W. apply uses_same. intros i.
    change (fst (do_call w c)) with (after w [c]). rewrite (targets_after [c] w i). destruct (nth_error (w_targets w) i); simpl; auto.
  - exists g'. split; [exact N'|]. rewrite conditioning_cons. change (conditioning j [c] (nz_x g)) with (match c with CondGen k z => if (k =? j)%nat then Some z else nz_x g | _ => nz_x g end). now rewrite <- S.
Qed.

(** A model draws at the points it was last conditioned at, with the latest parameters, as long as no target built on it was
    evaluated or drawn from; targets built on other models do not disturb it. *)
Theorem C99_model_draws_partial : forall w cs j g f1 noise,
  unused w -> nth_error (w_gens w) j = Some (Noisy g) -> Forall (fun c => ~ uses_model (w_targets w) j c) cs ->
  row_function (nz_f g) f1 -> (forall p r, length (f1 p r) = nz_dims g) ->
  snd (do_call (after w cs) (SampleGen j noise)) =
  match conditioning j cs None with
  | None => Raise TypeError
  | Some x => Ok (Rows (map2 (fun r e => vadd (f1 (parameters j cs None) r) e) (a_rows x) noise))
  end.
Proof.
  intros w cs j g f1 noise [UG _] N U RF FL. rewrite Forall_forall in UG.
  destruct (UG _ (nth_error_In _ _ N)) as [X0 Z0]. destruct (shown_after j cs w g N U) as (g' & N' & E).
  pose proof (gens_after w cs j) as G. cbv beta in G. rewrite N, N' in G. simpl in G. rewrite Z0 in G. destruct G as (D & F & Z).
  cbn [do_call snd]. rewrite N'. cbn [gen_sample]. unfold noisy_sample. rewrite E, X0. destruct (conditioning j cs None) as [x|]; [|reflexivity].
  rewrite <- F, <- D, Z, (RF x). set (p := parameters j cs None).
  assert (W : Forall (fun r => length r = nz_dims g) (map (f1 p) (a_rows x))).
  { rewrite Forall_map. apply Forall_forall. intros; apply FL. }
  rewrite (concat_len _ _ W), map_length, Nat.eqb_refl.
  replace (chunks _ _ _) with (map (f1 p) (a_rows x)) by (rewrite <- (chunks_concat _ _ W) at 1; now rewrite map_length).
  cbn [as_answer bind a_rows]. now rewrite map2_map_l.
Qed.
Print Assumptions C99_model_draws_partial.

(** target.sample(n) over a GenericNoisyFunction never returns, whatever happened before. *)
Theorem C99_sample_fails : forall w cs i t g z n1 n2,
  nth_error (w_targets w) i = Some t -> nth_error (w_gens w) (t_gen t) = Some (Noisy g) ->
  snd (do_call (after w cs) (Draw i z n1 n2)) = Raise TypeError.
Proof.
  intros w cs i t g z n1 n2 NT NG. cbn [do_call snd]. unfold abc_sample. rewrite targets_after, NT. unfold with_obs; cbn [t_gen].
  pose proof (gens_after w cs (t_gen t)) as G. cbv beta in G. rewrite NG in G.
  destruct (nth_error (w_gens (after w cs)) (t_gen t)) as [[g'|g']|]; try contradiction. reflexivity.
Qed.
Print Assumptions C99_sample_fails.

(** A one-dimensional model x -> p + x (p the first parameter, 0 before set_params), two targets on it and one on a model of
    its own. *)
Definition shift1 (p : option (list Q)) (r : list Q) : list Q := [(hd 0 r + match p with Some (a :: _) => a | _ => 0 end)%Q].
Definition shift_model : noisy := noisy_new 1 (fun x p => concat (map (shift1 p) (a_rows x))).
Definition dist1 (o h : list Q) : fl R := Fin (- Q2R (Qabs.Qabs (hd 0%Q o - hd 0%Q h)%Q))%R.
Definition flat_prior (z : arr) : res (list (fl R)) := Ok (map (fun _ => Fin 0%R) (a_rows z)).
Definition tgt (j : nat) : target := mkTarget j j None (Some (fun o hat => map (dist1 o) hat)) flat_prior None.
Definition three : world := mkWorld [Noisy shift_model; Noisy shift_model] [tgt 0; tgt 0; tgt 1].
Definition pts (l : list Q) : arr := mkArr 1 (map (fun a => [a]) l).
Definition busy : list call :=
  [CondGen 0 (pts [5%Q]); Observe 0 [2%Q]; Query 0 true (pts [1%Q]) [[0%Q]]; Observe 1 [7%Q]; ParamsGen 0 [1%Q];
   Query 1 false (pts [3%Q; 4%Q]) [[0%Q]; [0%Q]]; CondGen 1 (pts [9%Q]); Draw 0 (pts [8%Q]) [] []].

Lemma three_unused : unused three.
Proof. split; repeat constructor. Qed.
Lemma shift_rows : row_function (nz_f shift_model) shift1. Proof. intros x p. reflexivity. Qed.

(** The model is shared: evaluating a target moves the points at which the model draws. *)
Theorem C99_model_draws_refuted : exists w cs j x noise f1 g,
  unused w /\ nth_error (w_gens w) j = Some (Noisy g) /\ row_function (nz_f g) f1 /\ (forall p r, length (f1 p r) = nz_dims g) /\
  conditioning j cs None = Some x /\ length noise = length (a_rows x) /\
  snd (do_call (after w cs) (SampleGen j noise)) <> Ok (Rows (map2 (fun r e => vadd (f1 (parameters j cs None) r) e) (a_rows x) noise)).
Proof.
  exists three, [CondGen 0 (pts [5%Q]); Observe 0 [2%Q]; Query 0 true (pts [1%Q]) [[0%Q]]], 0%nat, (pts [5%Q]), [[0%Q]], shift1, shift_model.
  split; [exact three_unused|]. split; [reflexivity|]. split; [exact shift_rows|]. split; [reflexivity|]. split; [reflexivity|].
  split; [reflexivity|]. vm_compute. discriminate.
Qed.
Print Assumptions C99_model_draws_refuted.

(** sample(n) of a target does not return n observations: it raises over GenericNoisyFunction, and over GenericNuisanceGenModel,
    which draws n nuisances per conditioning row, sample(2) returns eight rows from a model that answers one row per nuisance. *)
Definition per_nuisance : gen := Nuisance (mkNuisance 1 (fun _ n => n) None).
Definition nuis_world : world :=
  mkWorld [per_nuisance; per_nuisance] [mkTarget 0 1 None (Some (fun o hat => map (dist1 o) hat)) flat_prior None].
Theorem C99_sample_refuted :
  (exists w i z n1 n2, unused w /\ length (a_rows z) = 2%nat /\ snd (do_call w (Draw i z n1 n2)) = Raise TypeError) /\
  (exists w i z n1 n2 r, unused w /\ length (a_rows z) = 2%nat /\ length n1 = (2 * 2)%nat /\ length n2 = (length n1 * 2)%nat /\
     snd (do_call w (Draw i z n1 n2)) = Ok (Rows r) /\ length r = 8%nat).
Proof.
  split.
  - exists three, 0%nat, (pts [1%Q; 2%Q]), [], []. split; [exact three_unused|]. split; reflexivity.
  - exists nuis_world, 0%nat, (pts [1%Q; 2%Q]), (repeat [0%Q] 4), (repeat [0%Q] 8), (repeat [0%Q] 8).
    split; [split; repeat constructor|]. repeat split.
Qed.
Print Assumptions C99_sample_refuted.

(** Target 0 after many calls on the shared model: observation 2 against the simulations 1 + 1 and 3 + 1 at the queried points. *)
Example C99_answer_example : exists v, snd (do_call (after three busy) (Query 0 true (pts [1%Q; 3%Q]) [[0%Q]; [0%Q]])) = Ok (Values v) /\
  length v = 2%nat /\ nth_error v 1 = Some (Fin (- 2)%R).
Proof.
  pose proof (C99_answer three busy 0 (tgt 0) shift_model shift1 true dist1 (fun _ => Fin 0%R) true (pts [1%Q; 3%Q]) [[0%Q]; [0%Q]]
    three_unused eq_refl eq_refl shift_rows (fun _ _ => eq_refl) eq_refl eq_refl eq_refl) as H.
  change (observation 0 busy None) with (Some [2%Q]) in H. cbv iota in H. destruct H as (v & E & Lv & H).
  exists v. split; [exact E|]. split; [exact Lv|]. rewrite (H 1%nat [3%Q] [0%Q] eq_refl eq_refl). apply f_equal.
  unfold posterior, faddR, dist1. rewrite Rplus_0_r. apply f_equal.
  replace (-2)%R with (- Q2R 2)%R by (unfold Q2R; simpl; lra). apply f_equal. apply Qreals.Qeq_eqR. reflexivity.
Qed.
(** The other queries and conditionings of the example history may be left out. *)
Example C99_isolated_example :
  snd (do_call (after three busy) (Query 0 false (pts [1%Q]) [[3%Q]])) =
  snd (do_call (after three [Observe 0 [2%Q]; ParamsGen 0 [1%Q]]) (Query 0 false (pts [1%Q]) [[3%Q]])).
Proof. apply C99_isolated with (t := tgt 0); intros; reflexivity. Qed.
(** Model 1 keeps its conditioning while the targets of model 0 are used. *)
Example C99_model_draws_example : snd (do_call (after three busy) (SampleGen 1 [[0%Q]])) = Ok (Rows [[(9 + 0 + 0)%Q]]).
Proof.
  assert (U : Forall (fun c => ~ uses_model (w_targets three) 1 c) busy).
  { unfold busy. repeat (apply Forall_cons || apply Forall_nil); simpl; try tauto;
      intros (t & N & E); inversion N; subst; simpl in E; try discriminate; destruct E; discriminate. }
  exact (C99_model_draws_partial three busy 1 shift_model shift1 [[0%Q]] three_unused eq_refl U shift_rows (fun _ _ => eq_refl)).
Qed.
Example C99_sample_fails_example : snd (do_call (after three busy) (Draw 2 (pts [1%Q]) [] [])) = Raise TypeError.
Proof. now apply (C99_sample_fails three busy 2 (tgt 1) shift_model). Qed.
