(** C104: one dictionary of parameters can be used for several objects, and an object is not changed through it. *)
From Coq Require Import String.
From Coq Require Import List Bool Arith Lia Reals Lra.
Import ListNotations.
From Verif Require Import Prelude.Py Prelude.RBase Model.Normal Model.Params Spec.ParamsSpec.
Open Scope R_scope.

Definition seen (h : heap) (o : obj) : behaviour := mkBehaviour (o_dims o) (support_now h o) (density_now h o) (draws_now h o).
(** Further assignments d[k] = v by the caller. *)
Definition puts (ups : list (string * pval)) (d : dict) : dict := fold_left (fun e u => put (fst u) (snd u) e) ups d.
(** The keys that constructors write. *)
Definition written : list string := ["type"; "family"; "likelihood_f"; "loglikelihood_f"; "dims"; "support"]%string.

Lemma get_put_same k v d : get k (put k v d) = Some v.
Proof.
  induction d as [|[k' v'] d IH]; cbn; [now rewrite String.eqb_refl|].
  destruct (String.eqb k k') eqn:E; cbn; [now rewrite String.eqb_refl|now rewrite E].
Qed.
Lemma get_put_other k k' v d : k <> k' -> get k (put k' v d) = get k d.
Proof.
  intros N. induction d as [|[j w] d IH]; cbn; [now rewrite (proj2 (String.eqb_neq _ _) N)|].
  destruct (String.eqb k' j) eqn:E; cbn; [|now rewrite IH].
  apply String.eqb_eq in E. subst j. now rewrite (proj2 (String.eqb_neq _ _) N).
Qed.
Lemma get_enter key k id n d : ~ In key ["type"; "family"; "likelihood_f"; "loglikelihood_f"; "dims"]%string -> get key (enter k id n d) = get key d.
Proof.
  intros N. unfold enter. rewrite !get_put_other; [reflexivity|intros ->; apply N; cbn; tauto ..].
Qed.
Lemma puts_get ups key : exists o, forall d, get key (puts ups d) = match o with Some v => Some v | None => get key d end.
Proof.
  unfold puts. induction ups as [|[k v] ups IH]; [now exists None|].
  destruct IH as [o H]. cbn [fold_left fst snd]. destruct o as [w|].
  - exists (Some w). intros d. now rewrite H.
  - destruct (String.eqb key k) eqn:E.
    + apply String.eqb_eq in E. subst k. exists (Some v). intros d. rewrite H. apply get_put_same.
    + apply String.eqb_neq in E. exists None. intros d. rewrite H. now apply get_put_other.
Qed.

Lemma load_alloc h c a : (a < length h)%nat -> load (alloc h c) a = load h a.
Proof. intros L. unfold load, alloc. now rewrite app_nth1. Qed.
Lemma load_new h c : load (alloc h c) (length h) = c.
Proof. unfold load, alloc. rewrite app_nth2 by lia. now rewrite Nat.sub_diag. Qed.
Lemma length_alloc h c : length (alloc h c) = S (length h).
Proof. unfold alloc. rewrite app_length. cbn. lia. Qed.
Lemma row_alloc h c a : (a < length h)%nat -> row_at (alloc h c) a = row_at h a.
Proof. intros L. unfold row_at. now rewrite load_alloc. Qed.
Lemma row_new h c : row_at (alloc h c) (length h) = hd [] c.
Proof. unfold row_at. now rewrite load_new. Qed.

(** The arrays a value refers to. *)
Definition refs (v : pval) : list nat := match v with PArr a => [a] | PPair a b => [a; b] | _ => [] end.
(** Every array of the dictionary exists. *)
Definition sound (h : heap) (d : dict) : Prop := forall k v a, get k d = Some v -> In a (refs v) -> (a < length h)%nat.

Lemma same_parts g p h o :
  o_kind p = o_kind o -> o_dims p = o_dims o -> o_const p = o_const o ->
  load g (o_loc p) = load h (o_loc o) -> load g (o_scale p) = load h (o_scale o) -> load g (o_aux p) = load h (o_aux o) ->
  same_density_and_draws (seen g p) (seen h o).
Proof.
  intros K D C L S A. unfold same_density_and_draws, seen, density_now, draws_now, low_now, high_now, row_at. cbn [b_dims b_density b_draws].
  rewrite K, D, C, L, S, A. auto.
Qed.
Lemma same_refs g h v : (forall a, In a (refs v) -> load g a = load h a) ->
  match v with PArr a => load g a | PPair a b => [row_at g a; row_at g b] | _ => [] end =
  match v with PArr a => load h a | PPair a b => [row_at h a; row_at h b] | _ => [] end.
Proof.
  intros H. destruct v; cbn in *; auto. unfold row_at. now rewrite !H by auto.
Qed.
Lemma arr_get key d e : get key d = get key e -> arr key d = arr key e.
Proof. unfold arr. now intros ->. Qed.
Lemma arr_sound h d key a : sound h d -> arr key d = Ok a -> (a < length h)%nat.
Proof.
  intros S A. unfold arr in A. destruct (get key d) as [[]|] eqn:G; try discriminate. inversion A; subst. eapply S; [exact G|now left].
Qed.
Lemma load3 h a b c : load (alloc (alloc (alloc h a) b) c) (length h) = a /\ load (alloc (alloc (alloc h a) b) c) (S (length h)) = b /\
  load (alloc (alloc (alloc h a) b) c) (S (S (length h))) = c.
Proof.
  repeat split.
  - rewrite !load_alloc by (rewrite ?length_alloc; lia). apply load_new.
  - rewrite load_alloc by (rewrite ?length_alloc; lia). rewrite <- (length_alloc h a) at 1. apply load_new.
  - rewrite <- (length_alloc h a), <- (length_alloc (alloc h a) b). apply load_new.
Qed.

Section Build.
Variable det : rmat -> R.
Variable inv : rmat -> rmat.
Local Notation build := (build det inv).

(** A constructor writes into the caller's dictionary, under six keys only; a support given to the normal, exponential or delta
    class stays; no array of the caller is written to. This holds whether or not the constructor succeeds. *)
Theorem C104_entries : forall k id h d r h' d', build k id h d = (r, h', d') ->
  (forall key, ~ In key written -> get key d' = get key d) /\
  (forall v, get "support" d = Some v -> k <> KUniform -> get "support" d' = Some v) /\
  (forall a, (a < length h)%nat -> load h' a = load h a).
Proof.
  intros k id h d r h' d' B.
  assert (W : forall key, ~ In key written -> key <> "support"%string /\ forall n, get key (enter k id n d) = get key d).
  { intros key N. split; [intros ->; apply N; cbn; tauto|]. intros n. apply get_enter. intros I. apply N. cbn in *. tauto. }
  assert (S : forall n, get "support" (enter k id n d) = get "support" d).
  { intros n. apply get_enter. cbn. intuition discriminate. }
  destruct k; cbn in B.
  - unfold build_normal in B.
    destruct (arr "mean" d) as [m|]; [|inversion B; subst; repeat split; intros; auto].
    destruct (arr "sigma" d) as [s|]; [|inversion B; subst; repeat split; intros; auto].
    cbv zeta in B. destruct (square _ _); [|inversion B; subst; repeat split; intros; rewrite ?S; auto; now apply W].
    rewrite S in B. destruct (get "support" d) as [v|] eqn:G.
    + destruct (Rltb _ _); inversion B; subst; repeat split; intros; rewrite ?S; auto;
        try (now apply W); rewrite ?load_alloc; rewrite ?length_alloc; auto.
    + destruct (Rltb _ _); inversion B; subst; repeat split; intros; try discriminate;
        try (now (rewrite get_put_other by (now apply W); apply W)); rewrite ?load_alloc; rewrite ?length_alloc; auto.
  - unfold build_exp in B.
    destruct (arr "mean" d) as [m|]; [|inversion B; subst; repeat split; intros; auto].
    cbv zeta in B. rewrite S in B. destruct (get "support" d) as [v|] eqn:G; inversion B; subst; repeat split; intros; try discriminate;
      try (now apply W); try (now (rewrite get_put_other by (now apply W); apply W)); rewrite ?S; auto; rewrite ?load_alloc; rewrite ?length_alloc; auto.
  - unfold build_uniform in B.
    destruct (arr "center" d) as [m|]; [|inversion B; subst; repeat split; intros; auto].
    destruct (arr "radius" d) as [s|]; [|inversion B; subst; repeat split; intros; auto].
    cbv zeta in B. destruct (spread _ _); inversion B; subst; repeat split; intros; try congruence;
      try (now apply W); try (now (rewrite get_put_other by (now apply W); apply W)); rewrite ?load_alloc; rewrite ?length_alloc; auto.
  - unfold build_delta in B.
    destruct (arr "center" d) as [m|]; [|inversion B; subst; repeat split; intros; auto].
    destruct (get "support" d) as [v|] eqn:G; inversion B; subst; repeat split; intros; try discriminate; rewrite ?S; auto; now apply W.
Qed.

(** The support a constructor starts from the second time. *)
Lemma normal_again id id2 h d o h1 d1 : sound h d -> build KNormal id h d = (Ok o, h1, d1) ->
  exists o2 h2 d2, build KNormal id2 h1 d1 = (Ok o2, h2, d2) /\ same_behaviour (seen h2 o2) (seen h1 o).
Proof.
  intros SO B. pose proof (C104_entries KNormal id h d _ _ _ B) as [E1 [E2 E3]]. cbn in B |- *. unfold build_normal in B.
  destruct (arr "mean" d) as [m|] eqn:Am; [|discriminate]. destruct (arr "sigma" d) as [s|] eqn:As; [|discriminate].
  pose proof (arr_sound _ _ _ _ SO Am) as Lm. pose proof (arr_sound _ _ _ _ SO As) as Ls.
  assert (Gm : arr "mean" d1 = Ok m) by (rewrite <- Am; apply arr_get, E1; cbn; intuition discriminate).
  assert (Gs : arr "sigma" d1 = Ok s) by (rewrite <- As; apply arr_get, E1; cbn; intuition discriminate).
  pose proof (E3 _ Lm) as Pm. pose proof (E3 _ Ls) as Ps.
  cbv zeta in B. destruct (square _ _) eqn:Q; [|discriminate].
  set (h2 := fst (match get "support" (enter KNormal id (length (row_at h m)) d) with
          | Some _ => (h, enter KNormal id (length (row_at h m)) d)
          | None => (alloc h [vsub (row_at h m) (six_sds (length (row_at h m)) (load h s)); vadd (row_at h m) (six_sds (length (row_at h m)) (load h s))],
                     put "support" (PArr (length h)) (enter KNormal id (length (row_at h m)) d))
          end)) in *.
  assert (Gsup : get "support" d1 = Some (o_support o) /\ (forall a, In a (refs (o_support o)) -> (a < length h1)%nat) /\
     o = mkObj KNormal (length (row_at h m)) (o_support o) (length h2) (S (length h2)) (S (S (length h2)))
           [- (1 / 2) * INR (length (row_at h m)) * ln (PI * 2); - (1 / 2) * ln (det (mat_of (load h s)))] /\
     h1 = alloc (alloc (alloc h2 [row_at h m]) (load h s)) (rows_of (length (row_at h m)) (inv (mat_of (load h s)))) /\
     Rltb 0 (det (mat_of (load h s))) = true).
  { subst h2. assert (Gd : get "support" (enter KNormal id (length (row_at h m)) d) = get "support" d) by (apply get_enter; cbn; intuition discriminate).
    rewrite Gd in *. destruct (get "support" d) as [v|] eqn:G; cbn [fst].
    - rewrite Gd in B. destruct (Rltb 0 _) eqn:R; [|discriminate]. inversion B; subst. cbn [o_support]. repeat split; auto.
      intros a I. rewrite !length_alloc. pose proof (SO _ _ _ G I). lia.
    - rewrite get_put_same in B. destruct (Rltb 0 _) eqn:R; [|discriminate]. inversion B; subst. cbn [o_support]. repeat split; auto.
      + apply get_put_same.
      + intros a [<-|[]]. rewrite !length_alloc. lia. }
  destruct Gsup as [G1 [G2 [G3 [G4 G5]]]].
  unfold build_normal. rewrite Gm, Gs. cbv zeta.
  assert (Rm : row_at h1 m = row_at h m) by (unfold row_at; now rewrite Pm).
  rewrite Rm, Ps, Q.
  assert (Gd2 : get "support" (enter KNormal id2 (length (row_at h m)) d1) = Some (o_support o)) by (rewrite get_enter; [exact G1|cbn; intuition discriminate]).
  rewrite Gd2, Gd2, G5. eexists; eexists; eexists. split; [reflexivity|].
  destruct (load3 h1 [row_at h m] (load h s) (rows_of (length (row_at h m)) (inv (mat_of (load h s))))) as [X1 [X2 X3]].
  destruct (load3 h2 [row_at h m] (load h s) (rows_of (length (row_at h m)) (inv (mat_of (load h s))))) as [Y1 [Y2 Y3]].
  rewrite <- G4 in Y1, Y2, Y3.
  split.
  - rewrite G3 at 2. apply same_parts; cbn [o_kind o_dims o_const o_loc o_scale o_aux]; congruence.
  - unfold seen, support_now. cbn [b_support o_support]. apply same_refs. intros a I. rewrite !load_alloc; auto; rewrite ?length_alloc; specialize (G2 _ I); lia.
Qed.

Lemma exp_again id id2 h d o h1 d1 : sound h d -> build KExp id h d = (Ok o, h1, d1) ->
  exists o2 h2 d2, build KExp id2 h1 d1 = (Ok o2, h2, d2) /\ same_behaviour (seen h2 o2) (seen h1 o).
Proof.
  intros SO B. pose proof (C104_entries KExp id h d _ _ _ B) as [E1 [E2 E3]]. cbn in B |- *. unfold build_exp in B.
  destruct (arr "mean" d) as [m|] eqn:Am; [|discriminate].
  pose proof (arr_sound _ _ _ _ SO Am) as Lm.
  assert (Gm : arr "mean" d1 = Ok m) by (rewrite <- Am; apply arr_get, E1; cbn; intuition discriminate).
  pose proof (E3 _ Lm) as Pm. cbv zeta in B.
  set (mean := row_at h m) in *. set (scale := map (fun x => 1 / x) mean) in *. set (logs := map (fun x => ln (x * exp 1)) scale) in *.
  assert (P : exists h2, get "support" d1 = Some (o_support o) /\ (forall a, In a (refs (o_support o)) -> (a < length h1)%nat) /\
     o = mkObj KExp (length mean) (o_support o) (length h2) (S (length h2)) (S (S (length h2))) [] /\
     h1 = alloc (alloc (alloc h2 [mean]) [scale]) [logs]).
  { assert (Gd : get "support" (enter KExp id (length mean) d) = get "support" d) by (apply get_enter; cbn; intuition discriminate).
    rewrite Gd in B. destruct (get "support" d) as [v|] eqn:G; cbn [fst].
    - rewrite Gd in B. inversion B; subst. cbn [o_support]. eexists. repeat split; auto.
      intros a I. rewrite !length_alloc. pose proof (SO _ _ _ G I). lia.
    - rewrite get_put_same in B. inversion B; subst. cbn [o_support]. eexists. repeat split; auto.
      + apply get_put_same.
      + intros a [<-|[]]. rewrite !length_alloc. lia. }
  destruct P as [h2 [G1 [G2 [G3 G4]]]].
  unfold build_exp. rewrite Gm. cbv zeta.
  assert (Rm : row_at h1 m = mean) by (unfold mean, row_at; now rewrite Pm).
  rewrite Rm. fold scale. fold logs.
  assert (Gd2 : get "support" (enter KExp id2 (length mean) d1) = Some (o_support o)) by (rewrite get_enter; [exact G1|cbn; intuition discriminate]).
  rewrite Gd2, Gd2. eexists; eexists; eexists. split; [reflexivity|].
  destruct (load3 h1 [mean] [scale] [logs]) as [X1 [X2 X3]]. destruct (load3 h2 [mean] [scale] [logs]) as [Y1 [Y2 Y3]].
  rewrite <- G4 in Y1, Y2, Y3.
  split.
  - rewrite G3 at 2. apply same_parts; cbn [o_kind o_dims o_const o_loc o_scale o_aux]; congruence.
  - unfold seen, support_now. cbn [b_support o_support]. apply same_refs. intros a I. rewrite !load_alloc; auto; rewrite ?length_alloc; specialize (G2 _ I); lia.
Qed.

Lemma uniform_again id id2 h d o h1 d1 : sound h d -> build KUniform id h d = (Ok o, h1, d1) ->
  exists o2 h2 d2, build KUniform id2 h1 d1 = (Ok o2, h2, d2) /\ same_behaviour (seen h2 o2) (seen h1 o).
Proof.
  intros SO B. pose proof (C104_entries KUniform id h d _ _ _ B) as [E1 [E2 E3]]. cbn in B |- *. unfold build_uniform in B.
  destruct (arr "center" d) as [m|] eqn:Am; [|discriminate]. destruct (arr "radius" d) as [s|] eqn:As; [|discriminate].
  pose proof (arr_sound _ _ _ _ SO Am) as Lm. pose proof (arr_sound _ _ _ _ SO As) as Ls.
  assert (Gm : arr "center" d1 = Ok m) by (rewrite <- Am; apply arr_get, E1; cbn; intuition discriminate).
  assert (Gs : arr "radius" d1 = Ok s) by (rewrite <- As; apply arr_get, E1; cbn; intuition discriminate).
  pose proof (E3 _ Lm) as Pm. pose proof (E3 _ Ls) as Ps. cbv zeta in B.
  assert (Rm : row_at h1 m = row_at h m) by (unfold row_at; now rewrite Pm).
  assert (Rs : row_at h1 s = row_at h s) by (unfold row_at; now rewrite Ps).
  unfold build_uniform. rewrite Gm, Gs. cbv zeta. rewrite Rm, Rs.
  destruct (spread _ _) as [rad|]; [|discriminate]. inversion B; subst o d1. clear B E1 E2 E3 Gm Gs.
  eexists; eexists; eexists. split; [reflexivity|]. subst h1.
  split.
  - apply same_parts; cbn [o_kind o_dims o_const o_loc o_scale o_aux]; auto; rewrite !load_alloc; auto; rewrite ?length_alloc; lia.
  - unfold seen, support_now. cbn [b_support o_support].
    assert (R1 : forall e x y, row_at (alloc (alloc e x) y) (length e) = hd [] x).
    { intros. rewrite row_alloc by (rewrite length_alloc; lia). apply row_new. }
    assert (R2 : forall e x y, row_at (alloc (alloc e x) y) (S (length e)) = hd [] y).
    { intros. rewrite <- (length_alloc e x). apply row_new. }
    now rewrite !R1, !R2.
Qed.

Lemma delta_again id id2 h d o h1 d1 : build KDelta id h d = (Ok o, h1, d1) ->
  exists o2 h2 d2, build KDelta id2 h1 d1 = (Ok o2, h2, d2) /\ same_behaviour (seen h2 o2) (seen h1 o).
Proof.
  intros B. pose proof (C104_entries KDelta id h d _ _ _ B) as [E1 [E2 E3]]. cbn in B |- *. unfold build_delta in B.
  destruct (arr "center" d) as [m|] eqn:Am; [|discriminate].
  assert (Gm : arr "center" d1 = Ok m) by (rewrite <- Am; apply arr_get, E1; cbn; intuition discriminate).
  destruct (get "support" d) as [v|] eqn:G; [|discriminate].
  unfold build_delta. rewrite Gm, (E2 _ eq_refl) by discriminate. inversion B; subst. eexists; eexists; eexists. split; [reflexivity|].
  split; [now apply same_parts|reflexivity].
Qed.

Definition addresses (o : obj) : list nat := o_loc o :: o_scale o :: o_aux o :: refs (o_support o).
Lemma built_sound k id h d o h1 d1 : sound h d -> build k id h d = (Ok o, h1, d1) ->
  sound h1 d1 /\ (length h <= length h1)%nat /\ forall a, In a (addresses o) -> (a < length h1)%nat.
Proof.
  intros SO B.
  assert (PE : forall g e n, sound g e -> sound g (enter k id n e)).
  { assert (PP : forall g e key v, sound g e -> refs v = [] -> sound g (put key v e)).
    { intros g e key v Sg R key' w a. destruct (String.eqb key' key) eqn:E.
      - apply String.eqb_eq in E. subst. rewrite get_put_same. intros H. inversion H; subst. rewrite R. intros [].
      - apply String.eqb_neq in E. rewrite get_put_other by exact E. apply Sg. }
    intros g e n Sg. unfold enter. repeat apply PP; auto. }
  assert (MO : forall g g' e, sound g e -> (length g <= length g')%nat -> sound g' e).
  { intros g g' e Sg L key v a G I. specialize (Sg key v a G I). lia. }
  assert (PS : forall g e v, sound g e -> (forall a, In a (refs v) -> (a < length g)%nat) -> sound g (put "support" v e)).
  { intros g e v Sg R key' w a. destruct (String.eqb key' "support") eqn:E.
    - apply String.eqb_eq in E. subst. rewrite get_put_same. intros H. inversion H; subst. apply R.
    - apply String.eqb_neq in E. rewrite get_put_other by exact E. apply Sg. }
  destruct k; cbn in B.
  - unfold build_normal in B.
    destruct (arr "mean" d) as [m|] eqn:Am; [|discriminate]. destruct (arr "sigma" d) as [s|] eqn:As; [|discriminate].
    cbv zeta in B. destruct (square _ _); [|discriminate].
    assert (Gd : forall n, get "support" (enter KNormal id n d) = get "support" d) by (intros; apply get_enter; cbn; intuition discriminate).
    rewrite Gd in B. destruct (get "support" d) as [v|] eqn:G.
    + rewrite Gd in B. destruct (Rltb _ _); [|discriminate]. inversion B; subst. rewrite !length_alloc. repeat split; [|lia|].
      * apply (MO h); [now apply PE|rewrite ?length_alloc; lia].
      * unfold addresses. cbn [o_loc o_scale o_aux o_support]. intros a [<-|[<-|[<-|I]]]; try lia. pose proof (SO _ _ _ G I). lia.
    + rewrite get_put_same in B. destruct (Rltb _ _); [|discriminate]. inversion B; subst. rewrite !length_alloc. repeat split; [|lia|].
      * apply PS; [apply (MO h); [now apply PE|rewrite ?length_alloc; lia]|]. intros a [<-|[]]. rewrite ?length_alloc. lia.
      * unfold addresses. cbn [o_loc o_scale o_aux o_support refs]. intros a [<-|[<-|[<-|[<-|[]]]]]; lia.
  - unfold build_exp in B.
    destruct (arr "mean" d) as [m|] eqn:Am; [|discriminate]. cbv zeta in B.
    assert (Gd : forall n, get "support" (enter KExp id n d) = get "support" d) by (intros; apply get_enter; cbn; intuition discriminate).
    rewrite Gd in B. destruct (get "support" d) as [v|] eqn:G.
    + rewrite Gd in B. inversion B; subst. rewrite !length_alloc. repeat split; [|lia|].
      * apply (MO h); [now apply PE|rewrite ?length_alloc; lia].
      * unfold addresses. cbn [o_loc o_scale o_aux o_support]. intros a [<-|[<-|[<-|I]]]; try lia. pose proof (SO _ _ _ G I). lia.
    + rewrite get_put_same in B. inversion B; subst. rewrite !length_alloc. repeat split; [|lia|].
      * apply PS; [apply (MO h); [now apply PE|rewrite ?length_alloc; lia]|]. intros a [<-|[]]. rewrite ?length_alloc. lia.
      * unfold addresses. cbn [o_loc o_scale o_aux o_support refs]. intros a [<-|[<-|[<-|[<-|[]]]]]; lia.
  - unfold build_uniform in B.
    destruct (arr "center" d) as [m|] eqn:Am; [|discriminate]. destruct (arr "radius" d) as [s|] eqn:As; [|discriminate].
    pose proof (arr_sound _ _ _ _ SO Am) as Lm. pose proof (arr_sound _ _ _ _ SO As) as Ls.
    cbv zeta in B. destruct (spread _ _); [|discriminate]. inversion B; subst. rewrite !length_alloc. repeat split; [|lia|].
    + apply PS; [apply (MO h); [now apply PE|rewrite ?length_alloc; lia]|]. intros b [<-|[<-|[]]]; rewrite ?length_alloc; lia.
    + unfold addresses. cbn [o_loc o_scale o_aux o_support refs]. intros b [<-|[<-|[<-|[<-|[<-|[]]]]]]; lia.
  - unfold build_delta in B.
    destruct (arr "center" d) as [m|] eqn:Am; [|discriminate]. pose proof (arr_sound _ _ _ _ SO Am) as Lm.
    destruct (get "support" d) as [v|] eqn:G; [|discriminate]. inversion B; subst. repeat split; [now apply PE|lia|].
    unfold addresses. cbn [o_loc o_scale o_aux o_support]. intros a [<-|[<-|[<-|I]]]; auto. exact (SO _ _ _ G I).
Qed.

(** Building a second object from the same dictionary, unchanged, gives an object that behaves like the first, and the first
    behaves as before. *)
Theorem C104_rebuild : forall k id id2 h d o h1 d1, sound h d -> build k id h d = (Ok o, h1, d1) ->
  exists o2 h2 d2, build k id2 h1 d1 = (Ok o2, h2, d2) /\
    same_behaviour (seen h2 o2) (seen h1 o) /\ same_behaviour (seen h2 o) (seen h1 o).
Proof.
  intros k id id2 h d o h1 d1 SO B.
  assert (X : exists o2 h2 d2, build k id2 h1 d1 = (Ok o2, h2, d2) /\ same_behaviour (seen h2 o2) (seen h1 o)).
  { destruct k; [eapply normal_again|eapply exp_again|eapply uniform_again|eapply delta_again]; eauto. }
  destruct X as [o2 [h2 [d2 [B2 H]]]]. exists o2, h2, d2. split; [exact B2|split; [exact H|]].
  destruct (built_sound _ _ _ _ _ _ _ SO B) as [_ [_ L]].
  pose proof (C104_entries _ _ _ _ _ _ _ B2) as [_ [_ E]].
  split.
  - apply same_parts; auto; apply E, L; cbn; auto.
  - unfold seen, support_now. cbn [b_support]. apply same_refs. intros a I. apply E, L. cbn. auto.
Qed.

(** Whatever is done to the arrays that existed before the call, a normal or exponential object keeps its density and its draws,
    and the support too unless it was given. *)
Theorem C104_edits_partial : forall k id h d o h1 d1 g, sound h d -> build k id h d = (Ok o, h1, d1) ->
  k = KNormal \/ k = KExp -> differ_below (length h) h1 g ->
  same_density_and_draws (seen g o) (seen h1 o) /\ (get "support" d = None -> same_behaviour (seen g o) (seen h1 o)).
Proof.
  intros k id h d o h1 d1 g SO B K [LG D].
  assert (LD : forall a, (length h <= a)%nat -> load g a = load h1 a).
  { intros a L. specialize (D a L). unfold load. rewrite <- !nth_default_eq. unfold nth_default. now rewrite D. }
  assert (F : (length h <= o_loc o)%nat /\ (length h <= o_scale o)%nat /\ (length h <= o_aux o)%nat /\
              (get "support" d = None -> forall a, In a (refs (o_support o)) -> (length h <= a)%nat)).
  { destruct K as [-> | ->]; cbn in B; [unfold build_normal in B|unfold build_exp in B].
    - destruct (arr "mean" d) as [m|]; [|discriminate]. destruct (arr "sigma" d) as [s|]; [|discriminate].
      cbv zeta in B. destruct (square _ _); [|discriminate].
      assert (Gd : forall n, get "support" (enter KNormal id n d) = get "support" d) by (intros; apply get_enter; cbn; intuition discriminate).
      rewrite Gd in B. destruct (get "support" d) as [v|] eqn:G.
      + rewrite Gd in B. destruct (Rltb _ _); [|discriminate]. inversion B; subst. cbn. repeat split; try lia. discriminate.
      + rewrite get_put_same in B. destruct (Rltb _ _); [|discriminate]. inversion B; subst. rewrite ?length_alloc. cbn [o_loc o_scale o_aux o_support refs].
        rewrite ?length_alloc. repeat split; try lia. intros _ a [<-|[]]. lia.
    - destruct (arr "mean" d) as [m|]; [|discriminate]. cbv zeta in B.
      assert (Gd : forall n, get "support" (enter KExp id n d) = get "support" d) by (intros; apply get_enter; cbn; intuition discriminate).
      rewrite Gd in B. destruct (get "support" d) as [v|] eqn:G.
      + rewrite Gd in B. inversion B; subst. cbn. repeat split; try lia. discriminate.
      + rewrite get_put_same in B. inversion B; subst. rewrite ?length_alloc. cbn [o_loc o_scale o_aux o_support refs].
        rewrite ?length_alloc. repeat split; try lia. intros _ a [<-|[]]. lia. }
  destruct F as [F1 [F2 [F3 F4]]].
  assert (DD : same_density_and_draws (seen g o) (seen h1 o)) by (apply same_parts; auto).
  split; [exact DD|]. intros N. split; [exact DD|]. unfold seen, support_now. cbn [b_support]. apply same_refs. intros a I. now apply LD, F4.
Qed.

(** After a first call, a second one with some entries assigned anew does what it would do with a dictionary that no constructor
    has seen, except for the default support of the normal and exponential classes. *)
Theorem C104_fresh_partial : forall k id id2 h d r h1 d1 ups g, build k id h d = (r, h1, d1) ->
  (k = KNormal \/ k = KExp -> get "support" (puts ups d) <> None) ->
  fst (build k id2 g (puts ups d1)) = fst (build k id2 g (puts ups d)).
Proof.
  intros k id id2 h d r h1 d1 ups g B K. pose proof (C104_entries _ _ _ _ _ _ _ B) as [E1 [E2 _]].
  assert (GK : forall key, ~ In key written -> arr key (puts ups d1) = arr key (puts ups d)).
  { intros key N. apply arr_get. destruct (puts_get ups key) as [o H]. rewrite !H. now rewrite (E1 key N). }
  assert (N1 : ~ In "mean"%string written) by (cbn; intuition discriminate).
  assert (N2 : ~ In "sigma"%string written) by (cbn; intuition discriminate).
  assert (N3 : ~ In "center"%string written) by (cbn; intuition discriminate).
  assert (N4 : ~ In "radius"%string written) by (cbn; intuition discriminate).
  pose proof (GK _ N1) as A1. pose proof (GK _ N2) as A2. pose proof (GK _ N3) as A3. pose proof (GK _ N4) as A4.
  assert (GE : forall k' n e, get "support" (enter k' id2 n e) = get "support" e) by (intros; apply get_enter; cbn; intuition discriminate).
  assert (GS : k <> KUniform -> forall v, get "support" (puts ups d) = Some v -> get "support" (puts ups d1) = Some v).
  { intros NU v. destruct (puts_get ups "support") as [o H]. rewrite !H. destruct o; [auto|]. intros G. now apply E2. }
  destruct k; cbn.
  - destruct (get "support" (puts ups d)) as [v|] eqn:G; [|now destruct (K (or_introl eq_refl))].
    unfold build_normal. rewrite A1, A2. destruct (arr "mean" (puts ups d)); [|reflexivity]. destruct (arr "sigma" (puts ups d)); [|reflexivity].
    cbv zeta. destruct (square _ _); [|reflexivity]. rewrite !GE, G, (GS ltac:(discriminate) _ eq_refl), !GE, G, (GS ltac:(discriminate) _ eq_refl).
    now destruct (Rltb _ _).
  - destruct (get "support" (puts ups d)) as [v|] eqn:G; [|now destruct (K (or_intror eq_refl))].
    unfold build_exp. rewrite A1. destruct (arr "mean" (puts ups d)); [|reflexivity].
    cbv zeta. now rewrite !GE, G, (GS ltac:(discriminate) _ eq_refl), !GE, G, (GS ltac:(discriminate) _ eq_refl).
  - unfold build_uniform. rewrite A3, A4. destruct (arr "center" (puts ups d)); [|reflexivity]. destruct (arr "radius" (puts ups d)); [|reflexivity].
    cbv zeta. now destruct (spread _ _).
  - unfold build_delta. rewrite A3. destruct (arr "center" (puts ups d)); [|reflexivity].
    destruct (get "support" (puts ups d)) as [v|] eqn:G; [now rewrite (GS ltac:(discriminate) _ eq_refl)|].
    assert (X : get "support" (puts ups d1) = None).
    { destruct (puts_get ups "support") as [o H]. rewrite H in *. destruct o; [discriminate|].
      cbn in B. unfold build_delta in B. destruct (arr "center" d); [|now inversion B; subst]. rewrite G in B. now inversion B; subst. }
    now rewrite X.
Qed.
End Build.

Lemma box_of_radius : forall c r, length r = length c -> box_volume (vsub c r) (vadd c r) = fold_right (fun x p => x * 2 * p) 1 r.
Proof.
  unfold vsub, vadd. induction c as [|x c IH]; intros [|y r] L; try discriminate; [reflexivity|].
  cbn [combine map fst snd box_volume fold_right]. rewrite IH by (now inversion L). ring.
Qed.
Lemma fold_repeat x n : fold_right (fun x p => x * 2 * p) 1 (repeat x n) = (x * 2) ^ n.
Proof. induction n as [|n IH]; [reflexivity|]. cbn [repeat fold_right pow]. now rewrite IH. Qed.
Lemma spread_length n r rad : spread n r = Ok rad -> length rad = n.
Proof.
  unfold spread. destruct (length r =? 1)%nat; [intros H; inversion H; apply repeat_length|].
  destruct (length r =? n)%nat eqn:E; [|discriminate]. intros H. inversion H; subst. now apply Nat.eqb_eq.
Qed.
Lemma spread_volume c r rad : spread (length c) r = Ok rad -> box_volume (vsub c rad) (vadd c rad) = volume (length c) r.
Proof.
  intros S. rewrite box_of_radius by (now apply spread_length with (r := r)). unfold spread in S. unfold volume.
  destruct (length r =? 1)%nat; [inversion S; apply fold_repeat|].
  destruct (length r =? length c)%nat; [now inversion S|discriminate].
Qed.
Lemma in_box_test : forall lo hi x, inside_box lo hi x ->
  forallb (fun p => Rltb (fst (fst p)) (snd p) && Rleb (snd p) (snd (fst p))) (combine (combine lo hi) x) = true.
Proof.
  induction lo as [|a lo IH]; intros [|b hi] [|y x] [L1 [L2 H]]; try discriminate; [reflexivity|].
  cbn [combine forallb fst snd]. pose proof (H 0%nat ltac:(cbn; lia)) as H0. cbn in H0.
  rewrite IH, andb_true_r.
  - unfold Rltb, Rleb. destruct (Rlt_dec a y); [|lra]. destruct (Rle_dec y b); [reflexivity|lra].
  - split; [now inversion L1|split; [now inversion L2|]]. intros i I. exact (H (S i) ltac:(cbn; lia)).
Qed.

(** The level of a uniform density is fixed when the object is built; the region is that of the moment of the call. *)
Theorem C104_uniform_level : forall det inv id h d o h1 d1 g, sound h d -> build det inv KUniform id h d = (Ok o, h1, d1) ->
  forall x, inside_box (hd [] (fst (b_draws (seen g o)))) (hd [] (snd (b_draws (seen g o)))) x ->
  b_density (seen g o) x = Fin (1 / box_volume (hd [] (fst (b_draws (seen h1 o)))) (hd [] (snd (b_draws (seen h1 o))))).
Proof.
  intros det inv id h d o h1 d1 g SO B x I. pose proof (C104_entries _ _ _ _ _ _ _ _ _ B) as [_ [_ E]]. cbn in B. unfold build_uniform in B.
  destruct (arr "center" d) as [m|] eqn:Am; [|discriminate]. destruct (arr "radius" d) as [s|] eqn:As; [|discriminate].
  pose proof (E _ (arr_sound _ _ _ _ SO Am)) as Pm. pose proof (E _ (arr_sound _ _ _ _ SO As)) as Ps. cbv zeta in B.
  destruct (spread _ _) as [rad|] eqn:S; [|discriminate]. inversion B. subst o. clear B.
  cbn [seen b_draws b_density draws_now density_now o_kind fst snd hd] in *. rewrite in_box_test by exact I. cbn [o_const nth].
  unfold low_now, high_now. cbn [o_loc o_scale].
  rewrite H1. unfold row_at in *. rewrite Pm, Ps. rewrite S. now rewrite (spread_volume _ _ _ S).
Qed.

(** In-place edit of the radius: the density of the object built earlier has mass two over the region it now draws from. *)
Theorem C104_uniform_refuted : exists h d o h1 d1 a c level, forall det inv,
  sound h d /\ build det inv KUniform 0 h d = (Ok o, h1, d1) /\ (a < length h)%nat /\
  (let g := store h1 a c in
   let lo := hd [] (fst (b_draws (seen g o))) in let hi := hd [] (snd (b_draws (seen g o))) in
   (forall x, inside_box lo hi x -> b_density (seen g o) x = Fin level) /\ level * box_volume lo hi = 2) /\
  level * box_volume (hd [] (fst (b_draws (seen h1 o)))) (hd [] (snd (b_draws (seen h1 o)))) = 1.
Proof.
  set (h := [[[0]]; [[1]]] : heap). set (d := [("center", PArr 0); ("radius", PArr 1)]%string : dict).
  assert (B : forall det inv, exists o h1 d1, build det inv KUniform 0 h d = (Ok o, h1, d1)) by (intros; do 3 eexists; reflexivity).
  exists h, d, (mkObj KUniform 1 (PPair 2 3) 0 1 1 [1 / volume 1 [1]]), [[[0]]; [[1]]; [[0 - 1]]; [[0 + 1]]].
  eexists. exists 1%nat, [[2]], (1 / 2). intros det inv.
  assert (S0 : sound h d).
  { intros k v a. unfold d. cbn [get]. destruct (String.eqb k "center"); [intros H; inversion H; subst; intros [<-|[]]; cbn; lia|].
    destruct (String.eqb k "radius"); [intros H; inversion H; subst; intros [<-|[]]; cbn; lia|discriminate]. }
  split; [exact S0|]. split; [reflexivity|]. split; [cbn; lia|].
  split.
  - split.
    + intros x I. cbn [seen b_draws b_density draws_now density_now o_kind fst snd hd] in *. rewrite in_box_test by exact I. cbn. f_equal. field.
    + cbn. field.
  - cbn. field.
Qed.

(** The support of the first object is that of the second: its own mean lies outside. With a dictionary of its own it does not. *)
Theorem C104_support_refuted : forall det inv k, 0 < det (mat_of [[1]]) -> k = KNormal \/ k = KExp ->
  exists h d o h1 d1 ups o2 h2 d2 o3 h3 d3,
  sound h d /\ build det inv k 0 h d = (Ok o, h1, d1) /\ build det inv k 1 h1 (puts ups d1) = (Ok o2, h2, d2) /\
  build det inv k 1 h1 (puts ups d) = (Ok o3, h3, d3) /\
  same_density_and_draws (seen h2 o2) (seen h3 o3) /\
  (let mean := hd [] (fst (b_draws (seen h2 o2))) in
   ~ within (nth 0 (b_support (seen h2 o2)) []) (nth 1 (b_support (seen h2 o2)) []) mean /\
   within (nth 0 (b_support (seen h3 o3)) []) (nth 1 (b_support (seen h3 o3)) []) mean).
Proof.
  intros det inv k P K.
  set (h := [[[1]]; [[1]]; [[100]]] : heap). set (d := [("mean", PArr 0); ("sigma", PArr 1)]%string : dict).
  assert (S0 : sound h d).
  { intros key v a. unfold d. cbn [get]. destruct (String.eqb key "mean"); [intros H; inversion H; subst; intros [<-|[]]; cbn; lia|].
    destruct (String.eqb key "sigma"); [intros H; inversion H; subst; intros [<-|[]]; cbn; lia|discriminate]. }
  assert (T : Rltb 0 (det (mat_of [[1]])) = true) by (unfold Rltb; destruct (Rlt_dec _ _); [reflexivity|lra]).
  exists h, d. destruct K as [-> | ->].
  - assert (T1 : Rltb 0 (det (mat_of (load h 1))) = true) by exact T.
    do 3 eexists. exists [("mean"%string, PArr 2)]. do 6 eexists.
    split; [exact S0|]. split; [cbn; unfold build_normal; cbn -[Rltb six_sds mat_of]; rewrite T; reflexivity|].
    split; [cbn; unfold build_normal; cbn -[Rltb six_sds mat_of]; rewrite T; reflexivity|].
    split; [cbn; unfold build_normal; cbn -[Rltb six_sds mat_of]; rewrite T; reflexivity|].
    split; [apply same_parts; reflexivity|]. cbn. rewrite sqrt_1. split.
    + intros [_ [_ H]]. specialize (H 0%nat ltac:(cbn; lia)). cbn in H. lra.
    + repeat split; auto; destruct i; cbn in *; try lia; lra.
  - do 3 eexists. exists [("mean"%string, PArr 2)]. do 6 eexists.
    split; [exact S0|]. split; [reflexivity|]. split; [reflexivity|]. split; [reflexivity|]. split; [apply same_parts; reflexivity|].
    cbn. split.
    + intros [_ [_ H]]. specialize (H 0%nat ltac:(cbn; lia)). cbn in H. lra.
    + repeat split; auto; destruct i; cbn in *; try lia; lra.
Qed.

(** A call that fails leaves its default support behind: with the variance corrected, the normal object built next has a support
    without volume. *)
Theorem C104_failed_refuted : forall det inv, det (mat_of [[0]]) <= 0 -> 0 < det (mat_of [[1]]) ->
  exists h d h1 d1 ups o2 h2 d2, sound h d /\ build det inv KNormal 0 h d = (Raise AssertionError, h1, d1) /\
  build det inv KNormal 1 h1 (puts ups d1) = (Ok o2, h2, d2) /\
  box_volume (nth 0 (b_support (seen h2 o2)) []) (nth 1 (b_support (seen h2 o2)) []) = 0.
Proof.
  intros det inv Z P.
  set (h := [[[1]]; [[0]]; [[1]]] : heap). set (d := [("mean", PArr 0); ("sigma", PArr 1)]%string : dict).
  assert (S0 : sound h d).
  { intros key v a. unfold d. cbn [get]. destruct (String.eqb key "mean"); [intros H; inversion H; subst; intros [<-|[]]; cbn; lia|].
    destruct (String.eqb key "sigma"); [intros H; inversion H; subst; intros [<-|[]]; cbn; lia|discriminate]. }
  assert (T : Rltb 0 (det (mat_of [[1]])) = true) by (unfold Rltb; destruct (Rlt_dec _ _); [reflexivity|lra]).
  assert (F : Rltb 0 (det (mat_of [[0]])) = false) by (unfold Rltb; destruct (Rlt_dec _ _); [lra|reflexivity]).
  exists h, d. do 2 eexists. exists [("sigma"%string, PArr 2)]. do 3 eexists.
  split; [exact S0|]. split; [cbn; unfold build_normal; cbn -[Rltb six_sds mat_of]; rewrite F; reflexivity|].
  split; [cbn; unfold build_normal; cbn -[Rltb six_sds mat_of]; rewrite T; reflexivity|].
  cbn. rewrite sqrt_0. ring.
Qed.

(** The Metropolis-Hastings and tree samplers put their own name into the dictionary: the next sampler built from it carries it. *)
Theorem C104_name_refuted : forall k, k = SMetropolis \/ k = STree ->
  exists d, sampler_name SOther d = PStr "mine" /\ sampler_name SOther (sampler_enter k d) <> PStr "mine".
Proof.
  intros k K. exists [("name"%string, PStr "mine")]. split; [reflexivity|]. destruct K as [-> | ->]; cbn; discriminate.
Qed.

(** Examples: a plane normal object with default support; its dictionary afterwards. *)
Definition ex_heap : heap := [[[1; 2]]; [[1; 0]; [0; 4]]].
Definition ex_dict : dict := [("mean", PArr 0); ("sigma", PArr 1); ("note", PStr "kept")]%string.
Definition ex_det (m : rmat) : R := m 0%nat 0%nat * m 1%nat 1%nat - m 0%nat 1%nat * m 1%nat 0%nat.
Definition ex_inv (m : rmat) : rmat := m.
Lemma ex_sound : sound ex_heap ex_dict.
Proof.
  intros k v a. unfold ex_dict. cbn [get]. destruct (String.eqb k "mean"); [intros H; inversion H; subst; intros [<-|[]]; cbn; lia|].
  destruct (String.eqb k "sigma"); [intros H; inversion H; subst; intros [<-|[]]; cbn; lia|].
  destruct (String.eqb k "note"); [intros H; inversion H; subst; intros []|discriminate].
Qed.
Lemma ex_built : exists o h1 d1, build ex_det ex_inv KNormal 0 ex_heap ex_dict = (Ok o, h1, d1) /\
  map fst d1 = ["mean"; "sigma"; "note"; "type"; "family"; "likelihood_f"; "loglikelihood_f"; "dims"; "support"]%string /\ length h1 = 6%nat /\ get "support" d1 <> None.
Proof.
  assert (T : Rltb 0 (ex_det (mat_of [[1; 0]; [0; 4]])) = true).
  { unfold Rltb. destruct (Rlt_dec _ _) as [|n]; [reflexivity|]. exfalso. apply n. unfold ex_det, mat_of. cbn. lra. }
  do 3 eexists. split; [cbn; unfold build_normal; cbn -[Rltb ex_det six_sds mat_of]; rewrite T; reflexivity|]. split; [reflexivity|]. split; [reflexivity|cbn; discriminate].
Qed.
Example C104_entries_example : exists o h1 d1, build ex_det ex_inv KNormal 0 ex_heap ex_dict = (Ok o, h1, d1) /\
  get "note" d1 = Some (PStr "kept") /\ get "support" ex_dict = None /\ get "support" d1 <> None.
Proof.
  destruct ex_built as [o [h1 [d1 [B [_ [_ G]]]]]]. exists o, h1, d1. split; [exact B|].
  destruct (C104_entries _ _ _ _ _ _ _ _ _ B) as [E _]. split; [rewrite E; [reflexivity|cbn; intuition discriminate]|]. now split.
Qed.
Example C104_rebuild_example : exists o h1 d1 o2 h2 d2, build ex_det ex_inv KNormal 0 ex_heap ex_dict = (Ok o, h1, d1) /\
  build ex_det ex_inv KNormal 1 h1 d1 = (Ok o2, h2, d2) /\ same_behaviour (seen h2 o2) (seen h1 o).
Proof.
  destruct ex_built as [o [h1 [d1 [B _]]]]. destruct (C104_rebuild _ _ _ _ 1%nat _ _ _ _ _ ex_sound B) as [o2 [h2 [d2 [B2 [H _]]]]].
  exists o, h1, d1, o2, h2, d2. auto.
Qed.
Example C104_edits_partial_example : exists o h1 d1, build ex_det ex_inv KNormal 0 ex_heap ex_dict = (Ok o, h1, d1) /\
  differ_below (length ex_heap) h1 (store h1 0 [[7; 7]]) /\ same_behaviour (seen (store h1 0 [[7; 7]]) o) (seen h1 o).
Proof.
  destruct ex_built as [o [h1 [d1 [B [_ [L _]]]]]]. exists o, h1, d1. split; [exact B|].
  assert (D : differ_below (length ex_heap) h1 (store h1 0 [[7; 7]])).
  { destruct h1 as [|x h1]; [discriminate|]. split; [reflexivity|]. intros [|a] I; [cbn in I; lia|reflexivity]. }
  split; [exact D|]. eapply C104_edits_partial; eauto using ex_sound.
Qed.
Example C104_fresh_partial_example : exists h d r h1 d1, build ex_det ex_inv KUniform 0 h d = (r, h1, d1) /\
  fst (build ex_det ex_inv KUniform 1 h1 (puts [("center"%string, PArr 2)] d1)) = fst (build ex_det ex_inv KUniform 1 h1 (puts [("center"%string, PArr 2)] d)) /\
  exists o, fst (fst (build ex_det ex_inv KUniform 1 h1 (puts [("center"%string, PArr 2)] d))) = Ok o.
Proof.
  exists [[[0]]; [[1]]; [[5]]], [("center", PArr 0); ("radius", PArr 1)]%string.
  destruct (build ex_det ex_inv KUniform 0 [[[0]]; [[1]]; [[5]]] [("center", PArr 0); ("radius", PArr 1)]%string) as [[r h1] d1] eqn:B.
  exists r, h1, d1. split; [reflexivity|].
  split; [apply (C104_fresh_partial _ _ _ _ _ _ _ _ _ _ _ _ B); intros [H|H]; discriminate|].
  inversion B; subst. eexists. reflexivity.
Qed.
Example C104_uniform_level_example : exists o h1 d1, sound [[[0]]; [[1]]] [("center", PArr 0); ("radius", PArr 1)]%string /\
  build ex_det ex_inv KUniform 0 [[[0]]; [[1]]] [("center", PArr 0); ("radius", PArr 1)]%string = (Ok o, h1, d1) /\
  inside_box (hd [] (fst (b_draws (seen h1 o)))) (hd [] (snd (b_draws (seen h1 o)))) [1 / 2].
Proof.
  do 3 eexists. split; [|split; [reflexivity|]].
  - intros k v a. cbn [get]. destruct (String.eqb k "center"); [intros H; inversion H; subst; intros [<-|[]]; cbn; lia|].
    destruct (String.eqb k "radius"); [intros H; inversion H; subst; intros [<-|[]]; cbn; lia|discriminate].
  - cbn. repeat split; auto; destruct i; cbn in *; try lia; lra.
Qed.
Example C104_support_refuted_example : 0 < (fun m : rmat => m 0%nat 0%nat) (mat_of [[1]]).
Proof. cbn. lra. Qed.
Example C104_failed_refuted_example : (fun m : rmat => m 0%nat 0%nat) (mat_of [[0]]) <= 0 /\ 0 < (fun m : rmat => m 0%nat 0%nat) (mat_of [[1]]).
Proof. cbn. lra. Qed.

Print Assumptions C104_entries.
Print Assumptions C104_rebuild.
Print Assumptions C104_edits_partial.
Print Assumptions C104_fresh_partial.
Print Assumptions C104_uniform_level.
Print Assumptions C104_uniform_refuted.
Print Assumptions C104_support_refuted.
Print Assumptions C104_failed_refuted.
Print Assumptions C104_name_refuted.
