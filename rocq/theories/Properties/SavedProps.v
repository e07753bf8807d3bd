(** Property C93: a target saved with to_dict is loaded back as the same target. *)
From Coq Require Import String.
From Coq Require Import List Bool Arith Lia QArith Reals Qreals Lra.
Import ListNotations.
From Verif Require Import Prelude.Py Prelude.QBase Prelude.RBase Model.Normal Model.Mixture Model.Gmm Model.Loader Model.Saved.
Open Scope Q_scope.

Lemma tolists_ok l t : tolists l = Ok t -> t = map snd l.
Proof.
  revert t. induction l as [|[[] x] l IH]; simpl; intros t H; try discriminate; [congruence|].
  destruct (tolists l) as [u|]; [|discriminate]. injection H as <-. rewrite <- (IH u eq_refl). reflexivity.
Qed.
Lemma plain_fail l t : l <> [] -> tolists (plain_rows l) = Ok t -> False.
Proof. destruct l as [|x l]; [congruence|]. simpl. discriminate. Qed.
Lemma plain_raises l : l <> [] -> tolists (plain_rows l) = Raise AttributeError.
Proof. destruct l as [|x l]; [congruence|]. reflexivity. Qed.
Lemma prefixed_unknown c : resolve ("distributions." ++ class_name c) = Raise AttributeError.
Proof. destruct c; vm_compute; reflexivity. Qed.
Lemma class_known c : resolve (class_name c) = Ok c.
Proof. destruct c; vm_compute; reflexivity. Qed.
Lemma default_finite n : forallb finite_fl (default_weights n) = true.
Proof. unfold default_weights. induction n at 2; simpl; auto. Qed.

Section Props.
Variable det : rmat -> R.
Variable inv : rmat -> rmat.

(** The entry that to_dict makes names the class with a prefix under which the loader does not find it: whatever the object. *)
Theorem C93_never_loads :
  forall d name batch ns ev sv id b, made det inv d -> to_dict name batch ns ev d = Ok sv ->
  exists b', load_benchmark (Ok [entry_of det inv id sv]) b = Failed ValueError b' /\ b_targets b' = [].
Proof.
  intros d name batch ns ev sv id b _ T. unfold to_dict in T. destruct (tolists (d_support d)) as [sup|]; [|discriminate]. cbn [bind] in T.
  match type of T with bind ?g _ = _ => destruct g as [g'|]; [|discriminate] end. injection T as <-.
  unfold load_benchmark, add_targets, entry_of, add_target. cbn [te_nsamples te_eval te_batch te_dist te_name sv_nsamples sv_eval sv_batch sv_name].
  assert (E : forall sv0, sv_type sv0 = ("distributions." ++ class_name (d_cls d))%string -> eval_call det inv sv0 = Raise AttributeError).
  { intros sv0 H. unfold eval_call. rewrite H, prefixed_unknown. reflexivity. }
  rewrite E by reflexivity. cbn [bind]. eexists. split; [reflexivity|]. reflexivity.
Qed.

(** C93 with the class name alone as the type (full statement: with the entry as to_dict makes it, refuted below): a
    Gaussian mixture with finite weights comes back with the same density, log density, dimension and support, and the benchmark
    lists the saved evaluation parameters with it. *)
Theorem C93_gmm_partial :
  forall p sup d name batch ns ev sv id b, build_gmm det inv p sup = Ok d -> to_dict name batch ns ev d = Ok sv ->
  (forall h w, gp_weights p = Some (h, w) -> forallb finite_fl w = true) ->
  exists d' q g q' g', eval_call det inv (without_prefix d sv) = Ok d' /\ d_gmm d = Some (q, g) /\ d_gmm d' = Some (q', g') /\
    (forall x, gmm_prob g' x = gmm_prob g x /\ gmm_log_prob g' x = gmm_log_prob g x) /\ d_dims d' = d_dims d /\ support_rows d' = support_rows d /\
    forall lo hi, support_rows d = Ok (lo, hi) ->
    exists b', load_benchmark (Ok [entry_of det inv id (without_prefix d sv)]) b = Done b' /\
      b_targets b' = [(mkTdist id (d_dims d) lo hi, name)] /\ b_ndims b' = [d_dims d] /\ b_nsamples b' = [ns] /\ b_eval b' = [ev] /\ b_batch b' = [batch].
Proof.
  intros p sup d name batch ns ev sv id b B T F. unfold build_gmm in B.
  destruct (gmm_new det inv (real_rows (gp_means p)) (real_rows (gp_sigmas p)) (option_map snd (gp_weights p))) as [g|] eqn:N; [|discriminate].
  cbn [bind] in B. injection B as <-. unfold to_dict in T. cbn [d_support d_gmm d_cls d_dims] in T.
  destruct (tolists sup) as [su|] eqn:Ts; [|discriminate]. destruct (tolists (gp_means p)) as [ms|] eqn:Tm; [|discriminate].
  destruct (tolists (gp_sigmas p)) as [ss|] eqn:Tc; [|discriminate]. cbn [bind] in T.
  apply tolists_ok in Ts, Tm, Tc.
  assert (W : exists ws, sv_gmm sv = Some (ms, ss, ws) /\ forallb finite_fl ws = true /\
            gmm_new det inv (real_rows (gp_means p)) (real_rows (gp_sigmas p)) (Some ws) = Ok g /\
            sv = mkSaved name ("distributions." ++ class_name GaussianMixture) batch ns ev (g_dims g) su (Some (ms, ss, ws))).
  { destruct (gp_weights p) as [[[] w]|] eqn:Ew; cbn [bind] in T; try discriminate; injection T as <-; eexists; (split; [reflexivity|]).
    - split; [apply (F Np w eq_refl)|]. split; [exact N|]. reflexivity.
    - split; [apply default_finite|]. split; [|reflexivity]. rewrite <- N. unfold gmm_new. cbn [option_map].
      unfold real_rows. rewrite map_length. destruct (map _ (gp_means p)); reflexivity. }
  destruct W as (ws & Eg & Fw & N' & ->).
  assert (Rr : forall l, real_rows (plain_rows (map snd l)) = real_rows l).
  { intros l. unfold real_rows, plain_rows. rewrite !map_map. apply map_ext. intros [h x]. reflexivity. }
  set (sv := mkSaved _ _ _ _ _ _ _ _).
  assert (Ec : eval_call det inv (without_prefix (mkDist GaussianMixture (g_dims g) sup (Some (p, g))) sv) =
               Ok (mkDist GaussianMixture (g_dims g) (plain_rows su) (Some (mkGp (plain_rows ms) (plain_rows ss) (Some (Plain, ws)), g)))).
  { unfold eval_call, without_prefix. cbn [sv_type d_cls]. rewrite class_known. cbn [bind sv_gmm sv]. rewrite Fw. cbn [negb build_fixed].
    unfold build_gmm. cbn [gp_means gp_sigmas gp_weights option_map snd sv_support]. rewrite Tm, Tc, !Rr, N'. reflexivity. }
  assert (Su : support_rows (mkDist GaussianMixture (g_dims g) (plain_rows su) (Some (mkGp (plain_rows ms) (plain_rows ss) (Some (Plain, ws)), g))) =
               support_rows (mkDist GaussianMixture (g_dims g) sup (Some (p, g)))).
  { unfold support_rows. cbn [d_support d_dims]. rewrite Ts. unfold plain_rows. rewrite !map_map. reflexivity. }
  exists (mkDist GaussianMixture (g_dims g) (plain_rows su) (Some (mkGp (plain_rows ms) (plain_rows ss) (Some (Plain, ws)), g))).
  do 4 eexists. split; [exact Ec|]. split; [reflexivity|]. split; [reflexivity|]. split; [auto|]. split; [reflexivity|].
  split; [exact Su|]. intros lo hi Sr. cbn [d_dims].
  unfold load_benchmark, add_targets, entry_of, add_target. cbn [te_nsamples te_eval te_batch te_dist te_name].
  rewrite Ec. cbn [bind]. rewrite Su, Sr. cbn [d_dims]. eexists. split; [reflexivity|]. cbn. auto 10.
Qed.

(** The loaded mixture holds Python lists and cannot be saved again. *)
Theorem C93_save_again :
  forall p sup d name batch ns ev sv d' name' batch' ns' ev', build_gmm det inv p sup = Ok d -> to_dict name batch ns ev d = Ok sv ->
  eval_call det inv (without_prefix d sv) = Ok d' -> to_dict name' batch' ns' ev' d' = Raise AttributeError.
Proof.
  intros p sup d name batch ns ev sv d' name' batch' ns' ev' B T L. unfold build_gmm in B.
  destruct (gmm_new det inv (real_rows (gp_means p)) (real_rows (gp_sigmas p)) (option_map snd (gp_weights p))) as [g|] eqn:N; [|discriminate].
  cbn [bind] in B. injection B as <-. unfold to_dict in T. cbn [d_support d_gmm d_cls d_dims] in T.
  destruct (tolists sup) as [su|] eqn:Ts; [|discriminate]. destruct (tolists (gp_means p)) as [ms|] eqn:Tm; [|discriminate].
  destruct (tolists (gp_sigmas p)) as [ss|] eqn:Tc; [|discriminate]. cbn [bind] in T.
  match type of T with bind ?e _ = _ => destruct e as [[[[ms1 ss1] ws]|]|] eqn:Eg; try discriminate end.
  2:{ destruct (gp_weights p) as [[[] w]|]; discriminate. }
  assert (ms1 = ms) as -> by (destruct (gp_weights p) as [[[] w]|]; congruence).
  cbn [bind] in T. injection T as <-.
  assert (Mn : ms <> []).
  { apply tolists_ok in Tm. subst ms. destruct (gp_means p); [discriminate|]. discriminate. }
  unfold eval_call, without_prefix in L. cbn [sv_type d_cls] in L. rewrite class_known in L. cbn [bind sv_gmm] in L.
  destruct (negb (forallb finite_fl ws)); [discriminate|]. cbn [build_fixed] in L. unfold build_gmm in L.
  match type of L with bind ?e _ = _ => destruct e as [g'|]; [|discriminate] end. cbn [bind sv_support] in L. injection L as <-.
  unfold to_dict. cbn [d_support d_gmm gp_means]. destruct su as [|x su].
  - cbn [tolists plain_rows map bind]. rewrite plain_raises by auto. reflexivity.
  - reflexivity.
Qed.

(** The classes without parameters are saved, and come back as they were (with the class name alone as the type). *)
Theorem C93_fixed_partial :
  forall c d name batch ns ev, build_fixed c = Some d ->
  exists sv, to_dict name batch ns ev d = Ok sv /\ eval_call det inv (without_prefix d sv) = Ok d /\
    exists lo hi, support_rows d = Ok (lo, hi) /\ length lo = d_dims d /\ length hi = d_dims d.
Proof.
  intros c d name batch ns ev B.
  destruct c; try discriminate; injection B as <-; eexists; (split; [reflexivity|]; split; [vm_compute; reflexivity|]);
    eexists; eexists; (split; [vm_compute; reflexivity|]; split; reflexivity).
Qed.

(** Every other class loses a parameter its constructor insists on, and cannot be built from what was saved. *)
Theorem C93_parameters_lost :
  forall c dims sup name batch ns ev sv, build_fixed c = None -> c <> GaussianMixture -> to_dict name batch ns ev (mkDist c dims sup None) = Ok sv ->
  (exists k, In k (needs c) /\ ~ In k (saved_keys c)) /\ eval_call det inv (without_prefix (mkDist c dims sup None) sv) = Raise AssertionError.
Proof.
  intros c dims sup name batch ns ev sv B Ng T. unfold to_dict in T. cbn [d_support d_gmm d_cls d_dims] in T.
  destruct (tolists sup) as [su|] eqn:Ts; [|discriminate]. cbn [bind] in T. injection T as <-. split.
  - destruct c; try discriminate; try congruence.
    all: match goal with |- exists k, In k (needs ?c) /\ _ => exists (hd ""%string (needs c)) end; split; [left; reflexivity|];
         simpl; intros H; repeat destruct H as [H|H]; try discriminate; auto.
  - unfold eval_call, without_prefix. cbn [sv_type d_cls]. rewrite class_known. cbn [bind sv_gmm]. rewrite B. destruct c; try reflexivity; congruence.
Qed.
End Props.
Print Assumptions C93_never_loads.
Print Assumptions C93_gmm_partial.
Print Assumptions C93_save_again.
Print Assumptions C93_fixed_partial.
Print Assumptions C93_parameters_lost.

(** A mixture of one normal on the line, as in the files shipped but with numpy arrays. *)
Definition line_det (c : rmat) : R := c 0%nat 0%nat.
Definition line_inv (c : rmat) : rmat := fun _ _ => (/ c 0%nat 0%nat)%R.
Definition line_params : gmm_params := mkGp [(Np, [1 # 2])] [(Np, [2])] (Some (Np, [Fin 1])).
Definition line_support : rows := [(Np, [-2]); (Np, [3])].
Lemma line_made : exists d, build_gmm line_det line_inv line_params line_support = Ok d /\ d_dims d = 1%nat /\ d_support d = line_support /\ exists g, d_gmm d = Some (line_params, g).
Proof.
  unfold build_gmm, gmm_new, line_params, real_rows. cbn [gp_means gp_sigmas gp_weights map snd gmm_components].
  unfold gmm_component. cbn [length Nat.eqb]. unfold normal_new, line_det, diag_of. destruct (Nat.eq_dec 0 0) as [_|N]; [|congruence]. cbn [nth].
  unfold Rltb. destruct (Rlt_dec 0 (Q2R 2)) as [_|N].
  - cbn [bind option_map snd]. eexists. split; [reflexivity|]. split; [reflexivity|]. split; [reflexivity|]. eexists. reflexivity.
  - exfalso. apply N. unfold Q2R. simpl. lra.
Qed.
Example C93_example :
  exists d sv, build_gmm line_det line_inv line_params line_support = Ok d /\ to_dict "gmm" 32 1000 2000 d = Ok sv /\
  (forall h w, gp_weights line_params = Some (h, w) -> forallb finite_fl w = true) /\ support_rows d = Ok ([-2], [3]) /\
  (exists d', eval_call line_det line_inv (without_prefix d sv) = Ok d') /\
  build_fixed Banana <> None /\ build_fixed MultivariateNormal = None /\ exists s, to_dict "n" 1 1 1 (mkDist MultivariateNormal 1 line_support None) = Ok s.
Proof.
  destruct line_made as (d & B & Dd & Ds & g & Dg).
  assert (T : exists sv, to_dict "gmm" 32 1000 2000 d = Ok sv).
  { unfold to_dict. rewrite Ds, Dg. eexists. reflexivity. }
  destruct T as (sv & T).
  assert (W : forall h w, gp_weights line_params = Some (h, w) -> forallb finite_fl w = true) by (intros h w H; injection H as <- <-; reflexivity).
  destruct (C93_gmm_partial line_det line_inv _ _ _ _ _ _ _ _ 0%nat bench_new B T W) as (d' & _ & _ & _ & _ & E & _).
  exists d, sv. split; [exact B|]. split; [exact T|]. split; [exact W|]. split.
  { unfold support_rows. rewrite Ds, Dd. reflexivity. }
  split; [exists d'; exact E|]. split; [discriminate|]. split; [reflexivity|]. eexists. reflexivity.
Qed.
Theorem C93_saved_target_refuted :
  exists det inv d sv b', made det inv d /\ d_cls d = GaussianMixture /\ to_dict "gmm" 32 1000 2000 d = Ok sv /\
  load_benchmark (Ok [entry_of det inv 0 sv]) bench_new = Failed ValueError b' /\ b_targets b' = [].
Proof.
  destruct C93_example as (d & sv & B & T & _). assert (Md : made line_det line_inv d) by (eapply made_gmm; exact B).
  destruct (C93_never_loads line_det line_inv d _ _ _ _ sv 0 bench_new Md T) as (b' & L & E).
  exists line_det, line_inv, d, sv, b'. split; [exact Md|]. split; [|auto].
  unfold build_gmm in B. match type of B with bind ?e _ = _ => destruct e; [|discriminate] end. injection B as <-. reflexivity.
Qed.
Print Assumptions C93_saved_target_refuted.
