(** C17-C20: Kullback-Leibler and Jensen-Shannon divergences. *)
From Coq Require Import List Bool Arith Lia Reals Lra.
Import ListNotations.
From Verif Require Import Prelude.Py Prelude.QBase Prelude.RBase Model.Divergence Spec.DivergenceSpec Spec.DensitySpec
  Proofs.DivergenceProofs.
Open Scope R_scope.

(** From log densities (numbers or -infinity) with a common support point: the reported value is the
    textbook divergence on the common support; it is not negative, and zero exactly for proportional
    densities. *)
Theorem C17_kl_divergence : forall lp lq, Forall log_value lp -> Forall log_value lq ->
  let p := map density_of lp in let q := map density_of lq in
  common p q <> [] ->
  exists v, kl_value lp lq = Ok (Fin v) /\ v = kl_div p q /\ 0 <= v /\ (v = 0 <-> proportional p q).
Proof.
  intros lp lq P Q p q N. exists (kl_div p q). split.
  - apply kl_log_value; auto. intros ->. now apply N.
  - split; [reflexivity|]. now apply kl_div_facts.
Qed.

(** The density entry point sums to the same number. *)
Theorem C17_entry_points_agree : forall lp lq, Forall log_value lp -> Forall log_value lq ->
  let p := map density_of lp in let q := map density_of lq in
  common p q <> [] ->
  exists v r, kl_value lp lq = Ok (Fin v) /\ kl_from_probs (map Fin p) (map Fin q) = Ok r /\ kl_total r = Fin v.
Proof.
  intros lp lq P Q p q N. destruct (kl_probs_value p q) as (l & E & S1); auto.
  { intros E. rewrite E in N. now apply N. }
  exists (kl_div p q), (KlArray l). split; [|auto]. apply kl_log_value; auto. intros ->. now apply N.
Qed.

(** Rescaling either density changes nothing. *)
Theorem C17_scale_invariant : forall p q a b, common p q <> [] -> 0 < a -> 0 < b ->
  exists r s v, kl_from_probs (map Fin p) (map Fin q) = Ok r /\
    kl_from_probs (map Fin (map (Rmult a) p)) (map Fin (map (Rmult b) q)) = Ok s /\
    kl_total r = Fin v /\ kl_total s = Fin v.
Proof.
  intros p q a b N A B. assert (NP : p <> []) by (intros ->; now apply N).
  destruct (kl_probs_value p q NP N) as (l & E & S1).
  destruct (kl_probs_value (map (Rmult a) p) (map (Rmult b) q)) as (l' & E' & S2).
  - destruct p; [congruence|discriminate].
  - rewrite common_scale by auto. now apply map_nonnil.
  - exists (KlArray l), (KlArray l'), (kl_div p q). repeat (split; [assumption|]). cbn [kl_total]. rewrite S2. f_equal.
    unfold kl_div. rewrite common_scale by auto. now rewrite rescaled_scale by (auto; apply common_pos).
Qed.

Example C17_example : Forall log_value [Fin 0; NInf; Fin (-1)] /\ Forall log_value [Fin 1; Fin 2; Fin 0] /\
  common (map density_of [Fin 0; NInf; Fin (-1)]) (map density_of [Fin 1; Fin 2; Fin 0]) <> [].
Proof.
  split; [repeat constructor|]. split; [repeat constructor|]. simpl.
  destruct (Rlt_dec 0 (exp 0)) as [|N]; [|exfalso; apply N, exp_pos].
  destruct (Rlt_dec 0 (exp 1)) as [|N]; [discriminate|exfalso; apply N, exp_pos].
Qed.

(** Disjoint supports: the log-density entry point, which is the reported one, always gives zero ... *)
Theorem C18_disjoint_zero_refuted : exists lp lq, Forall log_value lp /\ Forall log_value lq /\ lp <> [] /\
  common (map density_of lp) (map density_of lq) = [] /\ kl_value lp lq = Ok (Fin 0).
Proof.
  exists [Fin 0; NInf], [NInf; Fin 0].
  assert (N : common (map density_of [Fin 0; NInf]) (map density_of [NInf; Fin 0]) = []).
  { simpl. destruct (Rlt_dec 0 (exp 0)), (Rlt_dec 0 0); try lra; reflexivity. }
  split; [repeat constructor|]. split; [repeat constructor|]. split; [discriminate|]. split; [exact N|].
  apply kl_log_disjoint; [discriminate|repeat constructor|repeat constructor|exact N].
Qed.

(** ... whatever the two densities are. *)
Theorem C18_disjoint_always_zero : forall lp lq, lp <> [] -> Forall log_value lp -> Forall log_value lq ->
  common (map density_of lp) (map density_of lq) = [] -> kl_value lp lq = Ok (Fin 0).
Proof. exact kl_log_disjoint. Qed.

(** Mass of p where q vanishes is ignored too: the value is finite. *)
Theorem C18_uncovered_mass_refuted : exists lp lq, Forall log_value lp /\ Forall log_value lq /\
  (exists i, (i < length lp)%nat /\ nth i lp NaN = Fin 0 /\ nth i lq NaN = NInf) /\ kl_value lp lq = Ok (Fin 0).
Proof.
  exists [Fin 0; Fin 0], [NInf; Fin 0]. split; [repeat constructor|]. split; [repeat constructor|].
  split; [exists 0%nat; simpl; auto|].
  assert (C : common (map density_of [Fin 0; Fin 0]) (map density_of [NInf; Fin 0]) = [(1, 1)]).
  { simpl. rewrite exp_0. destruct (Rlt_dec 0 1), (Rlt_dec 0 0); try lra. reflexivity. }
  rewrite kl_log_value; [|discriminate|repeat constructor|repeat constructor|rewrite C; discriminate].
  do 2 f_equal. apply kl_div_facts; [rewrite C; discriminate|]. exists 1. rewrite C. split; [lra|]. repeat constructor. simpl. lra.
Qed.

(** The density entry point does return infinity for disjoint supports. *)
Theorem C18_density_entry_partial : forall p q, p <> [] -> common p q = [] ->
  exists r, kl_from_probs (map Fin p) (map Fin q) = Ok r /\ kl_total r = PInf.
Proof. intros p q NP N. exists KlInf. split; [now apply kl_probs_disjoint|reflexivity]. Qed.

Example C18_example : [1; 0] <> (@nil R) /\ common [1; 0] [0; 2] = [].
Proof. split; [discriminate|]. simpl. destruct (Rlt_dec 0 1), (Rlt_dec 0 0); try lra; reflexivity. Qed.

(** The reported value is the textbook one, lies in [0,1] and vanishes exactly for proportional
    densities. *)
Theorem C19_js_divergence : forall p q, common p q <> [] ->
  exists v, js_value (map Fin p) (map Fin q) = Ok (Fin v) /\ v = js_div p q /\ 0 <= v <= 1 /\ (v = 0 <-> proportional p q).
Proof.
  intros p q N. exists (js_div p q). split.
  - refine (js_model p q _ _ N eq_refl). intros ->. now apply N.
  - split; [reflexivity|]. now apply js_div_facts.
Qed.

Theorem C19_symmetric : forall p q, length p = length q -> js_value (map Fin p) (map Fin q) = js_value (map Fin q) (map Fin p).
Proof.
  intros p q L. destruct p as [|a p]; [destruct q; [reflexivity|discriminate]|]. destruct q as [|b q]; [discriminate|].
  destruct (common (a :: p) (b :: q)) as [|x c] eqn:C.
  - rewrite !js_model_disjoint; auto; try discriminate. rewrite common_swap, C. reflexivity.
  - rewrite (js_model (a :: p) (b :: q) _ ltac:(discriminate) ltac:(rewrite C; discriminate) eq_refl).
    rewrite (js_model (b :: q) (a :: p) _ ltac:(discriminate) ltac:(rewrite common_swap, C; discriminate) eq_refl).
    now rewrite js_div_sym.
Qed.

Theorem C19_scale_invariant : forall p q a b, common p q <> [] -> 0 < a -> 0 < b ->
  js_value (map Fin (map (Rmult a) p)) (map Fin (map (Rmult b) q)) = js_value (map Fin p) (map Fin q).
Proof.
  intros p q a b N A B. assert (NP : p <> []) by (intros ->; now apply N). rewrite (js_model p q _ NP N eq_refl).
  rewrite (js_model (map (Rmult a) p) (map (Rmult b) q) _ (map_nonnil _ _ NP)
    ltac:(rewrite common_scale by auto; now apply map_nonnil) eq_refl).
  unfold js_div. rewrite common_scale by auto. now rewrite rescaled_scale by (auto; apply common_pos).
Qed.

(** Points where a density is not a number are treated as points outside its support. *)
Definition nan_to_zero (x : fl R) : fl R := match x with NaN => Fin 0 | _ => x end.
Theorem C19_nan_points_ignored : forall p q, js_value p q = js_value (map nan_to_zero p) (map nan_to_zero q).
Proof.
  intros p q. assert (Z : Rltb 0 0 = false) by (apply Rltb_f; lra).
  assert (E : forall q, inlier_pairs (fun a b => fpos a && fpos b && negb (fisnan b) && negb (fisnan a)) p q
    = inlier_pairs (fun a b => fpos a && fpos b && negb (fisnan b) && negb (fisnan a)) (map nan_to_zero p) (map nan_to_zero q)).
  { unfold inlier_pairs. induction p as [|a p IH]; intros [|b q']; simpl; auto. rewrite IH.
    destruct a, b; simpl; rewrite ?Z, ?andb_false_r, ?andb_true_r; simpl; auto. }
  unfold js_value. rewrite (E q). destruct p; reflexivity.
Qed.

Example C19_example : common [1; 0; 2] [3; 1; 1] <> [] /\ length [1; 0; 2] = length [3; 1; 1].
Proof. split; [|reflexivity]. simpl. destruct (Rlt_dec 0 1); [|lra]. destruct (Rlt_dec 0 3); [discriminate|lra]. Qed.

(** Disjoint supports get the smallest value zero instead of one. *)
Theorem C20_disjoint_zero_refuted : exists p q, p <> [] /\ common p q = [] /\ Exists (fun x => 0 < x) p /\ Exists (fun x => 0 < x) q /\
  js_value (map Fin p) (map Fin q) = Ok (Fin 0).
Proof.
  exists [1; 0], [0; 2]. assert (C : common [1; 0] [0; 2] = []) by apply C18_example.
  split; [discriminate|]. split; [exact C|]. split; [constructor; lra|]. split; [constructor 2; constructor; lra|].
  apply js_model_disjoint; [discriminate|exact C].
Qed.

(** All disjoint densities get it, as if they were equal. *)
Theorem C20_disjoint_always_zero : forall p q, p <> [] -> common p q = [] -> js_value (map Fin p) (map Fin q) = Ok (Fin 0).
Proof. exact js_model_disjoint. Qed.

Print Assumptions C17_kl_divergence.
Print Assumptions C17_entry_points_agree.
Print Assumptions C17_scale_invariant.
Print Assumptions C18_disjoint_zero_refuted.
Print Assumptions C18_disjoint_always_zero.
Print Assumptions C18_uncovered_mass_refuted.
Print Assumptions C18_density_entry_partial.
Print Assumptions C19_js_divergence.
Print Assumptions C19_symmetric.
Print Assumptions C19_scale_invariant.
Print Assumptions C19_nan_points_ignored.
Print Assumptions C20_disjoint_zero_refuted.
Print Assumptions C20_disjoint_always_zero.
