(** Property C94: the divergence metrics estimate the divergence. *)
From Coquelicot Require Import Coquelicot.
From Coq Require Import List Bool Arith Lia Reals Lra.
Import ListNotations.
From Verif Require Import Prelude.Py Prelude.QBase Prelude.RBase Model.Divergence Spec.DensitySpec Spec.DivergenceSpec Spec.DrawMeanSpec Spec.IntegralSpec
  Proofs.DivergenceProofs Proofs.DrawMean Proofs.KlDraws Proofs.JsDraws Proofs.DivergenceGrid Properties.DivergenceProps.
Open Scope R_scope.

(** The reported number. *)
Definition reported (r : res (fl R)) : R := match r with Ok (Fin v) => v | _ => 0 end.

Lemma kl_reported {X} (p q : X -> R) lo hi xs : 0 < lo -> xs <> [] -> (forall x, In x xs -> within p q lo hi x) ->
  kl_compute (fun x => Fin (ln (p x))) (fun x => Fin (ln (q x))) xs = Ok (Fin (kl_div (map p xs) (map q xs))).
Proof.
  intros Lo Ne W. unfold kl_compute.
  assert (E : forall f : X -> R, (forall x, In x xs -> 0 < f x) -> map density_of (map (fun x => Fin (ln (f x))) xs) = map f xs).
  { intros f H. rewrite map_map. apply map_ext_in. intros x I. simpl. apply exp_ln, H, I. }
  assert (Ep := E p ltac:(intros x I; destruct (W x I); lra)). assert (Eq := E q ltac:(intros x I; destruct (W x I); lra)).
  assert (F : forall f : X -> R, Forall log_value (map (fun x => Fin (ln (f x))) xs)).
  { intros f. rewrite Forall_map, Forall_forall. intros x I. simpl. auto. }
  destruct (C17_kl_divergence (map (fun x => Fin (ln (p x))) xs) (map (fun x => Fin (ln (q x))) xs) (F p) (F q)) as (v & V & K & _).
  - rewrite Ep, Eq, (common_all p q lo hi Lo xs W). now apply map_nonnil.
  - rewrite V, K, Ep, Eq. reflexivity.
Qed.
Lemma js_reported {X} (p q : X -> R) lo hi xs : 0 < lo -> xs <> [] -> (forall x, In x xs -> within p q lo hi x) ->
  js_compute (fun x => Fin (p x)) (fun x => Fin (q x)) xs = Ok (Fin (js_div (map p xs) (map q xs))).
Proof.
  intros Lo Ne W. unfold js_compute.
  destruct (C19_js_divergence (map p xs) (map q xs)) as (v & V & K & _).
  - rewrite (common_all p q lo hi Lo xs W). now apply map_nonnil.
  - rewrite !map_map in V. rewrite V, K. reflexivity.
Qed.

(** On a support of finitely many points, each equally likely: the mean square error of the reported KL divergence falls like one
    over the number of samples. *)
Theorem C94_kl_error_partial : forall (X : Type) (pts : list X) (p q : X -> R) lo hi n, pts <> [] -> (0 < n)%nat -> 0 < lo ->
  (forall x, In x pts -> lo <= p x <= hi /\ lo <= q x <= hi) ->
  let estimate xs := reported (kl_compute (fun x => Fin (ln (p x))) (fun x => Fin (ln (q x))) xs) in
  let L := ln (hi / lo) in
  mean_draws pts n (fun xs => square (estimate xs - kl_div (map p pts) (map q pts))) <= 3 * square (hi / lo) * (square L + square (L + 1) + 1) / INR n.
Proof.
  intros X pts p q lo hi n Ne Np Lo W estimate L.
  rewrite (draws_ext pts n _ (fun xs => square (kl_div (map p xs) (map q xs) - kl_div (map p pts) (map q pts)))).
  - apply kl_mean_square; auto.
  - intros xs Len M. unfold estimate. rewrite (kl_reported p q lo hi xs Lo); [reflexivity|intros ->; simpl in Len; lia|]. intros x I. apply W, M, I.
Qed.
Print Assumptions C94_kl_error_partial.

(** The same for the Jensen-Shannon divergence. *)
Theorem C94_js_error_partial : forall (X : Type) (pts : list X) (p q : X -> R) lo hi n, pts <> [] -> (0 < n)%nat -> 0 < lo ->
  (forall x, In x pts -> lo <= p x <= hi /\ lo <= q x <= hi) ->
  let estimate xs := reported (js_compute (fun x => Fin (p x)) (fun x => Fin (q x)) xs) in
  let L := ln (hi / lo) in
  mean_draws pts n (fun xs => square (estimate xs - js_div (map p pts) (map q pts))) <= 8 * square (hi / (lo * ln 2)) * (square L + square (L + 1)) / INR n.
Proof.
  intros X pts p q lo hi n Ne Np Lo W estimate L.
  rewrite (draws_ext pts n _ (fun xs => square (js_div (map p xs) (map q xs) - js_div (map p pts) (map q pts)))).
  - apply js_mean_square; auto.
  - intros xs Len M. unfold estimate. rewrite (js_reported p q lo hi xs Lo); [reflexivity|intros ->; simpl in Len; lia|]. intros x I. apply W, M, I.
Qed.
Print Assumptions C94_js_error_partial.

Lemma square_two x y z : square (x - z) <= 2 * square (x - y) + 2 * square (y - z).
Proof. pose proof (Rle_0_sqr ((x - y) - (y - z))) as A. unfold square, Rsqr in *. lra. Qed.
Lemma draws_shift {X} (pts : list X) n f y z B D : pts <> [] -> mean_draws pts n (fun xs => square (f xs - y)) <= B -> Rabs (y - z) <= D ->
  mean_draws pts n (fun xs => square (f xs - z)) <= 2 * B + 2 * square D.
Proof.
  intros Ne H K. apply Rle_trans with (mean_draws pts n (fun xs => 2 * square (f xs - y) + 2 * square (y - z))).
  - apply draws_le; auto. intros xs _ _. apply square_two.
  - rewrite (draws_plus pts n (fun xs => 2 * square (f xs - y))), draws_scal, draws_const by auto.
    pose proof (square_abs _ _ (Rle_trans _ _ _ (Rabs_pos _) K) K). lra.
Qed.

(** On a segment with a generator of G unit numbers, for positive densities of slope at most Lam: the reported values approach the
    integrals that define the divergences of the two densities rescaled on the segment. *)
Theorem C94_kl_integral_partial : forall a b p q lo hi Lam n G, a < b -> (0 < n)%nat -> (0 < G)%nat -> 0 < lo ->
  lipschitz_on a b Lam p -> lipschitz_on a b Lam q -> (forall x, a <= x <= b -> lo <= p x <= hi /\ lo <= q x <= hi) ->
  let estimate xs := reported (kl_compute (fun x => Fin (ln (p x))) (fun x => Fin (ln (q x))) xs) in
  let L := ln (hi / lo) in
  mean_draws (segment_points a b G) n (fun xs => square (estimate xs - kl_integral p q a b)) <=
  2 * (3 * square (hi / lo) * (square L + square (L + 1) + 1) / INR n) + 2 * square (2 * Lam * (b - a) * (hi / lo + L + 1) / (lo * INR G)).
Proof.
  intros a b p q lo hi Lam n G Ab Np Gp Lo Pl Ql W estimate L.
  assert (Wp : forall x, In x (segment_points a b G) -> lo <= p x <= hi /\ lo <= q x <= hi) by (intros x I; apply W, (points_in a b Ab G); auto).
  apply draws_shift with (y := kl_div (map p (segment_points a b G)) (map q (segment_points a b G))); [now apply points_ne| |].
  - apply C94_kl_error_partial; auto. now apply points_ne.
  - apply kl_grid_near; auto.
Qed.
Print Assumptions C94_kl_integral_partial.

Theorem C94_js_integral_partial : forall a b p q lo hi Lam n G, a < b -> (0 < n)%nat -> (0 < G)%nat -> 0 < lo ->
  lipschitz_on a b Lam p -> lipschitz_on a b Lam q -> (forall x, a <= x <= b -> lo <= p x <= hi /\ lo <= q x <= hi) ->
  let estimate xs := reported (js_compute (fun x => Fin (p x)) (fun x => Fin (q x)) xs) in
  let L := ln (hi / lo) in
  mean_draws (segment_points a b G) n (fun xs => square (estimate xs - js_integral p q a b)) <=
  2 * (8 * square (hi / (lo * ln 2)) * (square L + square (L + 1)) / INR n) + 2 * square (2 * Lam * (b - a) * (hi / lo + 2 * L + 1) / (lo * ln 2 * INR G)).
Proof.
  intros a b p q lo hi Lam n G Ab Np Gp Lo Pl Ql W estimate L.
  assert (Wp : forall x, In x (segment_points a b G) -> lo <= p x <= hi /\ lo <= q x <= hi) by (intros x I; apply W, (points_in a b Ab G); auto).
  apply draws_shift with (y := js_div (map p (segment_points a b G)) (map q (segment_points a b G))); [now apply points_ne| |].
  - apply C94_js_error_partial; auto. now apply points_ne.
  - apply js_grid_near; auto.
Qed.
Print Assumptions C94_js_integral_partial.

(** Mass of q outside the support of p is never seen. With p uniform on [0, 1] and q uniform on [0, 2] the divergence is ln 2; both
    metrics report 0 for any samples from the support of p. *)
Theorem C94_outside_mass_refuted : exists p q : R -> R,
  (forall x, p x = if Rle_dec 0 x then if Rle_dec x 1 then 1 else 0 else 0) /\
  (forall x, q x = if Rle_dec 0 x then if Rle_dec x 2 then / 2 else 0 else 0) /\
  segment_integral p 0 1 = 1 /\ segment_integral q 0 2 = 1 /\
  segment_integral (fun x => p x * ln (p x / q x)) 0 1 = ln 2 /\ 0 < ln 2 /\
  forall xs, xs <> [] -> Forall (fun x => 0 <= x <= 1) xs ->
    kl_compute (fun x => Fin (ln (p x))) (fun x => Fin (ln (q x))) xs = Ok (Fin 0) /\
    js_compute (fun x => Fin (p x)) (fun x => Fin (q x)) xs = Ok (Fin 0).
Proof.
  pose (p := fun x => if Rle_dec 0 x then if Rle_dec x 1 then 1 else 0 else 0). pose (q := fun x => if Rle_dec 0 x then if Rle_dec x 2 then / 2 else 0 else 0). exists p, q.
  assert (Pv : forall x, 0 <= x <= 1 -> p x = 1) by (intros x H; unfold p; destruct (Rle_dec 0 x), (Rle_dec x 1); lra).
  assert (Qv : forall x, 0 <= x <= 2 -> q x = / 2) by (intros x H; unfold q; destruct (Rle_dec 0 x), (Rle_dec x 2); lra).
  assert (Rc : forall (f : R -> R) a b k, a <= b -> (forall x, a <= x <= b -> f x = k) -> segment_integral f a b = (b - a) * k).
  { intros f a b k Ab H. unfold segment_integral. rewrite (RInt_ext f (fun _ => k)).
    - rewrite RInt_const. reflexivity.
    - intros x. rewrite Rmin_left, Rmax_right by lra. intros I. apply H. lra. }
  split; [reflexivity|]. split; [reflexivity|].
  split; [rewrite (Rc p 0 1 1); auto; lra|]. split; [rewrite (Rc q 0 2 (/ 2)); auto; lra|].
  split; [rewrite (Rc _ 0 1 (ln 2)); [lra|lra|]; intros x I; rewrite Pv, Qv by lra; replace (1 / / 2) with 2 by lra; lra|].
  split; [apply ln2_pos|]. intros xs Ne F. rewrite Forall_forall in F.
  assert (W : forall x, In x xs -> within p q (/ 2) 1 x).
  { intros x I. specialize (F x I). unfold within. rewrite Pv, Qv by lra. lra. }
  rewrite (kl_reported p q (/ 2) 1 xs), (js_reported p q (/ 2) 1 xs); auto; try lra.
  assert (Pr : proportional (map p xs) (map q xs)).
  { exists 2. split; [lra|]. rewrite (common_all p q (/ 2) 1 ltac:(lra) xs W), Forall_map, Forall_forall. intros x I. specialize (F x I).
    cbn [fst snd]. rewrite Pv, Qv by lra. lra. }
  assert (Cn : common (map p xs) (map q xs) <> []) by (rewrite (common_all p q (/ 2) 1 ltac:(lra) xs W); now apply map_nonnil).
  split.
  - do 2 f_equal. apply (proj2 (kl_div_facts _ _ Cn)), Pr.
  - do 2 f_equal. apply (proj2 (js_div_facts _ _ Cn)), Pr.
Qed.
Print Assumptions C94_outside_mass_refuted.

(** Densities 1 + x and 2 on [0, 1]: bounds 1 and 2, slope 1. *)
Example C94_example : 0 < 1 /\ lipschitz_on 0 1 1 (fun x => 1 + x) /\ lipschitz_on 0 1 1 (fun _ => 2) /\
  (forall x, 0 <= x <= 1 -> 1 <= 1 + x <= 2 /\ 1 <= 2 <= 2) /\ 0 < kl_div (map (fun x => 1 + x) (segment_points 0 1 2)) (map (fun _ => 2) (segment_points 0 1 2)).
Proof.
  split; [lra|]. split; [intros x y _ _; replace (1 + x - (1 + y)) with (x - y) by ring; lra|].
  split; [intros x y _ _; rewrite Rminus_diag_eq, Rabs_R0 by reflexivity; pose proof (Rabs_pos (x - y)); lra|].
  split; [intros; lra|].
  set (pts := segment_points 0 1 2). assert (Ne : pts <> []) by (apply points_ne; lia).
  assert (W : forall x, In x pts -> within (fun x => 1 + x) (fun _ => 2) 1 2 x) by (intros x I; apply (points_in 0 1) in I; [unfold within; lra|lra|lia]).
  assert (Cn : common (map (fun x => 1 + x) pts) (map (fun _ => 2) pts) <> []) by (rewrite (common_all _ _ 1 2 ltac:(lra) pts W); now apply map_nonnil).
  destruct (kl_div_facts _ _ Cn) as [[H|H] Z]; [exact H|]. symmetry in H. apply Z in H. exfalso. destruct H as (k & K & F).
  rewrite (common_all _ _ 1 2 ltac:(lra) pts W), Forall_map, Forall_forall in F. cbn [fst snd] in F.
  pose proof (F (0 + (1 - 0) * (INR 0 / INR 2)) (or_introl eq_refl)) as A. pose proof (F (0 + (1 - 0) * (INR 1 / INR 2)) (or_intror (or_introl eq_refl))) as B.
  simpl in A, B. lra.
Qed.
