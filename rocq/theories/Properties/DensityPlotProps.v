(** Property C114: plots of densities. *)
From Coq Require Import List Bool Arith Lia ZArith QArith Qround Lqa.
Import ListNotations.
From Verif Require Import Prelude.Py Prelude.QBase Prelude.QFacts Model.Base Model.DensityPlots Spec.DensityPlotSpec Proofs.BaseProofs Proofs.DensityPlotProofs.
Open Scope Q_scope.

(** * Contours of a density of two variables: the picture is the right way round, and every line that is asked for exists. *)
Theorem C114_contour l0 l1 h0 h1 r scale d c : plot_pdf2d [l0; l1] [h0; h1] r scale d = Ok (Some c) ->
  (exists rows, make_grid [l0; l1] [h0; h1] r = Ok (rows, [ct_xs c; ct_ys c], [length (ct_xs c); length (ct_ys c)])) /\
  shows Qeq (ct_xs c) (ct_ys c) (ct_z c) (fun x y => d [x; y] * scale) /\
  length (ct_levels c) = 15%nat /\ (forall l, In l (ct_levels c) -> crossed (ct_z c) l) /\ exists h, 0 < h /\ equal_steps (ct_levels c) h.
Proof.
  intros H. destruct (pdf2d_two _ _ _ _ _ _ _ _ H) as (xs & ys & rows & G & E). cbv zeta in E. destruct (Qltb _ _) eqn:L in E; [|discriminate]. injection E as ->. cbn [ct_xs ct_ys ct_z ct_levels].
  apply Qltb_true in L. split; [eauto|]. split; [apply (arrange_shows Qeq 0 xs ys (fun x => d x * scale)); intros; reflexivity|]. split; [etransitivity; [apply f_equal, fifteen; exact L|reflexivity]|].
  split; [intros l; now apply levels_crossed|]. eexists. split; [|apply levels_steps; exact L]. apply Qlt_shift_div_l; [reflexivity|]. rewrite Qmult_0_l. apply (proj1 (Qlt_minus_iff _ _)). exact L.
Qed.
Print Assumptions C114_contour.
(** The density x of a box that is wider than high. *)
Example C114_contour_example : exists c, plot_pdf2d [0; 0] [3; 2] 1 2 (fun v => nth 0 v 0) = Ok (Some c) /\ length (ct_xs c) = 3%nat /\ length (ct_ys c) = 2%nat.
Proof. eexists. split; [vm_compute; reflexivity|]. split; reflexivity. Qed.

(** Nothing is drawn exactly when the density is the same at all points of the grid. *)
Theorem C114_blank l0 l1 h0 h1 r scale d rows ds shape : make_grid [l0; l1] [h0; h1] r = Ok (rows, ds, shape) ->
  (plot_pdf2d [l0; l1] [h0; h1] r scale d = Ok None <-> forall x y, In x rows -> In y rows -> d x * scale == d y * scale).
Proof.
  intros G. destruct (grid_two _ _ _ _ _ _ _ _ G) as (xs & ys & -> & -> & ->). unfold plot_pdf2d. rewrite G. unfold plot_grid. rewrite map_map. cbv zeta.
  pose proof (arrange_shows Qeq 0 xs ys (fun x => d x * scale) Qeq_refl) as (S1 & S2 & S3). set (z := arrange 0 (length xs) (length ys) (map (fun x => d x * scale) (mesh_rows [xs; ys]))) in *.
  assert (A : forall x, In x (mesh_rows [xs; ys]) -> exists v, In v (concat z) /\ v == d x * scale).
  { intros x X. rewrite mesh_two in X. apply in_flat_map in X. destruct X as (a & X & Y). apply in_map_iff in Y. destruct Y as (b & <- & Y). destruct (In_nth_error _ _ X) as (j & J). destruct (In_nth_error _ _ Y) as (i & I).
    destruct (S3 i j a b I J) as (row & v & R & V & E). exists v. split; [|exact E]. apply in_concat. exists row. split; eapply nth_error_In; eauto. }
  assert (B : forall v, In v (concat z) -> exists x, In x (mesh_rows [xs; ys]) /\ v == d x * scale).
  { intros v V. apply in_concat in V. destruct V as (row & R & V). destruct (In_nth_error _ _ R) as (i & I). destruct (In_nth_error _ _ V) as (j & J).
    assert (Li : (i < length ys)%nat) by (rewrite <- S1; apply nth_error_Some; congruence). assert (Lj : (j < length xs)%nat) by (rewrite <- (S2 row R); apply nth_error_Some; congruence).
    destruct (nth_error ys i) as [b|] eqn:Eb; [|apply nth_error_None in Eb; lia]. destruct (nth_error xs j) as [a|] eqn:Ea; [|apply nth_error_None in Ea; lia].
    destruct (S3 i j a b Eb Ea) as (row' & v' & R' & V' & E). rewrite I in R'. injection R' as <-. rewrite J in V'. injection V' as <-. exists [a; b]. split; [|exact E].
    rewrite mesh_two. apply in_flat_map. exists a. split; [eapply nth_error_In; eauto|]. apply in_map_iff. exists b. split; [reflexivity|eapply nth_error_In; eauto]. }
  split.
  - intros H x y X Y. destruct (Qltb _ _) eqn:L in H; [discriminate|]. destruct (A x X) as (v & V & <-). destruct (A y Y) as (w & W & <-). now apply (flat_table z).
  - intros H. destruct (Qltb (amin (concat z)) (amax (concat z))) eqn:L; [|reflexivity]. exfalso. apply Qltb_true in L. assert (Ne : concat z <> []) by (intros E; rewrite E in L; simpl in L; lra).
    destruct (B _ (proj1 (amin_spec _ Ne))) as (x & X & Ex). destruct (B _ (proj1 (amax_spec _ Ne))) as (y & Y & Ey). pose proof (H x y X Y). lra.
Qed.
Print Assumptions C114_blank.
Example C114_blank_example : exists rows ds shape, make_grid [0; 0] [3; 2] 1 = Ok (rows, ds, shape) /\ length rows = 6%nat /\ plot_pdf2d [0; 0] [3; 2] 1 2 (fun v => 1) = Ok None.
Proof. do 3 eexists. split; [vm_compute; reflexivity|]. split; [reflexivity|]. vm_compute. reflexivity. Qed.

(** * Curves of a density of one variable *)
Theorem C114_curve lo hi r scale d : 0 < r -> lo <= hi -> exists c, plot_pdf lo hi r scale d = Ok c /\
  (forall x y, In (x, y) c -> lo <= x <= hi /\ y == d [x] * scale) /\ Z.of_nat (length c) = Qfloor ((hi - lo) / r) /\
  (2 * r <= hi - lo -> exists x y x' y', In (x, y) c /\ x == lo /\ In (x', y') c /\ x' == hi).
Proof.
  intros R H. eexists. split; [now apply plot_pdf_count|]. assert (P : 0 <= (hi - lo) / r) by (apply Qle_shift_div_l; lra).
  assert (F : (0 <= Qfloor ((hi - lo) / r))%Z) by (change 0%Z with (Qfloor 0); now apply Qfloor_resp_le). split; [|split].
  - intros x y I. apply in_map_iff in I. destruct I as (u & E & I). injection E as <- <-. split; [eapply linspace_in; eauto|reflexivity].
  - rewrite map_length, linspace_length. lia.
  - intros W. assert (F2 : (2 <= Qfloor ((hi - lo) / r))%Z) by (change 2%Z with (Qfloor 2); apply Qfloor_resp_le; apply Qle_shift_div_l; lra).
    pose proof (linspace_first lo hi (Z.to_nat (Qfloor ((hi - lo) / r))) ltac:(lia)) as X. pose proof (linspace_last lo hi (Z.to_nat (Qfloor ((hi - lo) / r))) ltac:(lia)) as Y.
    apply Exists_exists in X. apply Exists_exists in Y. destruct X as (x & X & Ex). destruct Y as (y & Y & Ey).
    exists x, (d [x] * scale), y, (d [y] * scale). split; [apply in_map_iff; eauto|]. split; [exact Ex|]. split; [apply in_map_iff; eauto|exact Ey].
Qed.
Print Assumptions C114_curve.
Example C114_curve_example : exists c, plot_pdf 0 1 (1 # 4) 2 (fun v => nth 0 v 0) = Ok c /\ length c = 4%nat.
Proof. eexists. split; [vm_compute; reflexivity|reflexivity]. Qed.

(** Drawing a distribution: the curve reaches over both ends of the support, if the support is wide enough for the resolution. *)
Theorem C114_draw_partial lo hi r d : 0 < r -> lo < hi -> 2 * r <= (hi - lo) * (6 # 5) -> exists c, draw_dist lo hi r d = Ok c /\
  (forall x y, In (x, y) c -> y == d [x]) /\ exists x y x' y', In (x, y) c /\ x < lo /\ In (x', y') c /\ hi < x'.
Proof.
  intros R H W. unfold draw_dist. destruct (C114_curve (lo - (hi - lo) * (1 # 10)) (hi + (hi - lo) * (1 # 10)) r 1 d R ltac:(lra)) as (c & E & A & _ & B). exists c. split; [exact E|]. split.
  - intros x y I. destruct (A x y I) as (_ & ->). ring.
  - destruct (B ltac:(lra)) as (x & y & x' & y' & I & Ex & I' & Ex'). exists x, y, x', y'. split; [exact I|]. split; [rewrite Ex; lra|]. split; [exact I'|rewrite Ex'; lra].
Qed.
Print Assumptions C114_draw_partial.
Example C114_draw_example : 0 < 1 # 4 /\ 0 < 1 /\ 2 * (1 # 4) <= (1 - 0) * (6 # 5) /\ exists c, draw_dist 0 1 (1 # 4) (fun v => nth 0 v 0) = Ok c /\ length c = 4%nat.
Proof. split; [reflexivity|]. split; [reflexivity|]. split; [discriminate|]. eexists. split; [vm_compute; reflexivity|reflexivity]. Qed.
(** A narrower support is not drawn at all, without an error. *)
Theorem C114_draw_blank lo hi r d : 0 < r -> lo < hi -> (hi - lo) * (6 # 5) < r -> draw_dist lo hi r d = Ok [].
Proof.
  intros R H W. unfold draw_dist. rewrite plot_pdf_count by lra. set (q := (hi + (hi - lo) * (1 # 10) - (lo - (hi - lo) * (1 # 10))) / r).
  assert (P : 0 <= q) by (apply Qle_shift_div_l; lra). assert (U : q < 1) by (apply Qlt_shift_div_r; lra).
  assert (F : (0 <= Qfloor q)%Z) by (change 0%Z with (Qfloor 0); now apply Qfloor_resp_le). pose proof (Qfloor_le q) as L.
  assert (Z : (Qfloor q < 1)%Z) by (rewrite Zlt_Qlt; eapply Qle_lt_trans; [exact L|exact U]). replace (Qfloor q) with 0%Z by lia. reflexivity.
Qed.
Print Assumptions C114_draw_blank.
Theorem C114_draw_refuted : exists lo hi d, lo < hi /\ (forall x, 0 < d x) /\ draw_dist lo hi (1 # 100) d = Ok [].
Proof. exists 0, (1 # 200), (fun _ => 200). split; [reflexivity|]. split; [reflexivity|]. apply C114_draw_blank; reflexivity. Qed.
Print Assumptions C114_draw_refuted.

(** * The dashed curves of the components add up to the curve of the density. *)
Lemma curves_ok lo hi parts : forall cs, curves lo hi parts = Ok cs -> exists n, cs = map (fun p => map (fun x => (x, snd p [x] * fst p)) (linspace lo hi n)) parts /\
  (parts <> [] -> forall d c, plot_pdf lo hi (1 # 100) 1 d = Ok c -> c = map (fun x => (x, d [x] * 1)) (linspace lo hi n)).
Proof.
  unfold plot_pdf. destruct (fdivQ (hi - lo) (1 # 100)) as [q| | |] eqn:E; [destruct (Qtrunc q <? 0)%Z eqn:L|..].
  2:{ intros cs H. exists (Z.to_nat (Qtrunc q)). split; [|intros _ d c G; injection G as <-; reflexivity]. revert cs H. induction parts as [|[w f] r IH]; intros cs H; cbn [curves] in H; [injection H as <-; reflexivity|].
      unfold plot_pdf in H. rewrite E, L in H. destruct (curves lo hi r) as [l|e]; [|discriminate]. injection H as <-. simpl. f_equal. now apply IH. }
  all: destruct parts as [|[w f] r]; intros cs H; cbn [curves] in H; [injection H as <-; exists 0%nat; split; [reflexivity|congruence]|unfold plot_pdf in H; rewrite E in H; try rewrite L in H; discriminate].
Qed.
Theorem C114_components lo hi parts d cs again c : draw1d lo hi parts d = Ok (cs, again, c) -> (forall x, d [x] == Qsum (map (fun p => fst p * snd p [x]) parts)) ->
  length cs = length parts /\ again = last cs [] /\
  forall i x y, nth_error c i = Some (x, y) -> (forall k, In k cs -> exists v, nth_error k i = Some (x, v)) /\ Qsum (map (fun k => snd (nth i k (0, 0))) cs) == y.
Proof.
  unfold draw1d. intros H D. destruct (curves lo hi parts) as [l|e] eqn:E; [|discriminate]. destruct (rev l) as [|a rl] eqn:Er; [discriminate|]. destruct (plot_pdf lo hi (1 # 100) 1 d) as [k|e] eqn:Ep; [|discriminate].
  injection H as <- <- <-. destruct (curves_ok _ _ _ _ E) as (n & El & C). assert (Ne : parts <> []) by (intros ->; simpl in El; subst l; discriminate). specialize (C Ne d k Ep). clear E Ep.
  assert (L : l = rev rl ++ [a]) by (rewrite <- (rev_involutive l), Er; reflexivity). split; [rewrite El; apply map_length|]. split; [rewrite L; symmetry; clear; induction (rev rl) as [|u t IH]; [reflexivity|]; simpl; destruct (t ++ [a]) eqn:Z; [destruct t; discriminate|exact IH]|]. subst k. intros i x y I.
  assert (X : nth_error (linspace lo hi n) i = Some x /\ y = d [x] * 1).
  { destruct (nth_error (linspace lo hi n) i) as [u|] eqn:Eu; [|apply nth_error_None in Eu; rewrite (proj2 (nth_error_None _ _)) in I by (rewrite map_length; exact Eu); discriminate].
    rewrite (map_nth_error _ _ _ Eu) in I. injection I as <- <-. auto. }
  destruct X as (X & ->). split.
  - intros q Q. rewrite El in Q. apply in_map_iff in Q. destruct Q as (p & <- & _). exists (snd p [x] * fst p). exact (map_nth_error (fun u => (u, snd p [u] * fst p)) _ _ X).
  - rewrite El, map_map, (D x). erewrite map_ext; [|intros p; rewrite (nth_error_nth _ _ (0, 0) (map_nth_error (fun u => (u, snd p [u] * fst p)) _ _ X)); cbn [snd]; reflexivity].
    clear. induction parts as [|p r IH]; [simpl; ring|]. cbn [map Qsum]. rewrite IH. ring.
Qed.
Print Assumptions C114_components.
Example C114_components_example : exists cs again c, draw1d 0 (1 # 50) [(1 # 4, fun _ => 1); (3 # 4, fun v => nth 0 v 0)] (fun v => (1 # 4) + (3 # 4) * nth 0 v 0) = Ok (cs, again, c) /\ length c = 2%nat /\
  forall x, (fun v => (1 # 4) + (3 # 4) * nth 0 v 0) [x] == Qsum (map (fun p => fst p * snd p [x]) [(1 # 4, fun _ => 1); (3 # 4, fun v => nth 0 v 0)]).
Proof. do 3 eexists. split; [vm_compute; reflexivity|]. split; [reflexivity|]. intros x. simpl. ring. Qed.

(** * More than two axes: the table made with the shape of the grid is not in the order of the axes. *)
Theorem C114_three_axes_refuted : exists rows xs ys zs d i j k x y z,
  make_grid [0; 0; 0] [1; 2; 2] 1 = Ok (rows, [xs; ys; zs], [length xs; length ys; length zs]) /\
  nth_error xs i = Some x /\ nth_error ys j = Some y /\ nth_error zs k = Some z /\
  ~ table_at 0 [length xs; length ys; length zs] (map d rows) [i; j; k] == d [x; y; z].
Proof.
  exists [[0; 0; 0]; [0; 2; 0]; [0; 0; 2]; [0; 2; 2]], [0], [0; 2], [0; 2], (fun v => nth 1 v 0), 0%nat, 1%nat, 0%nat, 0, 2, 0.
  split; [vm_compute; reflexivity|]. split; [reflexivity|]. split; [reflexivity|]. split; [reflexivity|]. vm_compute. discriminate.
Qed.
Print Assumptions C114_three_axes_refuted.
