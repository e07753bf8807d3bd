(** Property C114 for the debug picture of the benchmark. *)
From Coq Require Import List Bool Arith Lia ZArith QArith Qreals Reals Lra.
Import ListNotations.
From Verif Require Import Prelude.Py Prelude.QBase Prelude.RBase Model.Base Model.DensityPlots Spec.DensityPlotSpec Proofs.DensityPlotProofs.
Open Scope R_scope.

(** The debug contours of the target are those of exp(density): the lines have the right shape but not the right heights. *)
Theorem C114_debug_partial l0 l1 h0 h1 d xs ys z : debug_picture [l0; l1] [h0; h1] d = Ok (xs, ys, z) ->
  shows eq xs ys z (fun x y => exp (Q2R (d [x; y]))) /\
  forall i j i' j' row row' v v' x y x' y', nth_error ys i = Some y -> nth_error xs j = Some x -> nth_error ys i' = Some y' -> nth_error xs j' = Some x' ->
    nth_error z i = Some row -> nth_error row j = Some v -> nth_error z i' = Some row' -> nth_error row' j' = Some v' -> (v < v' <-> (d [x; y] < d [x'; y'])%Q).
Proof.
  intros H. assert (S : shows eq xs ys z (fun x y => exp (Q2R (d [x; y])))).
  { unfold debug_picture in H. destruct (make_grid _ _ _) as [[[rows ds] shape]|e] eqn:E; [|discriminate]. destruct (grid_two _ _ _ _ _ _ _ _ E) as (xs0 & ys0 & -> & -> & ->). injection H as <- <- <-.
    apply (arrange_shows eq 0 xs0 ys0 (fun x => exp (Q2R (d x)))). reflexivity. }
  split; [exact S|]. destruct S as (_ & _ & S). intros i j i' j' row row' v v' x y x' y' Y X Y' X' R V R' V'.
  destruct (S i j x y Y X) as (r0 & v0 & R0 & V0 & E0). destruct (S i' j' x' y' Y' X') as (r1 & v1 & R1 & V1 & E1).
  rewrite R in R0. injection R0 as <-. rewrite V in V0. injection V0 as <-. rewrite R' in R1. injection R1 as <-. rewrite V' in V1. injection V1 as <-. rewrite E0, E1. split.
  - intros L. apply exp_lt_inv in L. now apply Rlt_Qlt.
  - intros L. apply exp_increasing. now apply Qlt_Rlt.
Qed.
Print Assumptions C114_debug_partial.
Example C114_debug_example : exists xs ys z, debug_picture [0%Q; 0%Q] [(3 # 50)%Q; (2 # 50)%Q] (fun v => nth 0 v 0%Q) = Ok (xs, ys, z) /\ length xs = 3%nat /\ length ys = 2%nat.
Proof. do 3 eexists. split; [unfold debug_picture; vm_compute make_grid; reflexivity|]. split; reflexivity. Qed.
(** The value shown is the density nowhere. *)
Theorem C114_debug_refuted : exists d xs ys z, debug_picture [0%Q; 0%Q] [(3 # 50)%Q; (2 # 50)%Q] d = Ok (xs, ys, z) /\ (forall v, (0 <= d v)%Q) /\ xs <> [] /\ ys <> [] /\
  ~ shows eq xs ys z (fun x y => Q2R (d [x; y])).
Proof.
  exists (fun _ => 1%Q). do 3 eexists. split; [unfold debug_picture; vm_compute make_grid; reflexivity|]. split; [intros v; discriminate|]. split; [discriminate|]. split; [discriminate|].
  intros (_ & _ & S). destruct (S 0%nat 0%nat _ _ eq_refl eq_refl) as (row & v & R & V & E). cbn [nth_error] in R. injection R as <-. cbn [nth_error] in V. injection V as <-. cbn [nth] in E.
  assert (X : Q2R 1 = 1) by (unfold Q2R; simpl; lra). cbv beta in E. rewrite X in E. pose proof (exp_ineq1 1 R1_neq_R0). change (exp 1 = 1) in E. lra.
Qed.
Print Assumptions C114_debug_refuted.
