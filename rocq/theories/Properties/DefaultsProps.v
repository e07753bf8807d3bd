(** Property C112: the rejection method of the shipped configuration. *)
From Coq Require Import List Bool Arith Lia QArith Qminmax Lqa.
Import ListNotations.
From Verif Require Import Prelude.Py Prelude.QBase Prelude.QFacts Model.Base Model.Shape Model.Uniform Model.Rejection Model.Defaults Spec.Box Spec.UniformSpec
  Spec.RejectionSpec Spec.RejectionLawSpec Spec.DefaultsSpec Proofs.UniformProofs Proofs.RejectionProofs Proofs.RejectionLaw Proofs.DefaultsLaw Proofs.DefaultsBox.
Open Scope Q_scope.

(** C112. For the support of every target the proposal is built; it gives every point of the support a positive density exactly when the
    support lies symmetrically around the origin in every coordinate. *)
Theorem C112_support_partial : forall lo hi, corners lo hi ->
  exists d, shipped_proposal lo hi = Ok d /\ volume (u_lo d) (u_hi d) == volume lo hi /\
    ((forall x, half_open lo hi x -> 0 < rj_q (shipped_rejection d) x) <-> centred lo hi).
Proof.
  intros lo hi H. destruct (shipped_built lo hi H) as (d & E & I & Dd & L1 & L2). exists d. split; [exact E|]. split.
  - rewrite L1, L2. clear. revert hi. induction lo as [|l lo IH]; intros [|h hi]; try reflexivity. cbn [map2 volume]. rewrite IH.
    pose proof (half_twice h l) as T. assert (Y : 0 + half h l - (0 - half h l) == h - l) by lra. rewrite Y. reflexivity.
  - exact (covers lo hi d H E).
Qed.
Print Assumptions C112_support_partial.
Example C112_support_partial_example :
  corners [-(5 # 1); -(1 # 1)] [5; 1] /\ centred [-(5 # 1); -(1 # 1)] [5; 1] /\ corners [0] [4] /\ ~ centred [0] [4].
Proof.
  split; [repeat constructor; lra|]. split; [repeat constructor; lra|]. split; [repeat constructor; lra|].
  intros H. inversion H as [|? ? ? ? A _]; subst. lra.
Qed.

(** C112. Whatever the sampler was used for, no sample it holds is further from the origin, in any coordinate, than half the width of the support. *)
Theorem C112_reach : forall lo hi d c, corners lo hi -> shipped_proposal lo hi = Ok d -> rej_reachable (shipped_rejection d) c ->
  (forall x, In x (ghost_drawn c) -> exists u, (forall i, 0 <= u i < 1) /\ x = uniform_row (u_lo d) (u_hi d) u 0) ->
  forall x, In x (samples c) -> near_origin lo hi x.
Proof. exact unreached. Qed.
Print Assumptions C112_reach.
(** Two points of the box [-2, 2], drawn for a target on [0, 4] and both accepted. *)
Definition box4 : uniform := match shipped_proposal [0] [4] with Ok d => d | Raise _ => mkUnif 0 [] [] 1 end.
Definition unit_of (i : nat) (_ : nat) : Q := match i with O => 1 # 4 | _ => 3 # 4 end.
Definition two_draws : rej_round := mkRound (fun i => uniform_row (u_lo box4) (u_hi box4) (unit_of i) 0) (fun _ => 1 # 2) 1.
Definition held_two : core := out_state (rej_importance_sample (shipped_rejection box4) (fun _ => 1 # 4) 2%nat 60 0 [two_draws] (fun i => i) core_init).
Example C112_reach_example :
  shipped_proposal [0] [4] = Ok box4 /\ rej_reachable (shipped_rejection box4) held_two /\ length (samples held_two) = 2%nat /\
  (forall x, In x (ghost_drawn held_two) -> exists u, (forall i, 0 <= u i < 1) /\ x = uniform_row (u_lo box4) (u_hi box4) u 0).
Proof.
  split; [reflexivity|]. split; [|split; [vm_compute; reflexivity|]].
  - apply (rej_reach_call _ core_init (mkRejCall (fun _ => 1 # 4) 2%nat 60 0 [two_draws] (fun i => i))); [constructor|]. left. vm_compute. reflexivity.
  - change (ghost_drawn held_two) with [rr_draw two_draws 0; rr_draw two_draws 1].
    intros x [<-|[<-|[]]]; [exists (unit_of 0)|exists (unit_of 1)]; (split; [intros i; cbn; lra|reflexivity]).
Qed.

(** The support of the shipped exponential and Maxwell targets is [0, 4]: nothing above 2 is ever returned, although the target may have mass there. *)
Theorem C112_support_refuted :
  exists lo hi d y, corners lo hi /\ shipped_proposal lo hi = Ok d /\ half_open lo hi y /\
    forall c, rej_reachable (shipped_rejection d) c ->
    (forall x, In x (ghost_drawn c) -> exists u, (forall i, 0 <= u i < 1) /\ x = uniform_row (u_lo d) (u_hi d) u 0) ->
    ~ In y (samples c).
Proof.
  assert (H : corners [0] [4]) by (repeat constructor; lra). destruct (shipped_built _ _ H) as (d & E & _).
  exists [0], [4], d, [3]. split; [exact H|]. split; [exact E|]. split; [cbn; lra|]. intros c R Dr Hy.
  destruct (unreached _ _ d c H E R Dr _ Hy) as ((_ & A) & _). assert (Y : (4 - 0) / 2 == 2) by field. rewrite Y in A. lra.
Qed.
Print Assumptions C112_support_refuted.

(** C112. Without any bound on the scaling: a point is accepted with probability min(target, scaling * q) / (scaling * q), and the accepted
    points are independent draws of the target cut off at the envelope, min(target, scaling * q), normalised. *)
Theorem C112_cut_off :
  forall (X : Type) (q target : X -> Q) scaling v om, 0 < v -> 0 < scaling ->
  (forall m x, In (m, x) om -> 0 < q x /\ m == q x * v /\ 0 <= target x) ->
  fold_right (fun mx s => fst mx + s) 0 om == 1 ->
  let cut x := Qmin (target x) (q x * scaling) in
  let acc x := cut x / (q x * scaling) in
  (forall m x, In (m, x) om -> 0 <= acc x <= 1 /\ forall u, 0 <= u < 1 -> (keepsb target (fun x => q x * scaling) x u = true <-> u < acc x)) /\
  forall N sets,
    expect om acc N (fun l => falls_into sets (accepted l)) * Qpow (mass_in om cut (fun _ => true)) (length sets) ==
    product (map (mass_in om cut) sets) * expect om acc N (fun l => falls_into (map (fun _ => fun _ => true) sets) (accepted l)).
Proof.
  intros X q target scaling v om Hv Hs Hom Ht cut ac. split.
  - exact (clipped_chance X q target scaling v om Hs Hom).
  - exact (clipped_law X q target scaling v om Hs Hom Ht).
Qed.
Print Assumptions C112_cut_off.

(** Two cells of width 1 of the box [-1, 1]: the proposal density is 1/2, the target 3/4 and 1/4. *)
Definition cells : list (Q * vec) := [(1 # 2, [-(1 # 2)]); (1 # 2, [1 # 2])].
Definition steep (x : vec) : Q := match x with [a] => if Qle_bool a 0 then 3 # 4 else 1 # 4 | _ => 0 end.
Definition onside (x : vec) : Q := match x with [a] => if Qle_bool a 0 then 1 else 0 | _ => 0 end.
Definition left_half (x : vec) : bool := match x with [a] => Qle_bool a 0 | _ => false end.
Example C112_cut_off_example :
  fold_right (fun mx s => fst mx + s) 0 cells == 1 /\ mass_in cells steep (fun _ => true) * 1 == 1 /\
  mass_in cells (fun x => Qmin (steep x) ((1 # 2) * 1)) left_half == 1 # 2 /\
  mass_in cells (fun x => Qmin (steep x) ((1 # 2) * 1)) (fun _ => true) == 3 # 4.
Proof. repeat split; vm_compute; reflexivity. Qed.

(** C112. For a normalised target in cells of the proposal's box, the first accepted point has the law of the target for every number of offers
    exactly when the target has one and the same value wherever it is positive. *)
Theorem C112_law_partial : forall lo hi d target v (om : list (Q * vec)), corners lo hi -> shipped_proposal lo hi = Ok d -> 0 < v ->
  let q := rj_q (shipped_rejection d) in
  let s := rj_scaling (shipped_rejection d) in
  (forall m x, In (m, x) om -> half_open (u_lo d) (u_hi d) x /\ m == q x * v /\ 0 <= target x) ->
  fold_right (fun mx s => fst mx + s) 0 om == 1 -> mass_in om target (fun _ => true) * v == 1 ->
  let acc x := Qmin (target x) (q x * s) / (q x * s) in
  (forall m x, In (m, x) om -> forall u, 0 <= u < 1 -> (keepsb target (fun x => q x * s) x u = true <-> u < acc x)) /\
  ((forall N B, expect om acc N (fun l => falls_into [B] (accepted l)) * mass_in om target (fun _ => true) ==
                mass_in om target B * expect om acc N (fun l => falls_into [fun _ => true] (accepted l))) <->
   exists level, forall m x, In (m, x) om -> target x == 0 \/ target x == level).
Proof.
  intros lo hi d target v om H E Hv q s Hom Ht Hn ac.
  destruct (shipped_built lo hi H) as (d' & E' & I & Dd & L1 & L2). rewrite E in E'. injection E' as <-.
  assert (Len : forall x, half_open (u_lo d) (u_hi d) x -> length x = u_dims d).
  { intros x Hx. rewrite (proj1 (half_open_length _ _ _ Hx)). apply I. }
  assert (Hom' : forall m x, In (m, x) om -> 0 < q x /\ m == q x * v /\ 0 <= target x).
  { intros m x Hi. destruct (Hom m x Hi) as (A & B & C). split; [|split; assumption]. apply density_pos; [exact I|apply Len; exact A|exact A]. }
  assert (Flat : forall m x, In (m, x) om -> q x == 1 / volume (u_lo d) (u_hi d)).
  { intros m x Hi. destruct (Hom m x Hi) as (A & _). unfold q. cbn [rj_q shipped_rejection]. rewrite (density_inside d x I (Len x A)).
    replace (inlier (u_lo d) (u_hi d) x) with true; [reflexivity|]. symmetry. apply inlier_half_open; [|rewrite (Len x A); symmetry; apply I|exact A].
    apply corners_length. apply I. }
  set (V := volume (u_lo d) (u_hi d)) in *. assert (Vp : 0 < V) by (apply volume_pos; apply I).
  split; [intros m x Hi; apply (clipped_chance vec q target 1 v om ltac:(lra) Hom' m x Hi)|].
  split.
  - intros L. destruct (only_flat vec q target v om Hv Hom' Ht Hn L) as (c & _ & F). exists (c * (1 / V)).
    intros m x Hi. destruct (F m x Hi) as [A|A]; [left; exact A|right]. rewrite A, (Flat m x Hi). reflexivity.
  - intros (lv & F). apply (flat_right vec q target v om Hv Hom' Ht Hn (lv * V)). intros m x Hi.
    destruct (F m x Hi) as [A|A]; [left; exact A|right]. rewrite A, (Flat m x Hi). field. lra.
Qed.
Print Assumptions C112_law_partial.
Example C112_law_partial_example :
  exists d, shipped_proposal [-(1 # 1)] [1] = Ok d /\
  (forall m x, In (m, x) cells -> half_open (u_lo d) (u_hi d) x /\ m == rj_q (shipped_rejection d) x * 1 /\ 0 <= onside x) /\
  mass_in cells onside (fun _ => true) * 1 == 1 /\ (exists level, forall m x, In (m, x) cells -> onside x == 0 \/ onside x == level) /\
  expect cells (fun x => Qmin (onside x) ((1 # 2) * 1) / ((1 # 2) * 1)) 1 (fun l => falls_into [left_half] (accepted l)) == 1 # 2.
Proof.
  eexists. split; [reflexivity|]. split.
  - intros m x [A|[A|[]]]; injection A as <- <-; (split; [cbn; unfold Qle, Qlt; cbn; repeat split; reflexivity || discriminate|split; [reflexivity|discriminate]]).
  - split; [reflexivity|]. split; [|vm_compute; reflexivity]. exists 1. intros m x [A|[A|[]]]; injection A as <- <-; [right|left]; reflexivity.
Qed.

(** A target of two levels is not reproduced: within one offer a point left of the origin has probability 1/2, one on the right 1/4, while the target
    gives them 3/4 and 1/4. *)
Theorem C112_law_refuted :
  exists lo hi d target v (om : list (Q * vec)) B N, corners lo hi /\ centred lo hi /\ shipped_proposal lo hi = Ok d /\
  (forall m x, In (m, x) om -> half_open lo hi x /\ m == rj_q (shipped_rejection d) x * v /\ 0 < target x) /\
  fold_right (fun mx s => fst mx + s) 0 om == 1 /\ mass_in om target (fun _ => true) * v == 1 /\
  let s := rj_scaling (shipped_rejection d) in
  let acc x := Qmin (target x) (rj_q (shipped_rejection d) x * s) / (rj_q (shipped_rejection d) x * s) in
  ~ expect om acc N (fun l => falls_into [B] (accepted l)) * mass_in om target (fun _ => true) ==
    mass_in om target B * expect om acc N (fun l => falls_into [fun _ => true] (accepted l)).
Proof.
  exists [-(1 # 1)], [1]. eexists. exists steep, 1, cells, left_half, 1%nat.
  split; [repeat constructor; lra|]. split; [repeat constructor; lra|]. split; [reflexivity|]. split.
  - intros m x [A|[A|[]]]; injection A as <- <-; (split; [cbn; unfold Qle, Qlt; cbn; repeat split; reflexivity || discriminate|split; reflexivity]).
  - split; [reflexivity|]. split; [reflexivity|]. vm_compute. discriminate.
Qed.
Print Assumptions C112_law_refuted.
