(** Property C97. *)
From Coq Require Import List Bool Arith Lia ZArith QArith Qabs Lqa.
Import ListNotations.
From Verif Require Import Prelude.Py Prelude.QBase Prelude.QFacts Model.Base Model.Mixture Model.Population Model.PopulationLaw
  Spec.Box Spec.PopulationSpec Spec.UnbiasedSpec Spec.ChainSpec Spec.WalkSpec Proofs.PopulationProofs Proofs.PopulationUnbiased Proofs.MHChain Proofs.LaisChain.
Open Scope Q_scope.

Lemma centre_walk P pi om n timeout tape s j B : (j < length (pop_means s))%nat -> (0 < pp_K P)%nat -> 0 < timeout ->
  rounds_use P timeout j (turns_for P n s) tape ->
  centre_prob P pi om n timeout tape (turns_for P n s * pp_L P) s j B == walk_prob P pi om (turns_for P n s * pp_L P) (nth j (pop_means s) []) B.
Proof.
  intros J K T R. unfold centre_prob, walk_prob. apply expect_ext. intros evs _. destruct (R evs) as (L & C & M).
  destruct (lais_call P pi n timeout j (turns_for P n s) (tape evs) 0 s (fun l => nth l evs ([], 0)) 0) as (s' & E & F); auto.
  - intros i q I Q. rewrite (M i (nth i (tape evs) (mkPopR (fun _ _ => []) (fun _ _ => 0) (fun _ _ => ([], 0)) 0)) q); auto.
    apply nth_error_nth'. lia.
  - unfold pop_call. rewrite E. cbn [out_state]. rewrite F. reflexivity.
Qed.

(** C97, what holds: when the chains cannot reach the border of the box, each proposal centre is after a call that ran T steps of
    its chain distributed as the target up to an error that vanishes geometrically with T, from any start. Every q steps the
    chain must have a chance of at least beta times its share to be at every point. Full statement: without [in_box]. *)
Theorem C97_centres_law_partial :
  forall P pi dl ul pts, open_walk (pp_lo P) (pp_hi P) pi dl ul pts ->
  forall n timeout tape s j i b beta q, (j < length (pop_means s))%nat -> (0 < pp_K P)%nat -> 0 < timeout ->
  rounds_use P timeout j (turns_for P n s) tape ->
  (i < length pts)%nat -> at_point pts i (nth j (pop_means s) []) = true ->
  (0 < q)%nat -> (forall a c, (a < length pts)%nat -> (c < length pts)%nat ->
    beta * point_share pi pts c <= walk_prob P pi (pair_law dl ul) q (nth a pts []) (at_point pts c)) ->
  let T := (turns_for P n s * pp_L P)%nat in
  Qabs (centre_prob P pi (pair_law dl ul) n timeout tape T s j (states_in (length pts) (at_point pts) b) - chance (length pts) (point_share pi pts) b)
  <= Qpow (1 - beta) (T / q).
Proof.
  intros P pi dl ul pts (A1 & A2 & A3 & A4 & A5 & A6 & A7 & A8 & A9 & A10) n timeout tape s j i b beta q J K Ht R I At Hq Db T.
  unfold T. rewrite (centre_walk P pi _ n timeout tape s j _ J K Ht R).
  apply (walk_close P pi dl ul pts A1 A2 A3 A4 A7 A6 (fun a wd X Y => proj1 (A8 a wd X Y)) (fun a wd X Y => proj2 (A8 a wd X Y)) A9 A10 A5 beta q _ b i); auto.
Qed.
Print Assumptions C97_centres_law_partial.

(** C97, what holds without waiting: a centre distributed as the target still is after any call. [st i] is a state of the sampler
    whose j-th centre is the i-th point. *)
Theorem C97_target_kept_partial :
  forall P pi dl ul pts, open_walk (pp_lo P) (pp_hi P) pi dl ul pts ->
  forall n timeout tape (st : nat -> pop) j t b, (0 < pp_K P)%nat -> 0 < timeout ->
  (forall i, (i < length pts)%nat -> (j < length (pop_means (st i)))%nat /\ turns_for P n (st i) = t /\ at_point pts i (nth j (pop_means (st i)) []) = true) ->
  rounds_use P timeout j t tape ->
  over (length pts) (fun i => point_share pi pts i *
    centre_prob P pi (pair_law dl ul) n timeout tape (t * pp_L P) (st i) j (states_in (length pts) (at_point pts) b))
  == chance (length pts) (point_share pi pts) b.
Proof.
  intros P pi dl ul pts (A1 & A2 & A3 & A4 & A5 & A6 & A7 & A8 & A9 & A10) n timeout tape st j t b K Ht S R.
  set (C1 := fun a wd X Y => proj1 (A8 a wd X Y)). set (C2 := fun a wd X Y => proj2 (A8 a wd X Y)).
  eapply Qeq_trans; [|apply (walk_stays P pi dl ul pts A1 A2 A3 A4 A7 A6 C1 C2 A9 A10 (t * pp_L P) b)].
  apply over_ext. intros i I. destruct (S i I) as (J & T & At). apply Qmult_comp; [reflexivity|]. rewrite <- T in R |- *.
  rewrite (centre_walk P pi _ n timeout tape (st i) j _ J K Ht R).
  rewrite (walk_jumps P pi dl ul pts A3 A4 A7 A6 C1 C2 b _ i _ I At).
  symmetry. apply (walk_jumps P pi dl ul pts A3 A4 A7 A6 C1 C2 b _ i _ I (same_refl _)).
Qed.
Print Assumptions C97_target_kept_partial.

(** Two points, the second three times as likely; displacements -1, 0, 1. *)
Definition w_pi (x : vec) : Q := if same_point x [0] then 1 else if same_point x [1] then 3 else 0.
Definition w_dl : list (Q * vec) := [(1 # 3, [-(1)]); (1 # 3, [0]); (1 # 3, [1])].
Definition w_ul : list (Q * Q) := [(1 # 3, 0); (1 # 3, 1 # 3); (1 # 3, 2 # 3)].
Definition w_pts : list vec := [[0]; [1]].
Definition w_par (lo hi : Q) : pop_params := mkPop [lo] [hi] 1 1 1 (fun _ _ => 1).
Definition w_rounds (t : nat) (evs : list (vec * Q)) : list pop_round :=
  map (fun i => mkPopR (fun _ _ => [0]) (fun _ _ => 0) (fun _ q => nth (i + q) evs ([], 0)) 0) (seq 0 t).
Lemma w_rounds_ok lo hi t : rounds_use (w_par lo hi) 1 0 t (w_rounds t).
Proof.
  intros evs. unfold w_rounds. split; [now rewrite map_length, seq_length|]. split.
  - intros r I. apply in_map_iff in I. destruct I as (i & <- & _). reflexivity.
  - intros i r q E Q. simpl in Q. assert (I : (i < t)%nat) by (rewrite <- (seq_length t 0), <- (map_length (fun i => mkPopR (fun _ _ => [0]) (fun _ _ => 0) (fun _ q => nth (i + q) evs ([], 0)) 0)); apply nth_error_Some; congruence).
    erewrite map_nth_error in E; [|rewrite (nth_error_nth' _ 0%nat) by (rewrite seq_length; exact I); reflexivity]. injection E as <-. rewrite seq_nth by exact I.
    cbn [pr_mh w_par pp_L]. now rewrite Nat.mul_1_r.
Qed.
Lemma w_same x y z : same_point x y = true -> same_point x z = same_point y z.
Proof.
  intros H. destruct (same_point x z) eqn:A, (same_point y z) eqn:B; auto.
  - rewrite (same_trans _ _ _ (same_sym _ _ H) A) in B. discriminate.
  - rewrite (same_trans _ _ _ H B) in A. discriminate.
Qed.
Lemma w_two i : (i < 2)%nat -> i = 0%nat \/ i = 1%nat. Proof. lia. Qed.
Lemma w_open : open_walk [-(10)] [10] w_pi w_dl w_ul w_pts.
Proof.
  split; [split; [reflexivity|intros wx I; simpl in I; repeat (destruct I as [<-|I]; [vm_compute; discriminate|]); destruct I]|].
  split; [split; [reflexivity|intros wx I; simpl in I; repeat (destruct I as [<-|I]; [vm_compute; discriminate|]); destruct I]|].
  split; [intros wx I; simpl in I; repeat (destruct I as [<-|I]; [vm_compute; discriminate|]); destruct I|].
  split; [intros x y H; unfold w_pi; rewrite !(w_same x y _ H); reflexivity|].
  split; [discriminate|].
  split; [intros i j I J; destruct (w_two i I) as [-> | ->]; destruct (w_two j J) as [-> | ->]; vm_compute; auto; discriminate|].
  split; [intros i I; destruct (w_two i I) as [-> | ->]; reflexivity|].
  split.
  { intros i wd I D y. destruct (w_two i I) as [-> | ->]; simpl in D; repeat (destruct D as [<-|D]; [clear; subst y; (split; [vm_compute; repeat split; discriminate|]);
      first [right; reflexivity|left; exists 0%nat; split; [simpl; lia|reflexivity]|left; exists 1%nat; split; [simpl; lia|reflexivity]]|]); destruct D. }
  split; [intros i j I J; destruct (w_two i I) as [-> | ->]; destruct (w_two j J) as [-> | ->]; reflexivity|].
  intros i j I J; destruct (w_two i I) as [-> | ->]; destruct (w_two j J) as [-> | ->]; reflexivity.
Qed.
Definition w_st (i : nat) : pop := mkPopS [[inject_Z (Z.of_nat i)]] [] [] 0 0 0 0.
Example C97_centres_law_partial_example :
  let P := w_par (-(10)) 10 in
  open_walk (pp_lo P) (pp_hi P) w_pi w_dl w_ul w_pts /\ turns_for P 5 (w_st 0) = 5%nat /\ rounds_use P 1 0 5 (w_rounds 5) /\
  at_point w_pts 0 (nth 0 (pop_means (w_st 0)) []) = true /\
  (forall a c, (a < 2)%nat -> (c < 2)%nat -> (4 # 9) * point_share w_pi w_pts c <= walk_prob P w_pi (pair_law w_dl w_ul) 1 (nth a w_pts []) (at_point w_pts c)) /\
  chance 2 (point_share w_pi w_pts) (fun c => (c =? 1)%nat) == 3 # 4.
Proof.
  cbv zeta. split; [apply w_open|]. split; [reflexivity|]. split; [apply w_rounds_ok|]. split; [reflexivity|]. split; [|reflexivity].
  intros a c A C; destruct (w_two a A) as [-> | ->]; destruct (w_two c C) as [-> | ->]; vm_compute; discriminate.
Qed.
Example C97_target_kept_partial_example :
  let P := w_par (-(10)) 10 in
  open_walk (pp_lo P) (pp_hi P) w_pi w_dl w_ul w_pts /\ rounds_use P 1 0 5 (w_rounds 5) /\
  (forall i, (i < 2)%nat -> (0 < length (pop_means (w_st i)))%nat /\ turns_for P 5 (w_st i) = 5%nat /\ at_point w_pts i (nth 0 (pop_means (w_st i)) []) = true).
Proof.
  cbv zeta. split; [apply w_open|]. split; [apply w_rounds_ok|]. intros i I; destruct (w_two i I) as [-> | ->]; (split; [simpl; lia|split; reflexivity]).
Qed.

(** The uniform target on [0, 2]; displacements -2 to 2. *)
Definition u_pi (x : vec) : Q := match x with [a] => if Qle_bool 0 a && Qle_bool a 2 then 1 else 0 | _ => 0 end.
Definition u_dl : list (Q * vec) := map (fun d => (1 # 5, [d])) [-(2); -(1); 0; 1; 2].
Definition u_ul : list (Q * Q) := [(1 # 2, 0); (1 # 2, 1 # 2)].
Definition u_pts : list vec := [[0]; [1]; [2]].
Lemma u_step x we : In x u_pts -> In we (pair_law u_dl u_ul) -> In (one_step (w_par 0 2) u_pi x (snd we)) u_pts.
Proof.
  intros H I. assert (G : forallb (fun x => forallb (fun we => existsb (fun y => if list_eq_dec (fun a b : Q => ltac:(decide equality; [apply Pos.eq_dec|apply Z.eq_dec])) (one_step (w_par 0 2) u_pi x (snd we)) y then true else false) u_pts)
     (pair_law u_dl u_ul)) u_pts = true) by (vm_compute; reflexivity).
  rewrite forallb_forall in G. specialize (G x H). rewrite forallb_forall in G. specialize (G we I). apply existsb_exists in G. destruct G as (y & Y & E).
  destruct (list_eq_dec _ _ _) in E; [|discriminate]. now subst y || congruence.
Qed.
Lemma u_walk n : forall x, In x u_pts -> walk_prob (w_par 0 2) u_pi (pair_law u_dl u_ul) (S n) x (at_point u_pts 1) == 1 # 5.
Proof.
  induction n as [|n IH]; intros x X.
  - simpl in X. destruct X as [<-|[<-|[<-|[]]]]; vm_compute; reflexivity.
  - rewrite walk_S. rewrite (Qsum_ext _ (fun we => (1 # 5) * fst we)).
    + rewrite Qsum_scal. vm_compute. reflexivity.
    + intros we W. rewrite IH by (apply u_step; auto). ring.
Qed.

(** C97 is false when the chains reach the border: a displacement that leaves the box is clipped to the border, so the border is
    proposed more often than proposed from. The target is uniform on [0, 2], displacements are -2, -1, 0, 1, 2 with equal
    chances. Whatever the number of turns, a centre that starts at 0, 1 or 2 is at 1 with probability 1/5; its share is 1/3. *)
Theorem C97_border_refuted :
  exists lo hi pi dl ul pts,
  is_law dl /\ is_law ul /\ symmetric dl pts /\ (forall i, (i < length pts)%nat -> in_box [lo] [hi] (nth i pts []) /\ pi (nth i pts []) == 1) /\
  (forall i j, (i < length pts)%nat -> (j < length pts)%nat -> fair ul (pi (nth j pts []) / pi (nth i pts []))) /\
  chance (length pts) (point_share pi pts) (fun c => (c =? 1)%nat) == 1 # 3 /\
  let P := mkPop [lo] [hi] 1 1 1 (fun _ _ => 1) in
  forall s x n tape, pop_means s = [x] -> In x pts -> (length (pop_samples s) < n)%nat -> rounds_use P 1 0 (turns_for P n s) tape ->
  centre_prob P pi (pair_law dl ul) n 1 tape (turns_for P n s * pp_L P) s 0 (at_point pts 1) == 1 # 5.
Proof.
  exists 0, 2, u_pi, u_dl, u_ul, u_pts.
  assert (Three : forall i, (i < 3)%nat -> i = 0%nat \/ i = 1%nat \/ i = 2%nat) by lia.
  split; [split; [reflexivity|intros wx I; simpl in I; repeat (destruct I as [<-|I]; [vm_compute; discriminate|]); destruct I]|].
  split; [split; [reflexivity|intros wx I; simpl in I; repeat (destruct I as [<-|I]; [vm_compute; discriminate|]); destruct I]|].
  split; [intros i j I J; destruct (Three i I) as [-> |[-> | ->]]; destruct (Three j J) as [-> |[-> | ->]]; reflexivity|].
  split; [intros i I; destruct (Three i I) as [-> |[-> | ->]]; (split; [vm_compute; repeat split; discriminate|reflexivity])|].
  split; [intros i j I J; destruct (Three i I) as [-> |[-> | ->]]; destruct (Three j J) as [-> |[-> | ->]]; reflexivity|].
  split; [reflexivity|]. intros P s x n tape M X Hn R.
  assert (J : (0 < length (pop_means s))%nat) by (rewrite M; simpl; lia).
  rewrite (centre_walk P u_pi _ n 1 tape s 0 _ J (Nat.lt_0_succ 0) eq_refl R). rewrite M. cbn [nth].
  unfold turns_for. rewrite M. cbn [length P pp_K pp_L Nat.mul Nat.add]. rewrite Nat.div_1_r, Nat.mul_1_r.
  replace (n - length (pop_samples s) + 1 - 1)%nat with (S (n - length (pop_samples s) - 1)) by lia. apply u_walk. exact X.
Qed.
Print Assumptions C97_border_refuted.
Example C97_border_refuted_example : rounds_use (w_par 0 2) 1 0 (turns_for (w_par 0 2) 4 (w_st 1)) (w_rounds 4).
Proof. apply w_rounds_ok. Qed.
