(** Lemmas on the chains of the upper layer of layered AIS. *)
From Coq Require Import List Bool Arith Lia ZArith QArith Qabs Lqa.
Import ListNotations.
From Verif Require Import Prelude.Py Prelude.QBase Prelude.QFacts Model.Base Model.Mixture Model.Population Model.PopulationLaw
  Spec.Box Spec.PopulationSpec Spec.UnbiasedSpec Spec.ChainSpec Spec.WalkSpec Proofs.PopulationProofs Proofs.PopulationUnbiased Proofs.MHChain.
Open Scope Q_scope.

(** ** Points *)
Lemma same_refl x : same_point x x = true.
Proof. induction x as [|a x IH]; simpl; auto. rewrite IH, (proj2 (Qeq_bool_iff a a)) by reflexivity. reflexivity. Qed.
Lemma same_sym x : forall y, same_point x y = true -> same_point y x = true.
Proof.
  induction x as [|a x IH]; intros [|b y] H; try discriminate; auto. simpl in *. apply andb_true_iff in H. destruct H as [A B].
  rewrite (IH y B). apply Qeq_bool_iff in A. rewrite (proj2 (Qeq_bool_iff b a)) by (symmetry; exact A). reflexivity.
Qed.
Lemma same_trans x : forall y z, same_point x y = true -> same_point y z = true -> same_point x z = true.
Proof.
  induction x as [|a x IH]; intros [|b y] [|c z] H G; try discriminate; auto. simpl in *. apply andb_true_iff in H, G. destruct H as [A B], G as [C D].
  rewrite (IH y z B D). apply Qeq_bool_iff in A, C. rewrite (proj2 (Qeq_bool_iff a c)) by (rewrite A; exact C). reflexivity.
Qed.
Lemma same_vadd x : forall y d, same_point x y = true -> same_point (vadd x d) (vadd y d) = true.
Proof.
  unfold vadd. induction x as [|a x IH]; intros [|b y] [|c d] H; try discriminate; auto. simpl in *. apply andb_true_iff in H. destruct H as [A B].
  rewrite (IH y d B). apply Qeq_bool_iff in A. rewrite (proj2 (Qeq_bool_iff (a + c) (b + c))) by (rewrite A; reflexivity). reflexivity.
Qed.
Lemma qmax_same a b l : a == b -> qmax a l == qmax b l.
Proof.
  intros E. unfold qmax. destruct (Qle_bool a l) eqn:H, (Qle_bool b l) eqn:G; try apply Qle_bool_iff in H; try apply Qle_bool_iff in G; try apply Qle_bool_false in H; try apply Qle_bool_false in G; lra.
Qed.
Lemma qmin_same a b l : a == b -> qmin a l == qmin b l.
Proof.
  intros E. unfold qmin. destruct (Qle_bool a l) eqn:H, (Qle_bool b l) eqn:G; try apply Qle_bool_iff in H; try apply Qle_bool_iff in G; try apply Qle_bool_false in H; try apply Qle_bool_false in G; lra.
Qed.
Lemma clip1_same a b l h : a == b -> clip1 a l h == clip1 b l h.
Proof. intros E. unfold clip1. apply qmin_same, qmax_same, E. Qed.
Lemma clip1_inside a l h : l <= a -> a <= h -> clip1 a l h == a.
Proof.
  intros A B. unfold clip1. assert (E : qmax a l == a) by (unfold qmax; destruct (Qle_bool a l) eqn:H; [apply Qle_bool_iff in H; lra|lra]).
  rewrite (qmin_same _ _ h E). unfold qmin. destruct (Qle_bool a h) eqn:H; [lra|apply Qle_bool_false in H; lra].
Qed.
Lemma same_vclip x : forall y lo hi, same_point x y = true -> same_point (vclip x lo hi) (vclip y lo hi) = true.
Proof.
  induction x as [|a x IH]; intros [|b y] [|l lo] [|h hi] H; try discriminate; auto. simpl in *. apply andb_true_iff in H. destruct H as [A B].
  rewrite (IH y lo hi B). apply Qeq_bool_iff in A. rewrite (proj2 (Qeq_bool_iff _ _)) by (apply clip1_same; exact A). reflexivity.
Qed.
Lemma same_inside x : forall lo hi, in_box lo hi x -> same_point (vclip x lo hi) x = true.
Proof.
  induction x as [|a x IH]; intros [|l lo] [|h hi] H; simpl in *; try tauto. destruct H as (A & B & C). rewrite (IH lo hi C), andb_true_r.
  apply Qeq_bool_iff. now apply clip1_inside.
Qed.

(** ** Steps *)
Lemma mcmc_shift P pi ev n : forall l x, mcmc_mh P pi ev n (S l) x = mcmc_mh P pi (fun i => ev (S i)) n l x.
Proof. induction n as [|n IH]; intros l x; simpl; auto. Qed.
Lemma mcmc_ext P pi ev ev' n : forall l l' x, (forall i, (i < n)%nat -> ev (l + i)%nat = ev' (l' + i)%nat) -> mcmc_mh P pi ev n l x = mcmc_mh P pi ev' n l' x.
Proof.
  induction n as [|n IH]; intros l l' x H; simpl; auto. pose proof (H 0%nat ltac:(lia)) as E. rewrite !Nat.add_0_r in E. rewrite E.
  apply IH. intros i I. specialize (H (S i) ltac:(lia)). now rewrite !Nat.add_succ_r in H.
Qed.
Lemma mcmc_plus P pi ev n m : forall l x, mcmc_mh P pi ev (n + m) l x = mcmc_mh P pi ev m (l + n) (mcmc_mh P pi ev n l x).
Proof.
  induction n as [|n IH]; intros l x; simpl; [now rewrite Nat.add_0_r|]. rewrite IH. f_equal. lia.
Qed.
Definition one_step (P : pop_params) (pi : vec -> Q) (x : vec) (e : vec * Q) : vec := mcmc_mh P pi (fun _ => e) 1 0 x.
Lemma mcmc_S P pi e evs n x : mcmc_mh P pi (fun l => nth l (e :: evs) ([], 0)) (S n) 0 x = mcmc_mh P pi (fun l => nth l evs ([], 0)) n 0 (one_step P pi x e).
Proof. change (S n) with (1 + n)%nat. rewrite mcmc_plus. simpl Nat.add. rewrite mcmc_shift. reflexivity. Qed.
Lemma walk_S P pi om n x B : walk_prob P pi om (S n) x B == Qsum (map (fun we => fst we * walk_prob P pi om n (one_step P pi x (snd we)) B) om).
Proof.
  unfold walk_prob. cbn [repeat expect_each]. apply Qsum_ext. intros we _.
  rewrite (expect_ext (repeat om n) _ (fun evs => if B (mcmc_mh P pi (fun l => nth l evs ([], 0)) n 0 (one_step P pi x (snd we))) then 1 else 0)); [reflexivity|].
  intros evs _. now rewrite mcmc_S.
Qed.
Lemma walk_1 P pi om x B : walk_prob P pi om 1 x B == Qsum (map (fun we => fst we * (if B (one_step P pi x (snd we)) then 1 else 0)) om).
Proof. rewrite walk_S. reflexivity. Qed.

Lemma Qsum_over' {A} k (l : list A) (f : nat -> A -> Q) : Qsum (map (fun a => over k (fun j => f j a)) l) == over k (fun j => Qsum (map (f j) l)).
Proof. unfold over. apply (Qsum_swap (fun a j => f j a)). Qed.

(** ** Powers of a kernel *)
Section Powers.
Variable k : nat.
Variable J : nat -> nat -> Q.
Definition dot (j i : nat) : Q := if (j =? i)%nat then 1 else 0.
Lemma over_dot g i : (i < k)%nat -> over k (fun j => dot j i * g j) == g i.
Proof.
  intros I. rewrite (over_ext k _ (fun j => if (i =? j)%nat then g j else 0)); [now apply over_one|]. intros j _. unfold dot. rewrite (Nat.eqb_sym j i).
  destruct (i =? j)%nat; ring.
Qed.
Lemma jumps_ext t : forall g h i, (forall j, (j < k)%nat -> g j == h j) -> (i < k)%nat -> jumps k J t g i == jumps k J t h i.
Proof. induction t as [|t IH]; intros g h i E I; cbn [jumps]; auto. apply over_ext. intros j Hj. now rewrite (IH g h j E Hj). Qed.
Lemma jumps_linear t g : forall i, (i < k)%nat -> jumps k J t g i == over k (fun j => jumps k J t (dot j) i * g j).
Proof.
  induction t as [|t IH]; intros i I; cbn [jumps].
  - now rewrite over_dot.
  - rewrite (over_ext k _ (fun l => over k (fun j => J i l * jumps k J t (dot j) l * g j))).
    + rewrite over_swap. apply over_ext. intros j Hj. rewrite (over_ext k _ (fun l => g j * (J i l * jumps k J t (dot j) l))) by (intros; ring).
      rewrite over_scal. ring.
    + intros l Hl. rewrite (IH l Hl), <- over_scal. apply over_ext. intros; ring.
Qed.
Lemma jumps_plus s t g : forall i, (i < k)%nat -> jumps k J (s + t) g i == jumps k J s (jumps k J t g) i.
Proof. induction s as [|s IH]; intros i I; cbn [Nat.add jumps]; [reflexivity|]. apply over_ext. intros j Hj. now rewrite (IH j Hj). Qed.
Definition power (q : nat) (i j : nat) : Q := jumps k J q (dot j) i.
Lemma jumps_power q t g : forall i, (i < k)%nat -> jumps k J (t * q) g i == jumps k (power q) t g i.
Proof.
  induction t as [|t IH]; intros i I; cbn [Nat.mul jumps]; [reflexivity|]. rewrite (jumps_plus q (t * q) g i I), (jumps_linear q _ i I).
  apply over_ext. intros j Hj. unfold power. now rewrite (IH j Hj).
Qed.
Hypothesis J1 : forall i, (i < k)%nat -> over k (J i) == 1.
Hypothesis J0 : forall i j, (i < k)%nat -> (j < k)%nat -> 0 <= J i j.
Lemma jumps_range t g : (forall j, (j < k)%nat -> 0 <= g j <= 1) -> forall i, (i < k)%nat -> 0 <= jumps k J t g i <= 1.
Proof.
  intros G. induction t as [|t IH]; intros i I; cbn [jumps]; auto. split.
  - apply over_nonneg. intros j Hj. apply Qmult_le_0_compat; [auto|apply IH; auto].
  - rewrite <- (J1 i I). apply over_le. intros j Hj. pose proof (J0 i j I Hj). destruct (IH j Hj). nra.
Qed.
Lemma jumps_one t : forall i, (i < k)%nat -> jumps k J t (fun _ => 1) i == 1.
Proof.
  induction t as [|t IH]; intros i I; cbn [jumps]; [reflexivity|]. rewrite (over_ext k _ (J i)); [auto|]. intros j Hj. rewrite (IH j Hj). ring.
Qed.
Variable m : nat -> Q.
Variable beta : Q.
Variable q : nat.
Hypothesis Bal : balanced k m J.
Hypothesis Ma : masses k m.
Hypothesis Db : forall i j, (i < k)%nat -> (j < k)%nat -> beta * share k m j <= power q i j.
Lemma share_inv j : (j < k)%nat -> over k (fun i => share k m i * J i j) == share k m j.
Proof.
  intros Hj. rewrite (over_ext k _ (fun i => share k m j * J j i)); [rewrite over_scal, J1 by auto; ring|].
  intros i Hi. unfold share, Qdiv. rewrite (Qmult_comm (m i)), (Qmult_comm (m j)), <- !Qmult_assoc, (Bal i j Hi Hj). reflexivity.
Qed.
Lemma share_nonneg j : (j < k)%nat -> 0 <= share k m j.
Proof. intros Hj. destruct Ma as [A B]. unfold share. apply Qle_shift_div_l; auto. specialize (A j Hj). lra. Qed.
Lemma power_close T g i : (forall j, (j < k)%nat -> 0 <= g j <= 1) -> (i < k)%nat -> (0 < q)%nat ->
  Qabs (jumps k J T g i - over k (fun i => share k m i * g i)) <= Qpow (1 - beta) (T / q).
Proof.
  intros G I Hq. pose proof (Nat.div_mod T q ltac:(lia)) as E. 
  assert (E1 : jumps k J T g i == jumps k (power q) (T / q) (jumps k J (T mod q) g) i).
  { rewrite E at 1. rewrite (Nat.mul_comm q), (jumps_plus (T / q * q) (T mod q) g i I). now apply jumps_power. }
  assert (M1 : over k (share k m) == 1) by (apply share_sum; apply Ma).
  assert (E2 : over k (fun i => share k m i * g i) == over k (fun i => share k m i * jumps k J (T mod q) g i)).
  { symmetry. apply (jumps_mean k J (share k m)). apply share_inv. }
  rewrite E1, E2. apply jumps_close; auto.
  - intros j Hj. unfold power. rewrite (over_ext k _ (fun l => jumps k J q (dot l) j * 1)) by (intros; ring). rewrite <- (jumps_linear q (fun _ => 1) j Hj). now apply jumps_one.
  - apply share_nonneg.
  - intros j Hj. unfold power. rewrite (jumps_mean k J (share k m) share_inv q (dot j)).
    rewrite (over_ext k _ (fun l => if (j =? l)%nat then share k m l else 0)); [now rewrite over_one|].
    intros l _. unfold dot. destruct (j =? l)%nat; ring.
  - apply jumps_range; auto.
Qed.
Lemma share_jumps T g : over k (fun i => share k m i * jumps k J T g i) == over k (fun i => share k m i * g i).
Proof. apply jumps_mean. apply share_inv. Qed.
End Powers.

(** ** Chains between points *)
Section Walk.
Variable P : pop_params.
Variable pi : vec -> Q.
Variable dl : list (Q * vec).
Variable ul : list (Q * Q).
Variable pts : list vec.
Let k := length pts.
Let om := pair_law dl ul.
Let at_ := at_point pts.
Let m (i : nat) : Q := pi (nth i pts []).
Hypothesis Dl : is_law dl.
Hypothesis Ul : is_law ul.
Hypothesis U0 : forall wu, In wu ul -> 0 <= snd wu.
Hypothesis Pp : forall x y, same_point x y = true -> pi x == pi y.
Hypothesis Pos : forall i, (i < k)%nat -> 0 < m i.
Hypothesis Di : distinct_points pts.
Hypothesis Ins : forall i wd, (i < k)%nat -> In wd dl -> in_box (pp_lo P) (pp_hi P) (vadd (nth i pts []) (snd wd)).
Hypothesis Clo : forall i wd, (i < k)%nat -> In wd dl -> in_points pts (vadd (nth i pts []) (snd wd)) \/ pi (vadd (nth i pts []) (snd wd)) == 0.

Lemma in_pair {X Y} (l : list (Q * X)) (r : list (Q * Y)) we : In we (pair_law l r) -> exists a b, In a l /\ In b r /\ we = (fst a * fst b, (snd a, snd b)).
Proof. unfold pair_law. rewrite in_flat_map. intros (a & A & B). apply in_map_iff in B. destruct B as (b & <- & B). eauto. Qed.
Lemma pair_sum {X Y} (l : list (Q * X)) (r : list (Q * Y)) (f : Q * (X * Y) -> Q) :
  Qsum (map f (pair_law l r)) == Qsum (map (fun a => Qsum (map (fun b => f (fst a * fst b, (snd a, snd b))) r)) l).
Proof.
  unfold pair_law. induction l as [|a l IH]; cbn [flat_map map Qsum fold_right]; [reflexivity|].
  rewrite map_app, map_map. pose proof (Qsum_app (map (fun b => f (fst a * fst b, (snd a, snd b))) r) (map f (flat_map (fun a => map (fun b => (fst a * fst b, (snd a, snd b))) r) l))) as E.
  unfold Qsum in *. rewrite E, IH. reflexivity.
Qed.
Lemma om_mass : Qsum (map fst om) == 1.
Proof.
  unfold om. rewrite pair_sum. cbn [fst snd]. rewrite (Qsum_ext _ (fun a => 1 * fst a)).
  - rewrite Qsum_scal, (proj1 Dl). ring.
  - intros a _. rewrite Qsum_scal, (proj1 Ul). ring.
Qed.
Lemma om_nonneg we : In we om -> 0 <= fst we.
Proof. intros I. apply in_pair in I. destruct I as (a & b & A & B & ->). apply Qmult_le_0_compat; [apply Dl|apply Ul]; auto. Qed.

Definition moved (x d : vec) : vec := vclip (vadd x d) (pp_lo P) (pp_hi P).
Lemma one_step_eq x e : one_step P pi x e = if fgtQ (fdivQ (pi (moved x (fst e))) (pi x)) (snd e) then moved x (fst e) else x.
Proof. reflexivity. Qed.
Lemma moved_same i x wd : (i < k)%nat -> at_ i x = true -> In wd dl -> same_point (moved x (snd wd)) (vadd (nth i pts []) (snd wd)) = true.
Proof.
  intros I A D. unfold moved. eapply same_trans; [apply same_vclip, same_vadd; exact A|]. apply same_inside. auto.
Qed.
Lemma ratio_eq i x wd u : (i < k)%nat -> at_ i x = true -> In wd dl ->
  fgtQ (fdivQ (pi (moved x (snd wd))) (pi x)) u = Qltb u (pi (vadd (nth i pts []) (snd wd)) / m i).
Proof.
  intros I A D. pose proof (Pp _ _ A) as Ex. pose proof (Pp _ _ (moved_same i x wd I A D)) as Ey. pose proof (Pos i I) as Mp. fold (m i) in Ex.
  unfold fdivQ. destruct (Qeq_bool (pi x) 0) eqn:Z; [apply Qeq_bool_iff in Z; lra|]. unfold fgtQ.
  assert (E : pi (moved x (snd wd)) / pi x == pi (vadd (nth i pts []) (snd wd)) / m i) by (rewrite Ex, Ey; reflexivity).
  destruct (Qltb_spec u (pi (moved x (snd wd)) / pi x)), (Qltb_spec u (pi (vadd (nth i pts []) (snd wd)) / m i)); auto; rewrite E in *; tauto.
Qed.
(** From the same state the same random numbers lead to the same state. *)
Lemma step_together i x we : (i < k)%nat -> at_ i x = true -> In we om -> exists j, (j < k)%nat /\ at_ j (one_step P pi x (snd we)) = true /\
  at_ j (one_step P pi (nth i pts []) (snd we)) = true.
Proof.
  intros I A W. apply in_pair in W. destruct W as (wd & wu & D & U & ->). cbn [fst snd]. rewrite !one_step_eq. cbn [fst snd].
  assert (A' : at_ i (nth i pts []) = true) by apply same_refl.
  rewrite (ratio_eq i x wd _ I A D), (ratio_eq i (nth i pts []) wd _ I A' D).
  destruct (Qltb_spec (snd wu) (pi (vadd (nth i pts []) (snd wd)) / m i)) as [H|H].
  - destruct (Clo i wd I D) as [(j & J & B)|Z].
    + exists j. split; [exact J|]. split; (eapply same_trans; [apply (moved_same i); auto|exact B]).
    + exfalso. pose proof (U0 wu U). assert (E : pi (vadd (nth i pts []) (snd wd)) / m i == 0) by (rewrite Z; unfold Qdiv; ring). lra.
  - exists i. auto.
Qed.
Lemma at_one x i j : (i < k)%nat -> (j < k)%nat -> at_ i x = true -> at_ j x = true -> i = j.
Proof. intros I J A B. apply Di; auto. eapply same_trans; [apply same_sym; exact A|exact B]. Qed.

Definition kern (i j : nat) : Q := walk_prob P pi om 1 (nth i pts []) (at_ j).
Lemma kern_row i : (i < k)%nat -> over k (kern i) == 1.
Proof.
  intros I. unfold kern. rewrite (over_ext k _ (fun j => Qsum (map (fun we => fst we * (if at_ j (one_step P pi (nth i pts []) (snd we)) then 1 else 0)) om))) by (intros; apply walk_1).
  rewrite <- (Qsum_over' k om (fun j we => fst we * (if at_ j (one_step P pi (nth i pts []) (snd we)) then 1 else 0))). rewrite (Qsum_ext _ fst); [apply om_mass|].
  intros we W. rewrite over_scal. destruct (step_together i (nth i pts []) we I (same_refl _) W) as (j & J & _ & B).
  rewrite (one_state k at_ at_one) by (exists j; auto). ring.
Qed.
Lemma kern_nonneg i j : 0 <= kern i j.
Proof.
  unfold kern. rewrite walk_1. assert (G : forall l, (forall we, In we l -> 0 <= fst we) -> 0 <= Qsum (map (fun we => fst we * (if at_ j (one_step P pi (nth i pts []) (snd we)) then 1 else 0)) l)).
  { induction l as [|we l IH]; intros H; [apply Qle_refl|].
    match goal with |- 0 <= Qsum (map ?f (we :: l)) => change (0 <= f we + Qsum (map f l)); cbv beta end.
    pose proof (H we (or_introl eq_refl)). specialize (IH (fun w I => H w (or_intror I))).
    match type of IH with 0 <= ?q => set (z := q) in * end. clearbody z. destruct (at_ j _); lra. }
  apply G, om_nonneg.
Qed.
Lemma walk_jumps b n : forall i x, (i < k)%nat -> at_ i x = true ->
  walk_prob P pi om n x (states_in k at_ b) == jumps k kern n (fun j => if b j then 1 else 0) i.
Proof.
  induction n as [|n IH]; intros i x I A.
  - cbn. rewrite (states_in_at k at_ at_one b x i I A). reflexivity.
  - rewrite walk_S. cbn [jumps]. unfold kern at 1.
    rewrite (over_ext k _ (fun j => Qsum (map (fun we => fst we * (if at_ j (one_step P pi (nth i pts []) (snd we)) then 1 else 0) * jumps k kern n (fun j => if b j then 1 else 0) j) om))).
    + rewrite <- (Qsum_over' k om). apply Qsum_ext. intros we W. destruct (step_together i x we I A W) as (j & J & B & C).
      rewrite (IH j _ J B). rewrite (over_ext k _ (fun l => fst we * (jumps k kern n (fun j => if b j then 1 else 0) l * (if at_ l (one_step P pi (nth i pts []) (snd we)) then 1 else 0)))) by (intros; ring).
      rewrite over_scal, (value_state k at_ at_one _ _ j J C). reflexivity.
    + intros j J. rewrite walk_1. rewrite Qmult_comm, <- Qsum_scal. apply Qsum_ext. intros we _. ring.
Qed.
Hypothesis Sy : symmetric dl pts.
Hypothesis Fa : forall i j, (i < k)%nat -> (j < k)%nat -> fair ul (m j / m i).
Lemma kern_value i j : (i < k)%nat -> (j < k)%nat -> i <> j -> kern i j == displaced dl (nth i pts []) (nth j pts []) * below ul (m j / m i).
Proof.
  intros I J N. unfold kern. rewrite walk_1. unfold om. rewrite pair_sum. cbn [fst snd]. unfold displaced. rewrite Qmult_comm, <- Qsum_scal.
  apply Qsum_ext. intros wd D. unfold below.
  assert (A : at_ i (nth i pts []) = true) by apply same_refl.
  assert (M := moved_same i _ wd I A D).
  destruct (same_point (vadd (nth i pts []) (snd wd)) (nth j pts [])) eqn:E.
  - rewrite Qmult_comm, <- Qsum_scal. apply Qsum_ext. intros wu _. rewrite one_step_eq. cbn [fst snd]. rewrite (ratio_eq i _ wd _ I A D).
    assert (Q : pi (vadd (nth i pts []) (snd wd)) / m i == m j / m i) by (rewrite (Pp _ _ E); reflexivity).
    assert (X : Qltb (snd wu) (pi (vadd (nth i pts []) (snd wd)) / m i) = Qltb (snd wu) (m j / m i)).
    { destruct (Qltb_spec (snd wu) (pi (vadd (nth i pts []) (snd wd)) / m i)), (Qltb_spec (snd wu) (m j / m i)); auto; rewrite Q in *; tauto. }
    rewrite X. destruct (Qltb (snd wu) (m j / m i)).
    + assert (B : at_ j (moved (nth i pts []) (snd wd)) = true) by (eapply same_trans; eauto). rewrite B. ring.
    + destruct (at_ j (nth i pts [])) eqn:B; [destruct (N (at_one _ i j I J A B))|ring].
  - rewrite Qmult_0_r. rewrite (Qsum_ext _ (fun wu => 0 * fst wu)); [rewrite Qsum_scal; ring|]. intros wu _. rewrite one_step_eq. cbn [fst snd].
    destruct (fgtQ _ _).
    + destruct (at_ j (moved (nth i pts []) (snd wd))) eqn:B; [|ring]. exfalso.
      assert (same_point (vadd (nth i pts []) (snd wd)) (nth j pts []) = true) by (eapply same_trans; [apply same_sym; exact M|exact B]). congruence.
    + destruct (at_ j (nth i pts [])) eqn:B; [destruct (N (at_one _ i j I J A B))|ring].
Qed.
Lemma kern_balanced : balanced k m kern.
Proof.
  intros i j I J. destruct (Nat.eq_dec i j) as [->|N]; [reflexivity|]. rewrite (kern_value i j I J N), (kern_value j i J I (not_eq_sym N)).
  assert (F1 := Fa i j I J). assert (F2 := Fa j i J I). unfold fair in F1, F2. rewrite F1, F2, (Sy i j I J). pose proof (Pos i I) as A. pose proof (Pos j J) as B.
  destruct (Qle_bool 1 (m j / m i)) eqn:C, (Qle_bool 1 (m i / m j)) eqn:D; try apply Qle_bool_iff in C; try apply Qle_bool_iff in D; try apply Qle_bool_false in C; try apply Qle_bool_false in D.
  - assert (m i <= m j) by (apply (Qmult_le_r 1 (m j / m i) (m i)) in C; auto; rewrite Qmult_1_l in C; setoid_replace (m j / m i * m i) with (m j) in C by (field; lra); exact C).
    assert (m j <= m i) by (apply (Qmult_le_r 1 (m i / m j) (m j)) in D; auto; rewrite Qmult_1_l in D; setoid_replace (m i / m j * m j) with (m i) in D by (field; lra); exact D).
    assert (E : m i == m j) by lra. rewrite E. ring.
  - field. lra.
  - field. lra.
  - exfalso. assert (m j < m i) by (apply (Qmult_lt_r (m j / m i) 1 (m i)) in C; auto; rewrite Qmult_1_l in C; setoid_replace (m j / m i * m i) with (m j) in C by (field; lra); exact C).
    assert (m i < m j) by (apply (Qmult_lt_r (m i / m j) 1 (m j)) in D; auto; rewrite Qmult_1_l in D; setoid_replace (m i / m j * m j) with (m i) in D by (field; lra); exact D). lra.
Qed.
Hypothesis Ne : pts <> [].
Lemma pts_masses : masses k m.
Proof.
  split; [intros i I; apply Qlt_le_weak; auto|]. assert (K : (0 < k)%nat) by (unfold k; destruct pts; [congruence|simpl; lia]).
  apply Qlt_le_trans with (m 0%nat); [auto|]. rewrite <- (over_one k m 0%nat K). apply over_le. intros j J. destruct (0 =? j)%nat; [lra|]. apply Qlt_le_weak; auto.
Qed.
Lemma chance_sum b : chance k (share k m) b == over k (fun i => share k m i * (if b i then 1 else 0)).
Proof. apply over_ext. intros i _. destruct (b i); ring. Qed.
Lemma states_in_dot j x : (j < k)%nat -> states_in k at_ (fun l => (j =? l)%nat) x = at_ j x.
Proof.
  intros J. unfold states_in. destruct (at_ j x) eqn:E.
  - apply existsb_exists. exists j. split; [apply in_seq; lia|]. now rewrite E, Nat.eqb_refl.
  - destruct (existsb _ _) eqn:X; auto. apply existsb_exists in X. destruct X as (l & _ & Y). apply andb_true_iff in Y. destruct Y as [Y Z]. apply Nat.eqb_eq in Z. congruence.
Qed.
Lemma walk_close beta q n b i x : (i < k)%nat -> at_ i x = true -> (0 < q)%nat ->
  (forall i j, (i < k)%nat -> (j < k)%nat -> beta * share k m j <= walk_prob P pi om q (nth i pts []) (at_ j)) ->
  Qabs (walk_prob P pi om n x (states_in k at_ b) - chance k (share k m) b) <= Qpow (1 - beta) (n / q).
Proof.
  intros I A Hq Db. rewrite (walk_jumps b n i x I A), chance_sum.
  apply power_close; auto.
  - apply kern_row.
  - intros; apply kern_nonneg.
  - apply kern_balanced.
  - apply pts_masses.
  - intros a c Ha Hc. unfold power. assert (X := walk_jumps (fun l => (c =? l)%nat) q a (nth a pts []) Ha (same_refl _)). fold (dot c) in X.
    unfold dot. rewrite <- X.
    assert (Y : walk_prob P pi om q (nth a pts []) (states_in k at_ (fun l => (c =? l)%nat)) == walk_prob P pi om q (nth a pts []) (at_ c)).
    { unfold walk_prob. apply expect_ext. intros evs _. now rewrite states_in_dot. }
    rewrite Y. auto.
  - intros j _. destruct (b j); lra.
Qed.
Lemma walk_stays n b : over k (fun i => share k m i * walk_prob P pi om n (nth i pts []) (states_in k at_ b)) == chance k (share k m) b.
Proof.
  rewrite chance_sum. eapply Qeq_trans; [|apply (share_jumps k kern kern_row m kern_balanced n)]. apply over_ext. intros i I.
  assert (E := walk_jumps b n i _ I (same_refl _)). apply Qmult_comp; [reflexivity|exact E].
Qed.
End Walk.

(** ** Calls *)
Lemma lais_turn P pi r s s' j : pop_iter LAIS P pi r s = Done s' -> (j < length (pop_means s))%nat ->
  nth j (pop_means s') [] = mcmc_mh P pi (pr_mh r j) (pp_L P) 0 (nth j (pop_means s) []).
Proof.
  unfold pop_iter. cbn [pop_adapt lais_adapt]. intros H J. injection H as <-. cbn [pop_means].
  set (g := fun jm : nat * vec => mcmc_mh P pi (pr_mh r (fst jm)) (pp_L P) 0 (snd jm)).
  rewrite (nth_indep _ [] (g (0%nat, []))) by (rewrite map_length, combine_length, seq_length; lia). rewrite map_nth, combine_nth by apply seq_length.
  unfold g. cbn [fst snd]. now rewrite seq_nth by lia.
Qed.
Lemma lais_call P pi n timeout j : forall t tape el s ev l, (j < length (pop_means s))%nat -> (0 < pp_K P)%nat ->
  t = ((n - length (pop_samples s) + length (pop_means s) * pp_K P - 1) / (length (pop_means s) * pp_K P))%nat -> length tape = t ->
  el < timeout -> (forall r, In r tape -> pr_clock r < timeout) ->
  (forall i q, (i < t)%nat -> (q < pp_L P)%nat -> pr_mh (nth i tape (mkPopR (fun _ _ => []) (fun _ _ => 0) (fun _ _ => ([], 0)) 0)) j q = ev (l + (i * pp_L P + q))%nat) ->
  exists s', pop_loop LAIS P pi n timeout tape el s = Done s' /\
  nth j (pop_means s') [] = mcmc_mh P pi ev (t * pp_L P) l (nth j (pop_means s) []).
Proof.
  induction t as [|t IH]; intros tape el s ev l J K T Lt El Cl Ev.
  - assert (Z : (n <= length (pop_samples s))%nat).
    { destruct (Nat.le_gt_cases n (length (pop_samples s))); auto. exfalso.
      rewrite (ceil_step (n - length (pop_samples s)) (length (pop_means s) * pp_K P)) in T by nia. discriminate. }
    destruct tape; [|discriminate]. cbn [pop_loop Nat.mul mcmc_mh]. rewrite (proj2 (Nat.ltb_ge _ _)) by lia. cbn [andb]. eauto.
  - destruct tape as [|r tape]; [discriminate|]. injection Lt as Lt. cbn [pop_loop].
    assert (Z : (length (pop_samples s) < n)%nat).
    { destruct (Nat.le_gt_cases n (length (pop_samples s))); auto. exfalso. 
      replace (n - length (pop_samples s))%nat with 0%nat in T by lia. rewrite Nat.div_small in T by nia. discriminate. }
    rewrite (proj2 (Nat.ltb_lt _ _)) by lia. rewrite (proj2 (Qltb_true _ _)) by exact El. cbn [andb].
    destruct (pop_iter LAIS P pi r s) as [s1|s1|e s1] eqn:E; try discriminate E.
    destruct (done_len LAIS P pi r s s1 E) as (D1 & D2 & _).
    rewrite (ceil_step (n - length (pop_samples s)) (length (pop_means s) * pp_K P)) in T by nia. injection T as T.
    destruct (IH tape (pr_clock r) s1 ev (l + pp_L P)%nat) as (s' & Q1 & Q2); auto.
    + now rewrite D2.
    + rewrite D1, D2, T. f_equal. lia.
    + apply Cl; simpl; auto.
    + intros r' I. apply Cl; simpl; auto.
    + intros i q I Q. specialize (Ev (S i) q ltac:(lia) Q). cbn [nth] in Ev. rewrite Ev. f_equal. simpl. lia.
    + exists s'. split; [exact Q1|]. rewrite Q2. cbn [Nat.mul]. rewrite mcmc_plus. f_equal.
      rewrite (lais_turn P pi r s s1 j E J). apply mcmc_ext. intros i I. specialize (Ev 0%nat i ltac:(lia) I). cbn [nth Nat.mul Nat.add] in Ev. exact Ev.
Qed.
