(** Every leaf of the HiDaisee tree can be chosen as long as no call failed. *)
From Coq Require Import List Bool Arith Lia QArith Lqa Permutation.
Import ListNotations.
From Verif Require Import Prelude.Py Prelude.QBase Prelude.QFacts Prelude.ListFacts Model.Uniform Model.HiDaisee Spec.UniformSpec Spec.SplitSpec
  Spec.ExploreSpec Proofs.UniformProofs Proofs.HiDaiseeBox Proofs.HiDaiseeProofs Proofs.HiDaiseeHistory Proofs.HiDaiseeValues.
Open Scope Q_scope.

Definition posq (n : hnode) : Prop := exists q, h_q n = Fin q /\ 0 < q.
Definition posn (nodes : list hnode) : Prop := forall j n, (1 <= j)%nat -> nth_error nodes j = Some n -> posq n.
Definition kids_up (nodes : list hnode) : Prop :=
  forall i n a b, nth_error nodes i = Some n -> h_kids n = Some (a, b) -> (i < a < length nodes)%nat /\ (i < b < length nodes)%nat.

(** [leaf] hangs below [i]. *)
Inductive below (nodes : list hnode) : nat -> nat -> Prop :=
| below_here i : below nodes i i
| below_kid i n a b c leaf : nth_error nodes i = Some n -> h_kids n = Some (a, b) -> (c = a \/ c = b) -> below nodes c leaf -> below nodes i leaf.

Record kinv (t : htree) : Prop := mkK {
  k_pos : posn (ht_nodes t);
  k_kids : kids_up (ht_nodes t);
  k_leaf : forall i n, In i (ht_leaves t) -> nth_error (ht_nodes t) i = Some n -> h_kids n = None;
  k_below : forall i, In i (ht_leaves t) -> below (ht_nodes t) 0 i;
  k_two : (ht_leaves t = [0%nat] /\ length (ht_nodes t) = 1%nat) \/ (~ In 0%nat (ht_leaves t) /\ (2 <= length (hd_rows t))%nat) }.

(** ** Preservation by value updates *)
Lemma kids_sim a b : sim a b -> kids_up b -> kids_up a.
Proof.
  intros S0 K i n x y E Kn. destruct (sim_nth _ _ _ _ S0 E) as (m & Em & Hm). destruct (strip_fields _ _ Hm) as (_ & _ & Km & _).
  rewrite (sim_length _ _ S0). eapply K; [exact Em|congruence].
Qed.
Lemma below_sim a b i l : sim a b -> below b i l -> below a i l.
Proof.
  intros S0 H. induction H as [i|i n x y c l E K C H IH]; [constructor|].
  destruct (sim_nth _ _ _ _ (sim_sym _ _ S0) E) as (m & Em & Hm). destruct (strip_fields _ _ Hm) as (_ & _ & Km & _).
  eapply below_kid; [exact Em|rewrite Km; exact K|exact C|exact IH].
Qed.
Lemma below_upd nodes i n n' j l : nth_error nodes i = Some n -> h_kids n' = h_kids n -> below nodes j l -> below (upd nodes i n') j l.
Proof.
  intros E K H. induction H as [j|j m x y c l Ej Kj C H IH]; [constructor|].
  destruct (Nat.eq_dec i j) as [->|N].
  - assert (m = n) by congruence. subst m. eapply below_kid; [apply upd_nth_error_eq; apply nth_error_Some; congruence|rewrite K; exact Kj|exact C|exact IH].
  - eapply below_kid; [rewrite upd_nth_error_neq by exact N; exact Ej|exact Kj|exact C|exact IH].
Qed.
Lemma posn_upd nodes i m : posn nodes -> ((1 <= i)%nat -> posq m) -> posn (upd nodes i m).
Proof.
  intros H Hm j n L E. destruct (Nat.eq_dec i j) as [->|N].
  - assert (j < length nodes)%nat. { assert (X : nth_error (upd nodes j m) j <> None) by congruence. apply nth_error_Some in X. now rewrite upd_length in X. }
    rewrite upd_nth_error_eq in E by assumption. injection E as <-. auto.
  - rewrite upd_nth_error_neq in E by assumption. eapply H; eassumption.
Qed.
Lemma refresh_pos nodes i : kids_up nodes -> posn nodes -> posn (refresh_q nodes i).
Proof.
  intros K H. unfold refresh_q. destruct (nth_error nodes i) as [n|] eqn:E; [|exact H]. destruct (h_kids n) as [(a, b)|] eqn:Kn; [|exact H].
  destruct (nth_error nodes a) as [na|] eqn:Ea; [|exact H]. destruct (nth_error nodes b) as [nb|] eqn:Eb; [|exact H].
  destruct (K i n a b E Kn) as (A & B). apply posn_upd; [exact H|]. intros _.
  destruct (H a na ltac:(lia) Ea) as (qa & Qa & Pa). destruct (H b nb ltac:(lia) Eb) as (qb & Qb & Pb).
  exists (qa + qb). cbn [h_q set_q]. rewrite Qa, Qb. split; [reflexivity|lra].
Qed.
Lemma refreshes_pos l : forall nodes, kids_up nodes -> posn nodes -> posn (fold_left refresh_q l nodes).
Proof.
  induction l as [|i l IH]; intros nodes K H; simpl; [exact H|]. apply IH; [|now apply refresh_pos].
  eapply kids_sim; [apply refresh_sim|exact K].
Qed.

(** ** The value given to a leaf *)
Definition weights_ok (n : hnode) : Prop := forall x w, In (x, w) (h_rows n) -> 0 <= w.
Lemma wsum_nonneg (l : list (vec * Q)) : (forall x w, In (x, w) l -> 0 <= w) -> 0 <= Qsum (map snd l).
Proof.
  induction l as [|(x, w) l IH]; intros H; simpl; [lra|]. assert (0 <= w) by (eapply H; left; reflexivity).
  assert (0 <= Qsum (map snd l)) by (apply IH; intros; eapply H; right; eassumption). lra.
Qed.
Lemma Qnat_pos n : (1 <= n)%nat -> 0 < Qnat n.
Proof. intros H. unfold Qnat, Qlt. simpl. lia. Qed.
Lemma mean_nonneg n : weights_ok n -> h_rows n <> [] -> exists m, mean_weight n = Fin m /\ 0 <= m /\ (0 < Qsum (map snd (h_rows n)) -> 0 < m).
Proof.
  intros W N. unfold mean_weight, fdivQ. pose proof (wsum_nonneg _ W) as S0.
  assert (P : 0 < Qnat (length (h_rows n))) by (apply Qnat_pos; destruct (h_rows n); simpl; [congruence|lia]).
  destruct (Qeq_bool (Qnat (length (h_rows n))) 0) eqn:E; [apply Qeq_bool_iff in E; lra|]. eexists. split; [reflexivity|]. split.
  - apply Qle_shift_div_l; [exact P|lra].
  - intros X. apply Qlt_shift_div_l; [exact P|lra].
Qed.
Lemma fsum_in (l : list (fl Q)) v : Forall (fun x => exists a, x = Fin a /\ 0 <= a) l -> In (Fin v) l -> exists T, fsumQ l = Fin T /\ v <= T.
Proof.
  assert (Base : forall l, Forall (fun x => exists a, x = Fin a /\ 0 <= a) l -> exists T, fsumQ l = Fin T /\ 0 <= T).
  { clear. intros l F. induction F as [|x l (a & -> & A) F (T & E & PT)]; [exists 0; split; [reflexivity|lra]|].
    exists (a + T). simpl. rewrite E. split; [reflexivity|lra]. }
  intros F I. induction F as [|x l (a & -> & A) F IH]; [destruct I|]. destruct I as [E|I].
  - injection E as ->. destruct (Base l F) as (T & E & PT). exists (v + T). simpl. rewrite E. split; [reflexivity|lra].
  - destruct (IH I) as (T & E & PT). exists (a + T). simpl. rewrite E. split; [reflexivity|lra].
Qed.
Lemma leaf_value P t tr i n : (1 <= t)%nat -> (forall N, (1 <= N)%nat -> 0 <= hp_boost P t N) ->
  (forall j m, In j (ht_leaves tr) -> nth_error (ht_nodes tr) j = Some m -> weights_ok m) ->
  In i (ht_leaves tr) -> nth_error (ht_nodes tr) i = Some n -> h_rows n <> [] ->
  (0 < hp_boost P t (length (h_rows n)) \/ 0 < Qsum (map snd (h_rows n))) ->
  exists q, fdivflQ (faddQ (mean_weight n) (boost P t (length (h_rows n)))) (total_ev P t tr) = Fin q /\ 0 < q.
Proof.
  intros Lt B W Hi En Nr Pos. unfold boost. destruct (Nat.eqb_spec t 0) as [->|_]; [lia|].
  assert (Ln : forall m : hnode, h_rows m <> [] -> (1 <= length (h_rows m))%nat) by (intros m H; destruct (h_rows m); simpl; [congruence|lia]).
  destruct (mean_nonneg n (W i n Hi En) Nr) as (m & Em & Pm & Pm'). rewrite Em. cbn [faddQ].
  set (v := m + hp_boost P t (length (h_rows n))).
  assert (Pv : 0 < v). { unfold v. pose proof (B _ (Ln n Nr)). destruct Pos as [X|X]; [lra|]. apply Pm' in X. lra. }
  destruct (fsum_in (map (fun n0 => faddQ (mean_weight n0) (boost P t (length (h_rows n0))))
             (filter (fun n0 => negb (length (h_rows n0) =? 0)%nat)
                     (flat_map (fun i0 => match nth_error (ht_nodes tr) i0 with Some n0 => [n0] | None => [] end) (ht_leaves tr)))) v) as (T & ET & LT).
  - apply Forall_forall. intros x I. apply in_map_iff in I. destruct I as (n0 & <- & I). apply filter_In in I. destruct I as (I & Nz).
    apply in_flat_map in I. destruct I as (j & Hj & I). destruct (nth_error (ht_nodes tr) j) as [mj|] eqn:Ej; [|destruct I].
    destruct I as [->|[]]. assert (Nz' : h_rows n0 <> []) by (intros X; rewrite X in Nz; discriminate).
    destruct (mean_nonneg n0 (W j n0 Hj Ej) Nz') as (m0 & E0 & P0 & _). rewrite E0. unfold boost. destruct (Nat.eqb_spec t 0) as [->|_]; [lia|].
    simpl. eexists. split; [reflexivity|]. pose proof (B _ (Ln n0 Nz')). lra.
  - apply in_map_iff. exists n. split.
    + rewrite Em. unfold boost. destruct (Nat.eqb_spec t 0) as [->|_]; [lia|]. reflexivity.
    + apply filter_In. split.
      * apply in_flat_map. exists i. split; [exact Hi|]. rewrite En. now left.
      * destruct (h_rows n); [congruence|reflexivity].
  - unfold total_ev. rewrite ET. cbn [fdivflQ]. unfold fdivQ. destruct (Qeq_bool T 0) eqn:E; [apply Qeq_bool_iff in E; lra|].
    eexists. split; [reflexivity|]. apply Qlt_shift_div_l; lra.
Qed.

(** ** When a leaf is split it has two rows, one with a positive weight *)
Lemma ess_small n e : weights_ok n -> 0 < e < 1 -> h_rows n <> [] -> fltQ (node_ess n) (Fin (e * Qnat (length (h_rows n)))) = true ->
  (2 <= length (h_rows n))%nat /\ 0 < Qsum (map snd (h_rows n)).
Proof.
  intros W E N H. unfold node_ess in H. cbv zeta in H. pose proof (wsum_nonneg _ W) as S0. set (ws := map snd (h_rows n)) in *.
  unfold fdivQ in H. destruct (Qeq_bool (Qsum (map (fun w => w * w) ws)) 0) eqn:Z.
  - exfalso. apply Qeq_bool_iff in Z. assert (Zs : Qsum ws == 0).
    { clear - Z. induction ws as [|w ws IH]; simpl in *; [reflexivity|].
      assert (Nn : 0 <= Qsum (map (fun w => w * w) ws)) by (clear; induction ws as [|w ws IH]; simpl; [lra|nra]).
      assert (w * w == 0) by nra. assert (w == 0) by (apply Qmult_integral in H; destruct H; assumption).
      rewrite IH by lra. lra. }
    assert (X : Qsum ws * Qsum ws == 0) by (rewrite Zs; ring). rewrite (proj2 (Qeq_bool_iff _ _) X) in H. discriminate.
  - apply Qeq_bool_neq in Z. cbn [fltQ] in H. apply Qltb_true in H.
    split.
    + destruct (h_rows n) as [|(x, w) [|r l]] eqn:R; [congruence| |simpl; lia]. exfalso.
      subst ws. simpl in *. assert (Q1 : (w + 0) * (w + 0) / (w * w + 0) == 1) by (field; intros X; apply Z; lra || nra).
      rewrite Q1 in H. change (Qnat 1) with 1 in H. lra.
    + destruct (Qlt_le_dec 0 (Qsum ws)) as [P|P]; [exact P|]. exfalso. apply Z.
      assert (A0 : Forall (fun w => w == 0) ws).
      { assert (Wn : Forall (fun w => 0 <= w) ws).
        { apply Forall_forall. intros w I. unfold ws in I. apply in_map_iff in I. destruct I as ((x, w') & <- & I). exact (W _ _ I). }
        clear - P Wn. induction Wn as [|w ws Pw F IH]; constructor; simpl in P;
        (assert (0 <= Qsum ws) by (clear - F; induction F; simpl; lra)); [lra|apply IH; lra]. }
      clear - A0. induction A0 as [|w ws E F IH]; simpl; [reflexivity|]. rewrite E, IH. ring.
Qed.

(** ** A split *)
Lemma push_fields pi k rows : forall l r l' r' ok, push pi k rows l r = (l', r', ok) ->
  (h_q l' = h_q l /\ h_kids l' = h_kids l) /\ (h_q r' = h_q r /\ h_kids r' = h_kids r).
Proof.
  induction rows as [|(x, w) rows IH]; intros l r l' r' ok E; cbn [push] in E; [injection E as <- <- _; auto|].
  destruct (Qltb _ _).
  - destruct (Qle_bool _ _); [injection E as <- <- _; auto|]. apply IH in E. exact E.
  - destruct (Qle_bool _ _); [injection E as <- <- _; auto|]. apply IH in E. exact E.
Qed.
Lemma remove1_in i l j : In j (remove1 i l) -> In j l.
Proof. induction l as [|a l IH]; simpl; [auto|]. destruct (a =? i)%nat; [auto|]. intros [->|H]; auto. Qed.

Lemma split_kinv pi i k nodes leaves t' n :
  posn nodes -> kids_up nodes -> (forall j m, In j leaves -> nth_error nodes j = Some m -> h_kids m = None) ->
  (forall j, In j leaves -> below nodes 0 j) -> NoDup leaves -> (forall j, In j leaves -> (j < length nodes)%nat) ->
  In i leaves -> nth_error nodes i = Some n -> posq n -> split pi i k (mkHT nodes leaves) = (t', true) ->
  posn (ht_nodes t') /\ kids_up (ht_nodes t') /\
  (forall j m, In j (ht_leaves t') -> nth_error (ht_nodes t') j = Some m -> h_kids m = None) /\
  (forall j, In j (ht_leaves t') -> below (ht_nodes t') 0 j) /\ (~ In 0%nat (remove1 i leaves) -> ~ In 0%nat (ht_leaves t')).
Proof.
  intros Hp Hk Hl Hb Nd Lt Hi En (q & Eq & Pq) E. unfold split in E. cbn [ht_nodes ht_leaves] in E. rewrite En in E. cbv zeta in E.
  assert (Li : (i < length nodes)%nat) by (apply nth_error_Some; congruence).
  match type of E with context [push pi k (h_rows n) ?a ?b] => set (l0 := a) in *; set (r0 := b) in * end.
  destruct (push pi k (h_rows n) l0 r0) as ((l, r), ok) eqn:Ep. destruct (push_fields _ _ _ _ _ _ _ _ Ep) as ((Ql & Kl) & (Qr & Kr)).
  cbn [h_q h_kids l0 r0 hnode_new] in Ql, Kl, Qr, Kr. injection E as <- Eok. subst ok. cbn [ht_nodes ht_leaves].
  set (n' := mkH (h_center n) (h_radius n) (h_q n) (Some (length nodes, S (length nodes))) []).
  set (nodes' := upd nodes i n' ++ [l; r]).
  assert (Len : length nodes' = S (S (length nodes))) by (unfold nodes'; rewrite app_length, upd_length; simpl; lia).
  assert (Kn : h_kids n = None) by (eapply Hl; eassumption).
  assert (Half : exists q', fdivflQ (h_q n) (Fin 2) = Fin q' /\ 0 < q').
  { rewrite Eq. exists (q / 2). split; [reflexivity|]. apply Qlt_shift_div_l; lra. }
  assert (Old : forall j, (j < length nodes)%nat -> j <> i -> nth_error nodes' j = nth_error nodes j).
  { intros j Lj Nj. unfold nodes'. rewrite nth_error_app1 by (rewrite upd_length; exact Lj). apply upd_nth_error_neq. auto. }
  assert (At : nth_error nodes' i = Some n').
  { unfold nodes'. rewrite nth_error_app1 by (rewrite upd_length; exact Li). apply upd_nth_error_eq. exact Li. }
  assert (NewL : nth_error nodes' (length nodes) = Some l).
  { unfold nodes'. rewrite nth_error_app2 by (rewrite upd_length; lia). rewrite upd_length, Nat.sub_diag. reflexivity. }
  assert (NewR : nth_error nodes' (S (length nodes)) = Some r).
  { unfold nodes'. rewrite nth_error_app2 by (rewrite upd_length; lia). rewrite upd_length. replace (S (length nodes) - length nodes)%nat with 1%nat by lia. reflexivity. }
  assert (Cases : forall j m, nth_error nodes' j = Some m -> (j = i /\ m = n') \/ (j = length nodes /\ m = l) \/ (j = S (length nodes) /\ m = r) \/
                    (j <> i /\ (j < length nodes)%nat /\ nth_error nodes j = Some m)).
  { intros j m Em. assert (Lj : (j < length nodes')%nat) by (apply nth_error_Some; congruence). rewrite Len in Lj.
    destruct (Nat.eq_dec j i) as [->|Nj]; [left; split; congruence|]. destruct (Nat.lt_ge_cases j (length nodes)) as [A|A].
    - right. right. right. rewrite Old in Em by assumption. auto.
    - destruct (Nat.eq_dec j (length nodes)) as [->|Nj']; [right; left; split; congruence|].
      assert (j = S (length nodes)) by lia. subst j. right. right. left. split; congruence. }
  assert (Bel : forall a b, below nodes a b -> (a = b \/ a <> i) -> below nodes' a b).
  { intros a b H. induction H as [a|a m x y c b Ea Ka C H IH]; intros _; [constructor|].
    assert (Na : a <> i) by (intros ->; congruence).
    assert (La : (a < length nodes)%nat) by (apply nth_error_Some; congruence).
    eapply below_kid; [rewrite Old by assumption; exact Ea|exact Ka|exact C|]. apply IH.
    destruct (Nat.eq_dec c i) as [->|]; [|auto]. left. inversion H as [|? m' ? ? ? ? Em' Km']; subst; [reflexivity|]. congruence. }
  assert (Bel0 : forall j, In j leaves -> below nodes' 0 j).
  { intros j Hj. apply Bel; [auto|]. destruct (Nat.eq_dec 0 i) as [<-|]; [|auto]. left. pose proof (Hb j Hj) as H.
    inversion H as [|? m' ? ? ? ? Em' Km']; subst; [reflexivity|]. congruence. }
  assert (Snoc : forall a b c nb x y, below nodes' a b -> nth_error nodes' b = Some nb -> h_kids nb = Some (x, y) -> c = x \/ c = y -> below nodes' a c).
  { intros a b c nb x y H Eb Kb C. induction H as [a|a m x' y' c' b Ea Ka C' H IH].
    - eapply below_kid; [exact Eb|exact Kb|exact C|constructor].
    - eapply below_kid; [exact Ea|exact Ka|exact C'|]. apply IH. exact Eb. }
  split; [|split; [|split; [|split]]].
  - intros j m Lj Em. destruct (Cases j m Em) as [(-> & ->)|[(-> & ->)|[(-> & ->)|(Nj & Lj' & Em')]]].
    + exists q. auto.
    + destruct Half as (q' & Eq' & Pq'). exists q'. rewrite Ql. auto.
    + destruct Half as (q' & Eq' & Pq'). exists q'. rewrite Qr. auto.
    + eapply Hp; eassumption.
  - intros j m a b Em Km. rewrite Len. destruct (Cases j m Em) as [(-> & ->)|[(-> & ->)|[(-> & ->)|(Nj & Lj' & Em')]]].
    + cbn [n' h_kids] in Km. injection Km as <- <-. lia.
    + congruence.
    + congruence.
    + destruct (Hk j m a b Em' Km). lia.
  - intros j m Hj Em. destruct (Cases j m Em) as [(-> & ->)|[(-> & ->)|[(-> & ->)|(Nj & Lj' & Em')]]]; [| exact Kl | exact Kr |].
    + exfalso. apply in_app_or in Hj. destruct Hj as [Hj|[Hj|[Hj|[]]]]; [|lia|lia].
      pose proof (Permutation_NoDup (remove1_perm i leaves Hi) Nd) as Y. inversion Y. contradiction.
    + apply in_app_or in Hj. destruct Hj as [Hj|[Hj|[Hj|[]]]]; [|lia|lia]. eapply Hl; [eapply remove1_in; exact Hj|exact Em'].
  - intros j Hj. apply in_app_or in Hj. destruct Hj as [Hj|[<-|[<-|[]]]].
    + apply Bel0. eapply remove1_in; exact Hj.
    + eapply Snoc; [apply (Bel0 i Hi)|exact At|reflexivity|now left].
    + eapply Snoc; [apply (Bel0 i Hi)|exact At|reflexivity|now right].
  - intros N H. apply in_app_or in H. destruct H as [H|[H|[H|[]]]]; [contradiction|lia|lia].
Qed.

(** ** A turn *)
Definition nonneg (f : vec -> Q) : Prop := forall x, 0 <= f x.
Definition boosts (P : hd_params) : Prop := (forall t N, (1 <= t)%nat -> (1 <= N)%nat -> 0 <= hp_boost P t N) /\
  (forall t N, (2 <= t)%nat -> (1 <= N)%nat -> 0 < hp_boost P t N).

Lemma turn_kinv d w P pi rd s s' : hinv d w nonneg (hs_tree s) -> (hr_dim rd < d)%nat -> nonneg pi -> boosts P -> 0 < hp_ess P < 1 ->
  kinv (hs_tree s) -> hd_turn P pi (length (hd_rows (hs_tree s))) rd s = Done s' -> kinv (hs_tree s').
Proof.
  intros I Hd Hpi (B1 & B2) He K Ht. set (t := length (hd_rows (hs_tree s))) in *.
  destruct (turn_spec d w nonneg P pi t rd s I Hd Hpi) as (path & i & n & Ed & Hi & En & Alt). cbv zeta in Alt.
  destruct Alt as [(_ & s1 & E1 & _)|(Hin & s1 & I1 & _ & _ & _ & [(E1 & Pm)|(E1 & _)])]; rewrite E1 in Ht; try discriminate.
  injection Ht as ->. rename E1 into Ht.
  destruct (hi_node _ _ _ _ I i n En) as (Dn & Rn). destruct (node_prob_inside n _ Rn Hin) as (Pp & _).
  destruct K as [K1 K2 K3 K4 K5]. destruct s as [tr smp cp cq cd mo]. cbn [hs_tree hs_samples hs_pi hs_q hs_draws hs_model] in *.
  destruct tr as [nodes leaves]. cbn [ht_nodes ht_leaves] in *.
  assert (Li : (i < length nodes)%nat) by (apply nth_error_Some; congruence).
  unfold hd_turn in Ht. cbn [hs_tree ht_nodes ht_leaves hs_samples hs_pi hs_q hs_draws hs_model] in Ht. rewrite Ed, En in Ht. cbv zeta in Ht.
  set (x := node_draw n (hr_draw rd)) in *. destruct (Qle_bool_spec (node_prob n x) 0) as [X|_]; [lra|].
  set (n1 := add_row n x (pi x / node_prob n x)) in *.
  assert (I1' : hinv d w nonneg (mkHT (upd nodes i n1) leaves)).
  { apply hinv_row; auto. split; auto. exists pi. split; auto. apply node_weight; auto. }
  match type of Ht with context [set_q n1 ?v] => set (qv := v) in * end. set (n2 := set_q n1 qv) in *.
  assert (E1 : nth_error (upd nodes i n1) i = Some n1) by (apply upd_nth_error_eq; exact Li).
  assert (Wok : forall j m, In j leaves -> nth_error (upd nodes i n1) j = Some m -> weights_ok m).
  { intros j m Hj Em y v Hy. destruct (hi_rows _ _ _ _ I1' j m y v Hj Em Hy) as (_ & f & Hf & Ev).
    destruct (hi_node _ _ _ _ I1' j m Em) as (_ & Rm). pose proof (vol_positive _ _ Rm) as V. unfold nbox in Ev. rewrite Ev. pose proof (Hf y). nra. }
  assert (Rows1 : h_rows n1 <> []) by (unfold n1; simpl; intros X; apply app_eq_nil in X; destruct X; discriminate).
  assert (Value : (1 <= t)%nat -> (2 <= t)%nat \/ 0 < Qsum (map snd (h_rows n1)) -> posq n2).
  { intros Lt Or. unfold posq, n2. cbn [h_q set_q]. unfold qv.
    apply (leaf_value P t (mkHT (upd nodes i n1) leaves) i n1); cbn [ht_nodes ht_leaves]; auto.
    destruct Or as [L2|Pos]; [left; apply B2; [exact L2|]|right; exact Pos]. destruct (h_rows n1); [congruence|simpl; lia]. }
  assert (Root : i = 0%nat -> leaves = [0%nat] /\ length nodes = 1%nat /\ length (h_rows n1) = S t).
  { intros ->. destruct K5 as [(A & B)|(A & _)]; [|contradiction]. split; [exact A|]. split; [exact B|]. unfold n1. simpl. rewrite app_length. simpl.
    assert (X : h_rows n = hd_rows (mkHT nodes leaves)); [|rewrite X; fold t; lia].
    rewrite A. unfold hd_rows, leaf_nodes. cbn [flat_map ht_nodes ht_leaves]. rewrite En. cbn [app flat_map]. rewrite app_nil_r. reflexivity. }
  assert (Pos2 : (1 <= i)%nat -> posq n2).
  { intros Li1. destruct K5 as [(A & _)|(_ & A)]; [exfalso; rewrite A in Hi; destruct Hi as [Hi|[]]; lia|].
    assert (2 <= t)%nat by (unfold t; exact A). apply Value; [lia|left; assumption]. }
  cbn [ht_nodes] in Ht.
  set (base := upd (upd nodes i n1) i n2) in *.
  assert (Sb : sim base (upd nodes i n1)) by (unfold base; eapply sim_upd; [exact E1|reflexivity]).
  set (nodes2 := fold_left refresh_q (refreshed_path path) base) in *.
  assert (S2 : sim nodes2 (upd nodes i n1)) by (eapply sim_trans; [apply refreshes_sim|exact Sb]).
  assert (Ku1 : kids_up (upd nodes i n1)).
  { intros j m a b Em Km. rewrite upd_length. destruct (Nat.eq_dec i j) as [->|Nj].
    - rewrite E1 in Em. injection Em as <-. eapply K2; [exact En|exact Km].
    - rewrite upd_nth_error_neq in Em by exact Nj. eapply K2; eassumption. }
  assert (Kub : kids_up base) by (eapply kids_sim; [exact Sb|exact Ku1]).
  assert (Pb : posn base).
  { unfold base. apply posn_upd; [|exact Pos2]. apply posn_upd; [exact K1|]. intros L. unfold posq, n1. simpl. destruct (K1 i n L En) as (q & Eq & Pq). eauto. }
  assert (Pn2 : posn nodes2) by (apply refreshes_pos; assumption).
  assert (Kn2 : kids_up nodes2) by (eapply kids_sim; [exact S2|exact Ku1]).
  assert (Kl2 : forall j m, In j leaves -> nth_error nodes2 j = Some m -> h_kids m = None).
  { intros j m Hj Em. destruct (sim_nth _ _ _ _ S2 Em) as (m' & Em' & Hm). destruct (strip_fields _ _ Hm) as (_ & _ & Km & _). rewrite <- Km.
    destruct (Nat.eq_dec i j) as [->|Nj].
    - rewrite E1 in Em'. injection Em' as <-. exact (K3 j n Hj En).
    - rewrite upd_nth_error_neq in Em' by exact Nj. eapply K3; eassumption. }
  assert (Bl2 : forall j, In j leaves -> below nodes2 0 j).
  { intros j Hj. eapply below_sim; [exact S2|]. eapply below_upd; [exact En|reflexivity|auto]. }
  destruct (sim_nth _ _ _ _ (sim_sym _ _ S2) E1) as (n3 & E3 & St). destruct (strip_fields _ _ St) as (_ & _ & _ & W3).
  assert (Cnt : length (hd_rows (hs_tree s')) = S t).
  { apply Permutation_length in Pm. simpl in Pm. rewrite !map_length in Pm. exact Pm. }
  destruct ((hp_nmin P <=? length (h_rows n2))%nat && fltQ (node_ess n2) (Fin (hp_ess P * Qnat (length (h_rows n2))))) eqn:Cond.
  - apply andb_true_iff in Cond. destruct Cond as (_ & Cond).
    destruct (ess_small n1 (hp_ess P) (Wok i n1 Hi E1) He Rows1 Cond) as (Two & Psum).
    destruct (split pi i (hr_dim rd) (mkHT nodes2 leaves)) as (tr3, ok) eqn:Es. destruct ok; [|discriminate]. injection Ht as <-. cbn [hs_tree] in *.
    assert (Pq3 : posq n3).
    { destruct (Nat.eq_dec i 0) as [->|Ni]; [|apply (Pn2 i n3); [lia|exact E3]].
      destruct (Root eq_refl) as (Lv & Ln & Lr).
      assert (Ep : path = []).
      { rewrite Ln, Lv in Ed. simpl in Ed. injection Ed. auto. }
      subst path. change (nth_error base 0 = Some n3) in E3. unfold base in E3. rewrite upd_nth_error_eq in E3 by (rewrite upd_length; lia).
      injection E3 as <-. apply Value; [lia|right; exact Psum]. }
    destruct (split_kinv pi i (hr_dim rd) nodes2 leaves tr3 n3) as (A & B & C & D & E); auto.
    + exact (proj1 (hi_cut _ _ _ _ I)).
    + intros j Hj. rewrite (sim_length _ _ S2), upd_length. exact (hi_leaf _ _ _ _ I j Hj).
    + constructor; auto. right. split; [|rewrite Cnt; destruct (Nat.eq_dec i 0) as [Z|Ni];
        [destruct (Root Z) as (_ & _ & Lr); lia|destruct K5 as [(A5 & _)|(_ & A5)]; [rewrite A5 in Hi; destruct Hi as [Hi|[]]; lia|unfold t; lia]]].
      apply E. destruct K5 as [(A5 & _)|(A5 & _)].
      * rewrite A5 in *. destruct Hi as [<-|[]]. simpl. auto.
      * intros X. apply A5. eapply remove1_in; exact X.
  - injection Ht as <-. cbn [hs_tree] in *. constructor; cbn [ht_nodes ht_leaves]; auto. destruct K5 as [(A & B)|(A & B)].
    + left. split; [exact A|]. rewrite (sim_length _ _ S2), upd_length. exact B.
    + right. split; [exact A|]. rewrite Cnt. lia.
Qed.

(** ** Histories *)
Section Reach.
Variable P : hd_params.
Hypothesis C : corners (hp_lo P) (hp_hi P).
Hypothesis B : boosts P.
Hypothesis He : 0 < hp_ess P < 1.
Let d := length (hp_lo P).
Let whole := (hp_lo P, hp_hi P).

Lemma turns_kinv pi rds : nonneg pi -> dim_ok d rds -> forall k s s', hinv d whole nonneg (hs_tree s) -> kinv (hs_tree s) ->
  hd_turns P pi rds (length (hd_rows (hs_tree s))) k s = Done s' -> kinv (hs_tree s').
Proof.
  intros Hpi Hd. induction k as [|k IH]; intros s s' I K E; simpl in E; [injection E as <-; exact K|].
  set (t := length (hd_rows (hs_tree s))) in *.
  destruct (hd_turn P pi t (rds t) s) as [s1| |e s1] eqn:Et; try discriminate.
  pose proof (turn_kinv d whole P pi (rds t) s s1 I (Hd t) Hpi B He K Et) as K1.
  destruct (turn_spec d whole nonneg P pi t (rds t) s I (Hd t) Hpi) as (path & i & n & _ & _ & _ & [(_ & s2 & E2 & _)|(_ & s2 & I2 & _ & _ & _ & [(E2 & Pm)|(E2 & _)])]);
    rewrite E2 in Et; try discriminate. injection Et as ->.
  apply (IH s1 s' I2 K1). apply Permutation_length in Pm. simpl in Pm. rewrite !map_length in Pm. rewrite Pm. exact E.
Qed.
Lemma new_kinv : kinv (htree_new (hp_lo P) (hp_hi P)).
Proof.
  constructor; simpl.
  - intros [|[|j]] n L E; simpl in E; try discriminate; lia.
  - intros [|[|j]] n a b E K; simpl in E; try discriminate. injection E as <-. discriminate.
  - intros i n [<-|[]] E. injection E as <-. reflexivity.
  - intros i [<-|[]]. constructor.
  - left. auto.
Qed.
Lemma reach_kinv ops s : hd_reachable P ops s -> dims_ok d ops -> intact ops -> (forall pi, called_with ops pi -> nonneg pi) -> kinv (hs_tree s).
Proof.
  induction 1 as [|ops s pi n rds s' R IH E|ops s pi n rds e s' R IH E|ops s n R IH|ops s R IH]; simpl; intros D F N.
  - exact new_kinv.
  - destruct F as (_ & F). assert (D' : dims_ok d ops) by (intros ? ? ? ? H; eapply D; right; eauto).
    assert (N' : forall pi, called_with ops pi -> nonneg pi) by (intros f (a & b & c & H); apply N; exists a, b, c; right; exact H).
    assert (Hpi : nonneg pi) by (apply N; exists n, rds, true; left; reflexivity).
    assert (Hd : dim_ok d rds) by (eapply D; left; reflexivity).
    unfold hd_call in E. rewrite (reach_samples P ops s R F) in E.
    destruct (hd_turns P pi rds _ _ s) as [s1| |] eqn:Et; try discriminate. injection E as <-. simpl.
    eapply (turns_kinv pi rds Hpi Hd); [|now apply IH|exact Et]. eapply hinv_weaken; [|apply (reach_inv P C ops s R D')]. exact N'.
  - destruct F; discriminate.
  - apply IH; auto; [intros ? ? ? ? H; eapply D; right; eauto|intros f (a & b & c & H); apply N; exists a, b, c; right; exact H].
  - exact new_kinv.
Qed.
Lemma reach_boxes ops s : hd_reachable P ops s -> intact ops -> fst (hs_model s) = map node_box (leaf_nodes (hs_tree s)).
Proof.
  induction 1 as [|ops s pi n rds s' R IH E|ops s pi n rds e s' R IH E|ops s n R IH|ops s R IH]; simpl; intros F; auto.
  - unfold hd_call in E. destruct (hd_turns _ _ _ _ _ _); try discriminate. injection E as <-. reflexivity.
  - destruct F; discriminate.
Qed.
End Reach.

(** ** Steering the descent *)
Lemma existsb_In i l : existsb (Nat.eqb i) l = true <-> In i l.
Proof.
  rewrite existsb_exists. split; [intros (x & H & E); apply Nat.eqb_eq in E; congruence|intros H; exists i; split; [exact H|apply Nat.eqb_refl]].
Qed.
Lemma steer t leaf : kinv t -> In leaf (ht_leaves t) -> forall i, below (ht_nodes t) i leaf -> exists ivs, subintervals ivs /\
  forall pick j fuel, (length (ht_nodes t) <= i + fuel)%nat -> falls (fun k => pick (j + k)%nat) ivs ->
    exists path, descend fuel t pick j i = Some (path, leaf).
Proof.
  intros K Hl i H. induction H as [i|i n a b c leaf En Kn Cc H IH].
  - exists []. split; [constructor|]. intros pick j fuel _ _. exists []. destruct fuel; simpl; rewrite (proj2 (existsb_In i _) Hl); reflexivity.
  - destruct (IH Hl) as (ivs & Si & F). destruct (k_kids _ K i n a b En Kn) as (La & Lb).
    destruct (nth_error (ht_nodes t) a) as [na|] eqn:Ea; [|apply nth_error_None in Ea; lia].
    destruct (nth_error (ht_nodes t) b) as [nb|] eqn:Eb; [|apply nth_error_None in Eb; lia].
    destruct (k_pos _ K a na ltac:(lia) Ea) as (qa & Qa & Pa). destruct (k_pos _ K b nb ltac:(lia) Eb) as (qb & Qb & Pb).
    set (z := qa / (qb + qa)). assert (Z0 : 0 < z) by (apply Qlt_shift_div_l; lra). assert (Z1 : z < 1) by (apply Qlt_shift_div_r; lra).
    assert (Nl : existsb (Nat.eqb i) (ht_leaves t) = false).
    { destruct (existsb _ _) eqn:X; [|reflexivity]. apply existsb_In in X. rewrite (k_leaf _ K i n X En) in Kn. discriminate. }
    assert (Qz : fdivflQ (Fin qa) (faddQ (Fin qb) (Fin qa)) = Fin z).
    { simpl. unfold fdivQ. destruct (Qeq_bool (qb + qa) 0) eqn:X; [apply Qeq_bool_iff in X; lra|reflexivity]. }
    exists ((if Nat.eq_dec c a then (0, z) else (z, 1)) :: ivs). split.
    { constructor; [|exact Si]. destruct (Nat.eq_dec c a); simpl; (split; [lra|split; lra]). }
    intros pick j fuel Lf Fl. destruct fuel as [|fuel]; [lia|]. cbn [descend]. rewrite Nl, En, Kn, Ea, Eb. cbv zeta. rewrite Qa, Qb, Qz.
    assert (Nx : (if fltQ (Fin (pick j)) (Fin z) then a else b) = c).
    { pose proof (Fl 0%nat) as F0. simpl in F0. rewrite Nat.add_0_r in F0. cbn [fltQ]. destruct (Nat.eq_dec c a) as [->|Nc].
      - destruct (F0 0 z eq_refl) as (_ & F1). rewrite (proj2 (Qltb_true _ _) F1). reflexivity.
      - destruct (F0 z 1 eq_refl) as (F1 & _). destruct (Qltb (pick j) z) eqn:X; [apply Qltb_true in X; lra|]. destruct Cc; congruence. }
    rewrite Nx. assert (Lc : (i < c)%nat) by (destruct Cc; subst; lia).
    destruct (F pick (S j) fuel ltac:(lia)) as (path & Ep).
    { intros k lo hi Ek. specialize (Fl (S k) lo hi Ek). replace (S j + k)%nat with (j + S k)%nat by lia. exact Fl. }
    rewrite Ep. eauto.
Qed.
