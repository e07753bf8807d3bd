(** Fair laws exist for every mixture; the resampling of DM-AIS. *)
From Coq Require Import List Bool Arith ZArith QArith Lia Lqa.
Import ListNotations.
From Verif Require Import Prelude.Py Prelude.QBase Prelude.QFacts Model.Base Model.Mixture Model.Population Model.MixtureLaw
  Spec.UnbiasedSpec Spec.WalkSpec Spec.MixtureLawSpec Proofs.PopulationUnbiased Proofs.PopulationProofs Proofs.IndepLaw Proofs.MixtureSelect.
Open Scope Q_scope.

(** The equidistant law on [0, 1). *)
Definition grid (n : nat) : list (Q * Q) := map (fun k => (1 / Qnat n, Qnat k / Qnat n)) (seq 0 n).
Lemma Qnat_lt a b : (a < b)%nat <-> Qnat a < Qnat b.
Proof. unfold Qnat. rewrite <- Zlt_Qlt. lia. Qed.
Lemma Qnat_mul a b : Qnat (a * b) == Qnat a * Qnat b.
Proof. unfold Qnat. rewrite Nat2Z.inj_mul, inject_Z_mult. reflexivity. Qed.
Lemma count_first c a : forall n, Qsum (map (fun k => if (k <? a)%nat then c else 0) (seq 0 n)) == Qnat (min a n) * c.
Proof.
  induction n as [|n IH]; [rewrite Nat.min_0_r; simpl; unfold Qnat; simpl; ring|].
  rewrite seq_S, map_app, Qsum_app, IH. simpl. destruct (Nat.ltb_spec n a).
  - rewrite (Nat.min_r a n), (Nat.min_r a (S n)) by lia. rewrite Qnat_S. ring.
  - rewrite (Nat.min_l a n), (Nat.min_l a (S n)) by lia. ring.
Qed.
Lemma grid_below n a : (0 < n)%nat -> below (grid n) (Qnat a / Qnat n) == Qnat (min a n) / Qnat n.
Proof.
  intros N. pose proof (proj1 (Qnat_lt 0 n) N) as Pn. change (Qnat 0) with 0 in Pn.
  unfold below, grid. rewrite map_map. cbn [fst snd].
  rewrite (Qsum_ext _ (fun k => if (k <? a)%nat then 1 / Qnat n else 0)); [rewrite count_first; field; lra|].
  intros k _. assert (Qltb (Qnat k / Qnat n) (Qnat a / Qnat n) = (k <? a)%nat) as ->; [|reflexivity].
  assert (I0 : 0 < / Qnat n) by (apply Qinv_lt_0_compat; auto).
  destruct (Nat.ltb_spec k a) as [L|L].
  - apply Qltb_true. apply Qnat_lt in L. unfold Qdiv. apply Qmult_lt_compat_r; auto.
  - destruct (Qltb_spec (Qnat k / Qnat n) (Qnat a / Qnat n)) as [G|G]; auto. unfold Qdiv in G. rewrite Qmult_lt_r in G by auto.
    apply Qnat_lt in G. lia.
Qed.
Lemma grid_fair n a : (0 < n)%nat -> fair (grid n) (Qnat a / Qnat n).
Proof.
  intros N. unfold fair. rewrite grid_below by auto. pose proof (proj1 (Qnat_lt 0 n) N) as Pn. change (Qnat 0) with 0 in Pn.
  destruct (Qle_bool 1 (Qnat a / Qnat n)) eqn:D.
  - apply Qle_bool_iff in D. rewrite Nat.min_r; [field; lra|]. destruct (le_lt_dec n a) as [L|L]; auto. apply Qnat_lt in L.
    assert (Qnat a / Qnat n < 1) by (apply Qlt_shift_div_r; lra). lra.
  - rewrite Nat.min_l; [reflexivity|]. destruct (le_lt_dec a n) as [L|L]; auto. apply Qnat_lt in L.
    assert (1 <= Qnat a / Qnat n) by (apply Qle_shift_div_l; lra). apply Qle_bool_iff in H. congruence.
Qed.
Lemma grid_law n : (0 < n)%nat -> is_law (grid n) /\ forall wu, In wu (grid n) -> 0 <= snd wu < 1.
Proof.
  intros N. pose proof (proj1 (Qnat_lt 0 n) N) as Pn. change (Qnat 0) with 0 in Pn. split; [split|].
  - unfold grid. rewrite map_map. cbn [fst]. rewrite Qsum_const, seq_length. field. lra.
  - intros wu H. apply in_map_iff in H. destruct H as (k & <- & _). simpl. apply Qle_shift_div_l; lra.
  - intros wu H. apply in_map_iff in H. destruct H as (k & <- & H). simpl. apply in_seq in H. split.
    + apply Qle_shift_div_l; auto. pose proof (Qnat_nonneg k). lra.
    + apply Qlt_shift_div_r; auto. assert (Qnat k < Qnat n) by (apply Qnat_lt; lia). lra.
Qed.
Lemma fair_ext ul r r' : r == r' -> fair ul r -> fair ul r'.
Proof.
  unfold fair. intros E H. rewrite <- (below_ext ul r r' E), H.
  assert (Qle_bool 1 r = Qle_bool 1 r') as -> by (destruct (Qle_bool 1 r) eqn:A, (Qle_bool 1 r') eqn:B; auto;
    [apply Qle_bool_iff in A; rewrite E in A; apply Qle_bool_iff in A|apply Qle_bool_iff in B; rewrite <- E in B; apply Qle_bool_iff in B]; congruence).
  destruct (Qle_bool 1 r'); [reflexivity|exact E].
Qed.
Lemma common_grid rs : Forall (fun r => 0 <= r) rs -> exists n, (0 < n)%nat /\ forall r, In r rs -> exists a, r == Qnat a / Qnat n.
Proof.
  induction rs as [|r rs IH]; intros F; [exists 1%nat; split; [lia|intros ? []]|]. inversion F; subst. destruct (IH H2) as (n & N & Hn).
  set (d := Pos.to_nat (Qden r)). assert (D : (0 < d)%nat) by apply Pos2Nat.is_pos. exists (n * d)%nat. split; [nia|].
  pose proof (proj1 (Qnat_lt 0 n) N) as Pn. pose proof (proj1 (Qnat_lt 0 d) D) as Pd. change (Qnat 0) with 0 in Pn, Pd.
  intros x [<-|Hx].
  - exists (n * Z.to_nat (Qnum r))%nat. rewrite !Qnat_mul.
    assert (r == Qnat (Z.to_nat (Qnum r)) / Qnat d).
    { unfold Qnat, d. rewrite positive_nat_Z, Z2Nat.id by (destruct r as [a b]; unfold Qle in H1; simpl in *; lia).
      destruct r as [a b]. simpl. rewrite <- Qmake_Qdiv. reflexivity. }
    rewrite H at 1. field. lra.
  - destruct (Hn _ Hx) as (a & E). exists (a * d)%nat. rewrite !Qnat_mul, E. field. lra.
Qed.
Lemma Qsum_skipn_nonneg j : forall ws, Forall (fun w => 0 <= w) ws -> 0 <= Qsum (skipn j ws).
Proof. induction j as [|j IH]; intros ws F; [apply Qsum_nonneg; auto|]. destruct ws; [simpl; lra|]. inversion F; subst. simpl. auto. Qed.
Lemma fair_exists ws : prob_vec ws -> exists ul, fair_choice ul ws.
Proof.
  intros (F & S).
  destruct (common_grid (map (fun j => nth j ws 0 / Qsum (skipn j ws)) (seq 0 (length ws)))) as (n & N & Hn).
  { apply Forall_forall. intros r Hr. apply in_map_iff in Hr. destruct Hr as (j & <- & Hj). apply in_seq in Hj.
    apply Qmult_le_0_compat; [rewrite Forall_forall in F; apply F, nth_In; lia|]. apply Qinv_le_0_compat, Qsum_skipn_nonneg, F. }
  exists (grid n). destruct (grid_law n N) as (A & B). split; [exact A|]. split; [exact B|]. intros j Hj.
  destruct (Hn (nth j ws 0 / Qsum (skipn j ws))) as (a & E).
  { apply in_map_iff. exists j. split; auto. apply in_seq. lia. }
  apply (fair_ext _ (Qnat a / Qnat n)); [rewrite E; reflexivity|apply grid_fair; auto].
Qed.

(** DM-AIS: the law of a resampled centre. *)
Definition dm_density (P : pop_params) (means : list vec) : vec -> Q :=
  mix_density (map (fun _ => 1 / Qnat (length means)) means) (map (pp_comp P) means).
Lemma map2_maps {A B C D} (f : B -> C -> D) (g : A -> B) (h : A -> C) l : map2 f (map g l) (map h l) = map (fun a => f (g a) (h a)) l.
Proof. induction l; simpl; auto. now rewrite IHl. Qed.
Lemma dm_density_prob P means x : dm_density P means x = pop_prob P means x.
Proof. unfold dm_density, mix_density, pop_prob. now rewrite map2_maps. Qed.
Lemma chosen_selection {X} (x0 : X) h wxs : mean1 (chosen wxs) h == selection (map fst (chosen wxs)) (fun i => h (nth i (map snd wxs) x0)).
Proof.
  unfold chosen. generalize (Qsum (map fst wxs)). intros T. induction wxs as [|wx r IH]; simpl; [reflexivity|].
  unfold mean1 in *. simpl. rewrite IH. reflexivity.
Qed.
Section Dm.
Variables (P : pop_params) (pi : vec -> Q) (r : pop_round) (s : pop).
Hypothesis C : comp_pos P.
Hypothesis M : pop_means s <> [].
Hypothesis Pi : forall x, 0 <= pi x.
Let xs := pop_draws P (pop_means s) r.
Hypothesis Ex : Exists (fun x => 0 < pi x) xs.
Let wxs := map (fun x => (pi x / dm_density P (pop_means s) x, x)) xs.
Lemma batch_total : 0 < Qsum (map fst wxs).
Proof.
  unfold wxs. rewrite map_map. cbn [fst]. clear wxs. revert Ex. clear -C M Pi. induction xs as [|x l IH]; intros E; inversion E; subst; simpl.
  - assert (0 < pi x / dm_density P (pop_means s) x) by (rewrite dm_density_prob; apply Qlt_shift_div_l; [apply pop_prob_pos; auto|lra]).
    assert (0 <= Qsum (map (fun x0 => pi x0 / dm_density P (pop_means s) x0) l)); [|lra].
    apply Qsum_nonneg. apply Forall_forall. intros w Hw. apply in_map_iff in Hw. destruct Hw as (y & <- & _).
    rewrite dm_density_prob. apply Qle_shift_div_l; [apply pop_prob_pos; auto|]. specialize (Pi y). lra.
  - assert (0 <= pi x / dm_density P (pop_means s) x) by (rewrite dm_density_prob; apply Qle_shift_div_l; [apply pop_prob_pos; auto|specialize (Pi x); lra]).
    specialize (IH H0). lra.
Qed.
Lemma batch_probs : prob_vec (map fst (chosen wxs)).
Proof.
  pose proof batch_total as T. unfold chosen. rewrite map_map. cbn [fst]. split.
  - apply Forall_forall. intros w Hw. apply in_map_iff in Hw. destruct Hw as (wx & <- & Hw). apply in_map_iff in Hw. destruct Hw as (x & <- & _). cbn [fst].
    apply Qle_shift_div_l; auto. rewrite Qmult_0_l, dm_density_prob. apply Qle_shift_div_l; [apply pop_prob_pos; auto|]. specialize (Pi x). lra.
  - transitivity (Qsum (map fst wxs) / Qsum (map fst wxs)); [|field; lra]. generalize (Qsum (map fst wxs)) at 1 3. intros q.
    clear T. induction wxs as [|a l IH]; simpl; [unfold Qdiv; ring|]. rewrite IH. unfold Qdiv. ring.
Qed.
Lemma dm_turn us : pop_means (out_state (pop_iter DM P pi (with_selectors r us) s)) =
  map (fun j => nth (multinomial1 (map fst (chosen wxs)) 1 (fun i => nth i (nth j us []) 0) 0) xs []) (seq 0 (length (pop_means s))).
Proof.
  unfold pop_iter. cbv zeta. simpl pop_adapt. unfold dm_adapt.
  change (pop_draws P (pop_means s) (with_selectors r us)) with xs.
  rewrite (pop_weigh_fin P pi _ _ C M). unfold batch_w.
  assert (Ew : map (fun x => pi x / pop_prob P (pop_means s) x) xs = map fst wxs).
  { unfold wxs. rewrite map_map. apply map_ext. intros x. cbn [fst]. now rewrite dm_density_prob. }
  rewrite Ew, (normalise_fin _ batch_total).
  assert (forallb is_fin (map Fin (map (fun w => w / Qsum (map fst wxs)) (map fst wxs))) = true) as ->
    by (apply forallb_forall; intros w Hw; apply in_map_iff in Hw; destruct Hw as (? & <- & _); reflexivity).
  cbn [out_state pop_means]. apply map_ext. intros j. f_equal. f_equal. rewrite !map_map. unfold chosen. rewrite map_map. reflexivity.
Qed.
Lemma dm_centres ul F : fair_choice ul (map fst (chosen wxs)) ->
  centres_mean P pi ul r s F == expect_each (repeat (chosen wxs) (length (pop_means s))) F.
Proof.
  intros (L & _ & Fa). pose proof batch_probs as (Fp & Sp). unfold centres_mean. fold xs.
  assert (N : map fst (chosen wxs) <> []) by (intros E; rewrite E in Sp; discriminate).
  assert (Ln : length (map fst (chosen wxs)) = length xs) by (unfold chosen, wxs; now rewrite !map_length).
  rewrite (expect_ext _ _ (fun us => F (map (fun u => nth (multinomial1 (map fst (chosen wxs)) 1 (fun i => nth i u 0) 0) xs []) us))).
  - apply (expect_map _ _ (fun u => nth (multinomial1 (map fst (chosen wxs)) 1 (fun i => nth i u 0) 0) xs [])). intros H.
    rewrite mean1_joint, <- Ln.
    pose proof (select_law ul (is_law_mass _ L) _ 1 (fun i => H (nth i xs [])) Fp Sp N Fa) as Sel. rewrite Qmult_1_l in Sel. rewrite Sel.
    rewrite (chosen_selection [] H wxs). apply selection_ext. intros i _. unfold wxs. rewrite map_map. cbn [snd]. rewrite map_id. reflexivity.
  - intros us Lu. rewrite repeat_length in Lu. rewrite dm_turn, <- Lu.
    rewrite (map_seq_nth (fun u => nth (multinomial1 (map fst (chosen wxs)) 1 (fun i => nth i u 0) 0) xs []) [] us). reflexivity.
Qed.
End Dm.
