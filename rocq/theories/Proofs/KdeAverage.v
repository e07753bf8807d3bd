(** The kernel density model averaged over the random choice of its centres. *)
From Coq Require Import List Bool Arith Lia QArith Reals Qreals Lqa Lra.
Import ListNotations.
From Verif Require Import Prelude.Py Prelude.QBase Prelude.RBase Model.Base Model.Mixture.
From Verif Require Import Spec.DensitySpec Spec.ChoiceSpec Proofs.MixtureDensity.
Open Scope R_scope.

Lemma sum_app l m : fold_right Rplus 0 (l ++ m) = fold_right Rplus 0 l + fold_right Rplus 0 m.
Proof. induction l as [|x l IH]; simpl; [lra|]. rewrite IH. lra. Qed.
Definition gsum (g : nat -> R) (idx : list nat) : R := fold_right Rplus 0 (map g idx).
Lemma choices_length n k : length (all_choices n k) = (n ^ k)%nat.
Proof.
  induction k as [|k IH]; simpl; auto. assert (G : forall l : list nat, length (flat_map (fun i => map (cons i) (all_choices n k)) l) = (length l * n ^ k)%nat).
  { induction l as [|i l G]; simpl; auto. rewrite app_length, map_length, IH, G. reflexivity. }
  now rewrite G, seq_length.
Qed.
Lemma choices_in n k idx : In idx (all_choices n k) <-> length idx = k /\ Forall (fun i => (i < n)%nat) idx.
Proof.
  revert idx. induction k as [|k IH]; intros idx; simpl.
  - split; [intros [<-|[]]; auto|intros (E & _)]. destruct idx; [auto|discriminate].
  - rewrite in_flat_map. split.
    + intros (i & Hi & H). apply in_seq in Hi. apply in_map_iff in H as (r & <- & Hr). apply IH in Hr as (A & B). split; [simpl; auto|constructor; [lia|auto]].
    + intros (E & F). destruct idx as [|i r]; [discriminate|]. inversion F; subst. exists i. split; [apply in_seq; lia|]. apply in_map, IH. simpl in E. auto.
Qed.
Lemma sum_cons g i l : fold_right Rplus 0 (map (gsum g) (map (cons i) l)) = INR (length l) * g i + fold_right Rplus 0 (map (gsum g) l).
Proof.
  induction l as [|r l IH]; [simpl; lra|].
  change (fold_right Rplus 0 (map (gsum g) (map (cons i) (r :: l)))) with (gsum g (i :: r) + fold_right Rplus 0 (map (gsum g) (map (cons i) l))).
  rewrite IH. change (gsum g (i :: r)) with (g i + gsum g r). change (length (r :: l)) with (S (length l)). rewrite S_INR.
  change (fold_right Rplus 0 (map (gsum g) (r :: l))) with (gsum g r + fold_right Rplus 0 (map (gsum g) l)). lra.
Qed.
Lemma sum_flat g C : forall l : list nat, fold_right Rplus 0 (map (gsum g) (flat_map (fun i => map (cons i) C) l)) =
  INR (length C) * gsum g l + INR (length l) * fold_right Rplus 0 (map (gsum g) C).
Proof.
  induction l as [|i l IH]; [unfold gsum; simpl; lra|]. cbn [flat_map]. rewrite map_app, sum_app, sum_cons, IH.
  change (gsum g (i :: l)) with (g i + gsum g l). change (length (i :: l)) with (S (length l)). rewrite S_INR. lra.
Qed.
Lemma choices_sum g n k : INR n * fold_right Rplus 0 (map (gsum g) (all_choices n k)) = INR k * INR n ^ k * gsum g (seq 0 n).
Proof.
  induction k as [|k IH]; [unfold gsum; simpl; lra|]. cbn [all_choices]. rewrite sum_flat, choices_length, seq_length, pow_INR, Rmult_plus_distr_l, <- Rmult_assoc.
  replace (INR n * (INR n * fold_right Rplus 0 (map (gsum g) (all_choices n k)))) with (INR n * (INR k * INR n ^ k * gsum g (seq 0 n))) by (rewrite <- IH; lra).
  rewrite S_INR. simpl. lra.
Qed.
Lemma sum_scale c (f : list nat -> R) l : fold_right Rplus 0 (map (fun x => c * f x) l) = c * fold_right Rplus 0 (map f l).
Proof. induction l as [|x l IH]; simpl; [lra|]. rewrite IH. lra. Qed.
Lemma choices_average g n k : (0 < n)%nat -> (0 < k)%nat ->
  plain_average (map (fun idx => / INR k * gsum g idx) (all_choices n k)) = / INR n * gsum g (seq 0 n).
Proof.
  intros Hn Hk. apply lt_INR in Hn, Hk. simpl in Hn, Hk. unfold plain_average. rewrite map_length, sum_scale, choices_length, pow_INR.
  pose proof (choices_sum g n k) as E. assert (P : INR n ^ k <> 0) by (apply pow_nonzero; lra).
  apply Rmult_eq_reg_l with (INR n * INR k * INR n ^ k); [|repeat apply Rmult_integral_contrapositive_currified; lra].
  transitivity (INR n * fold_right Rplus 0 (map (gsum g) (all_choices n k))); [field; repeat split; lra|]. rewrite E. field. lra.
Qed.

(** The centres chosen by the indices idx. *)
Definition centres (ss : list vec) (idx : list nat) : list vec := map (fun i => nth i ss []) idx.
Lemma pick_choice k pick ss md : update_model k pick ss = Ok md ->
  exists idx, In idx (all_choices (length ss) k) /\ md = centres ss idx.
Proof.
  unfold update_model. destruct k as [|k]; [discriminate|]. destruct ss as [|x ss]; [discriminate|]. intros E. injection E as <-.
  exists (map (fun i => (pick i mod length (x :: ss))%nat) (seq 0 (S k))). split.
  - apply choices_in. split; [now rewrite map_length, seq_length|]. apply Forall_map, Forall_forall. intros i _. apply Nat.mod_upper_bound. discriminate.
  - unfold centres. rewrite map_map. reflexivity.
Qed.
Lemma map_nth_seq {A} (f : nat -> A) (d : nat) : forall idx, map (fun i => f (nth i idx d)) (seq 0 (length idx)) = map f idx.
Proof. induction idx as [|i r IH]; simpl; auto. f_equal. rewrite <- seq_shift, map_map. exact IH. Qed.
Lemma choice_pick k ss idx : (0 < k)%nat -> ss <> [] -> In idx (all_choices (length ss) k) ->
  update_model k (fun i => nth i idx O) ss = Ok (centres ss idx).
Proof.
  intros Hk NE H. apply choices_in in H as (L & F). unfold update_model. destruct k as [|k]; [lia|]. destruct ss as [|x ss]; [congruence|].
  rewrite <- L.
  f_equal. unfold centres. rewrite (map_nth_seq (fun j => nth (j mod length (x :: ss)) (x :: ss) []) O idx).
  apply map_ext_in. intros i Hi. rewrite Forall_forall in F. rewrite Nat.mod_small by (apply F, Hi). reflexivity.
Qed.
Lemma weighted_repeat w : forall ds, weighted_sum (repeat w (length ds)) ds = Q2R w * fold_right Rplus 0 ds.
Proof. induction ds as [|d ds IH]; simpl; [lra|]. rewrite IH. lra. Qed.
Lemma Q2R_inv_nat n : (0 < n)%nat -> Q2R (1 / Qnat n) = / INR n.
Proof.
  intros H. assert (NZ : ~ (Qnat n == 0)%Q). { unfold Qnat, Qeq. simpl. lia. }
  unfold Qdiv. rewrite Q2R_mult, Q2R_inv by auto. replace (Q2R (Qnat n)) with (INR n).
  - unfold Q2R. simpl. lra.
  - unfold Qnat, Q2R. simpl. rewrite INR_IZR_INZ. lra.
Qed.
Lemma kde_prob k (K : vec -> fl R) md : length md = k -> (0 < k)%nat -> (forall m, log_value (K m)) ->
  mixture_prob (map K md) (kde_weights k) = Fin (/ INR k * fold_right Rplus 0 (map (fun m => density_of (K m)) md)).
Proof.
  intros L Hk V. rewrite mixture_prob_spec.
  - f_equal. rewrite map_map, <- Q2R_inv_nat by auto. unfold kde_weights. rewrite <- (weighted_repeat (1 / Qnat k)), map_length, L. reflexivity.
  - apply Forall_map, Forall_forall. intros; apply V.
  - apply Forall_forall. intros w Hw. apply repeat_spec in Hw. subst w. apply Qle_shift_div_l; [|unfold Qle; simpl; lia]. unfold Qnat, Qlt. simpl. lia.
Qed.
Lemma kde_average k ss (K : vec -> fl R) : (0 < k)%nat -> ss <> [] -> (forall m, log_value (K m)) ->
  exists dens, (forall idx, In idx (all_choices (length ss) k) -> mixture_prob (map K (centres ss idx)) (kde_weights k) = Fin (dens idx)) /\
    plain_average (map dens (all_choices (length ss) k)) = weighted_sum (repeat (1 / Qnat (length ss))%Q (length ss)) (map (fun m => density_of (K m)) ss).
Proof.
  intros Hk NE V. set (g := fun i => density_of (K (nth i ss []))). exists (fun idx => / INR k * gsum g idx). split.
  - intros idx H. apply choices_in in H as (L & _). rewrite (kde_prob k) by (auto; unfold centres; now rewrite map_length).
    unfold gsum, centres, g. rewrite map_map. reflexivity.
  - assert (Hn : (0 < length ss)%nat) by (destruct ss; [congruence|simpl; lia]).
    rewrite choices_average by auto. pose proof (weighted_repeat (1 / Qnat (length ss)) (map (fun m => density_of (K m)) ss)) as W. rewrite map_length in W. rewrite W, Q2R_inv_nat by auto.
    f_equal. unfold gsum, g. f_equal.
    rewrite <- (map_map (fun i => nth i ss []) (fun m => density_of (K m))). f_equal.
    clear. induction ss as [|x r IH]; simpl; auto. f_equal. rewrite <- seq_shift, map_map. exact IH.
Qed.
