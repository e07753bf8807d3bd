(** The autocorrelation based effective sample size (get_NESS): invariance and witnesses. *)
From Coq Require Import List Bool Arith Lia QArith Lqa Setoid Morphisms.
Import ListNotations.
From Verif Require Import Prelude.Py Prelude.QBase Prelude.QFacts Prelude.ListFacts Model.Base Spec.FloatSpec.
Open Scope Q_scope.

Lemma feq_refl x : feqQ x x. Proof. destruct x; simpl; auto. reflexivity. Qed.
Lemma feq_sym x y : feqQ x y -> feqQ y x.
Proof. destruct x, y; simpl; auto. intros; now symmetry. Qed.
Lemma feq_trans x y z : feqQ x y -> feqQ y z -> feqQ x z.
Proof. destruct x, y, z; simpl; try tauto. apply Qeq_trans. Qed.

Lemma Qeq_bool_comp a b c d : a == b -> c == d -> Qeq_bool a c = Qeq_bool b d.
Proof. intros H1 H2. destruct (Qeq_bool_spec a c), (Qeq_bool_spec b d); auto; exfalso; lra. Qed.
Lemma Qltb_comp a b c d : a == b -> c == d -> Qltb a c = Qltb b d.
Proof. intros H1 H2. destruct (Qltb_spec a c), (Qltb_spec b d); auto; exfalso; lra. Qed.

Lemma fdivQ_comp a b c d : a == b -> c == d -> feqQ (fdivQ a c) (fdivQ b d).
Proof.
  intros H1 H2. unfold fdivQ. rewrite (Qeq_bool_comp c d 0 0 H2), (Qeq_bool_comp a b 0 0 H1), (Qltb_comp 0 0 a b) by (auto; reflexivity).
  destruct (Qeq_bool d 0); [destruct (Qeq_bool b 0); [|destruct (Qltb 0 b)]|]; simpl; auto.
  rewrite H1, H2; reflexivity.
Qed.

Lemma faddQ_comp a b c d : feqQ a b -> feqQ c d -> feqQ (faddQ a c) (faddQ b d).
Proof. destruct a, b, c, d; simpl; try tauto. intros; lra. Qed.

Lemma foppQ_comp a b : feqQ a b -> feqQ (foppQ a) (foppQ b).
Proof. destruct a, b; simpl; try tauto. intros; lra. Qed.

Lemma fsubQ_comp a b c d : feqQ a b -> feqQ c d -> feqQ (fsubQ a c) (fsubQ b d).
Proof. intros. apply faddQ_comp; auto. apply foppQ_comp; auto. Qed.

Lemma fdivflQ_comp a b c d : feqQ a b -> feqQ c d -> feqQ (fdivflQ a c) (fdivflQ b d).
Proof.
  destruct a, b, c, d; simpl; try tauto; intros H1 H2; try apply fdivQ_comp; auto; try reflexivity;
    rewrite (Qltb_comp _ _ _ _ H2 (Qeq_refl 0)); destruct (Qltb _ _); simpl; auto.
Qed.

Lemma fltQ_comp a b c d : feqQ a b -> feqQ c d -> fltQ a c = fltQ b d.
Proof. destruct a, b, c, d; simpl; try tauto. intros; apply Qltb_comp; auto. Qed.

Lemma fsumQ_comp l m : Forall2 feqQ l m -> feqQ (fsumQ l) (fsumQ m).
Proof. induction 1; simpl; [reflexivity|]. apply faddQ_comp; auto. Qed.

Section Affine.
Variables (c b : Q).
Hypothesis Hc : ~ c == 0.
Let f (a : Q) : Q := c * a + b.
Let F (x : list vec) : list vec := map (map f) x.

Lemma c2 : 0 < c * c.
Proof. destruct (Q_dec c 0) as [[|]|]; nra. Qed.

Lemma sqdist_affine : forall x y, sqdist (map f x) (map f y) == c * c * sqdist x y.
Proof.
  unfold sqdist. induction x as [|a x IH]; destruct y as [|e y]; simpl; try lra.
  rewrite IH. unfold f. ring.
Qed.

Lemma sum_sqdist_affine : forall l m, Qsum (map2 sqdist (F l) (F m)) == c * c * Qsum (map2 sqdist l m).
Proof.
  unfold F. induction l as [|a l IH]; destruct m as [|e m]; simpl; try lra.
  rewrite IH, sqdist_affine. ring.
Qed.

Lemma variogram_affine x t : variogram (F x) t == c * c * variogram x t.
Proof.
  unfold variogram. replace (length (F x)) with (length x) by (unfold F; now rewrite map_length).
  replace (skipn t (F x)) with (F (skipn t x)) by (unfold F; now rewrite skipn_map).
  replace (firstn (length x - t) (F x)) with (F (firstn (length x - t) x)) by (unfold F; now rewrite firstn_map).
  rewrite sum_sqdist_affine. unfold Qdiv. ring.
Qed.

Lemma sum_affine l : Qsum (map f l) == c * Qsum l + Qnat (length l) * b.
Proof.
  induction l as [|a l IH]; cbn [map Qsum length]; [rewrite Qnat_0; lra|].
  rewrite IH, Qnat_S. unfold f. ring.
Qed.

Lemma entries_affine x : entries (F x) = map f (entries x).
Proof. unfold entries, F. now rewrite concat_map. Qed.

Lemma dev_affine l m m' : m' == f m ->
  Qsum (map (fun a => (a - m') * (a - m')) (map f l)) == c * c * Qsum (map (fun a => (a - m) * (a - m)) l).
Proof.
  intros E. induction l as [|a l IH]; cbn [map Qsum]; [ring|]. rewrite IH, E. unfold f. ring.
Qed.

Lemma W_affine x : feqQ (ness_W (F x)) (match ness_W x with Fin w => Fin (c * c * w) | s => s end).
Proof.
  unfold ness_W. rewrite entries_affine.
  replace (length (F x)) with (length x) by (unfold F; now rewrite map_length). rewrite map_length.
  set (e := entries x). set (k := Qnat (length x) - 1).
  set (s := Qsum (map (fun a => (a - Qsum e / Qnat (length e)) * (a - Qsum e / Qnat (length e))) e)).
  assert (S : Qsum (map (fun a => (a - Qsum (map f e) / Qnat (length e)) * (a - Qsum (map f e) / Qnat (length e))) (map f e))
              == c * c * s).
  { clearbody e. destruct (Nat.eq_dec (length e) 0) as [Ee|Ee].
    - apply length_zero_iff_nil in Ee. subst e. unfold s. simpl. lra.
    - apply dev_affine. rewrite sum_affine. unfold f.
      assert (0 < Qnat (length e)) by (apply Qnat_pos; lia). field. lra. }
  pose proof c2 as C2.
  eapply feq_trans; [apply fdivQ_comp; [exact S|reflexivity]|].
  unfold fdivQ. destruct (Qeq_bool_spec k 0) as [K|K].
  - destruct (Qeq_bool_spec s 0) as [Z|Z].
    + destruct (Qeq_bool_spec (c * c * s) 0) as [Z'|Z']; [simpl; auto|exfalso; apply Z'; rewrite Z; ring].
    + destruct (Qeq_bool_spec (c * c * s) 0) as [Z'|Z']; [exfalso; apply Qmult_integral in Z'; destruct Z'; auto; lra|].
      destruct (Qltb_spec 0 s), (Qltb_spec 0 (c * c * s)); simpl; auto; exfalso; try nra.
  - simpl. field. auto.
Qed.

Lemma rho_affine x t : feqQ (rho (F x) t) (rho x t).
Proof.
  unfold rho. apply fsubQ_comp; [simpl; reflexivity|].
  pose proof (W_affine x) as W. pose proof (variogram_affine x t) as V. pose proof c2 as C2.
  set (v := variogram x t) in *. set (v' := variogram (F x) t) in *.
  destruct (ness_W (F x)) as [w'| | |], (ness_W x) as [w| | |]; simpl in W; try contradiction; try (simpl; reflexivity); try exact I.
  apply feq_trans with (fdivQ (c * c * v) (2 * (c * c * w))).
  { simpl. apply fdivQ_comp; [exact V|rewrite W; reflexivity]. }
  simpl. unfold fdivQ.
  destruct (Qeq_bool_spec (2 * w) 0) as [K|K].
  - destruct (Qeq_bool_spec (2 * (c * c * w)) 0) as [K'|K']; [|exfalso; apply K'; assert (w == 0) as -> by lra; ring].
    destruct (Qeq_bool_spec v 0) as [Z|Z].
    + destruct (Qeq_bool_spec (c * c * v) 0) as [Z'|Z']; [simpl; auto|exfalso; apply Z'; rewrite Z; ring].
    + destruct (Qeq_bool_spec (c * c * v) 0) as [Z'|Z']; [exfalso; apply Qmult_integral in Z'; destruct Z'; auto; lra|].
      destruct (Qltb_spec 0 v), (Qltb_spec 0 (c * c * v)); simpl; auto; exfalso; try nra.
  - destruct (Qeq_bool_spec (2 * (c * c * w)) 0) as [K'|K'].
    { exfalso. assert (Y : c * c * w == 0) by lra. apply Qmult_integral in Y. destruct Y; lra. }
    simpl. assert (~ w == 0) by lra. field. auto.
Qed.

Lemma nth_feq l m i : Forall2 feqQ l m -> feqQ (nth i l NaN) (nth i m NaN).
Proof. intros H; revert i; induction H; destruct i; simpl; auto. Qed.

Lemma loop_affine x fuel : forall t acc acc', Forall2 feqQ acc' acc ->
  Forall2 feqQ (ness_loop fuel (F x) t acc') (ness_loop fuel x t acc).
Proof.
  induction fuel as [|fuel IH]; intros t acc acc' H; cbn [ness_loop]; auto.
  replace (length (F x)) with (length x) by (unfold F; now rewrite map_length).
  destruct (t <? length x)%nat; auto.
  assert (G : Forall2 feqQ (acc' ++ [rho (F x) t]) (acc ++ [rho x t])).
  { apply forall2_app; auto. constructor; auto. apply rho_affine. }
  rewrite (fltQ_comp (faddQ (nth (t - 2) (acc' ++ [rho (F x) t]) NaN) (rho (F x) t))
                     (faddQ (nth (t - 2) (acc ++ [rho x t]) NaN) (rho x t)) (Fin 0) (Fin 0)).
  - destruct (_ && _); auto.
  - apply faddQ_comp; [now apply nth_feq|apply rho_affine].
  - simpl; reflexivity.
Qed.

Lemma ness_affine x : feqQ (get_NESS (F x)) (get_NESS x).
Proof.
  unfold get_NESS. replace (length (F x)) with (length x) by (unfold F; now rewrite map_length).
  apply fdivflQ_comp; [|simpl; reflexivity]. apply fdivflQ_comp; [simpl; reflexivity|].
  apply faddQ_comp; [simpl; reflexivity|].
  pose proof (fsumQ_comp _ _ (loop_affine x (length x) 1 [] [] (Forall2_nil _))) as S.
  destruct (fsumQ (ness_loop (length x) (F x) 1 [])), (fsumQ (ness_loop (length x) x 1 [])); simpl in *; try contradiction; auto.
  rewrite S; reflexivity.
Qed.
End Affine.

Lemma ness_infinite : exists x, (1 < length x)%nat /\ Forall (fun r => length r = 1%nat) x /\
  ~ (exists v, feqQ (get_NESS x) (Fin v)).
Proof.
  exists [[0]; [1]; [2]]. split; [simpl; lia|]. split; [repeat constructor|].
  intros [v H]. vm_compute in H. exact H.
Qed.

Lemma ness_above_one : exists x v, (1 < length x)%nat /\ get_NESS x = Fin v /\ 1 < v.
Proof.
  exists [[0]; [1]; [3]]. eexists. split; [simpl; lia|]. split; [vm_compute; reflexivity|].
  vm_compute; reflexivity.
Qed.

Lemma ness_negative : exists x v, (1 < length x)%nat /\ get_NESS x = Fin v /\ v < 0.
Proof.
  exists [[0]; [1]; [2]; [3]]. eexists. split; [simpl; lia|]. split; [vm_compute; reflexivity|].
  vm_compute; reflexivity.
Qed.


Lemma ness_affine_example : ~ (-(2)) == 0 /\
  map (map (fun a => -(2) * a + 3)) [[0]; [5]; [1]; [4]] = [[3]; [-(7)]; [1]; [-(5)]] /\
  feqQ (get_NESS [[0]; [5]; [1]; [4]]) (Fin (17#18)).
Proof. repeat split; vm_compute; congruence. Qed.
