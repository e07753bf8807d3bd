(** Sums of rationals and of rational floats do not depend on the order. *)
From Coq Require Import List Bool Arith Permutation QArith Lqa.
Import ListNotations.
From Verif Require Import Prelude.Py Prelude.QBase Spec.FloatSpec Model.Base Model.Statistics Model.Mixture.
Open Scope Q_scope.

Lemma feq_refl x : feqQ x x.
Proof. destruct x; simpl; auto. reflexivity. Qed.
Lemma feq_trans x y z : feqQ x y -> feqQ y z -> feqQ x z.
Proof. destruct x, y, z; simpl; try tauto. intros A B. now rewrite A. Qed.
Lemma fadd_feq x x' y y' : feqQ x x' -> feqQ y y' -> feqQ (faddQ x y) (faddQ x' y').
Proof. destruct x, x', y, y'; simpl; try tauto. intros A B. now rewrite A, B. Qed.
Lemma fsub_feq x x' y y' : feqQ x x' -> feqQ y y' -> feqQ (fsubQ x y) (fsubQ x' y').
Proof. intros A B. unfold fsubQ. apply fadd_feq; auto. destruct y, y'; simpl in *; try tauto. now rewrite B. Qed.
Lemma fadd_swap x y z : feqQ (faddQ x (faddQ y z)) (faddQ y (faddQ x z)).
Proof. destruct x, y, z; simpl; auto. lra. Qed.
Lemma fsum_perm l l' : Permutation l l' -> feqQ (fsumQ l) (fsumQ l').
Proof.
  induction 1; simpl; [reflexivity|apply fadd_feq; auto; apply feq_refl|apply fadd_swap|eapply feq_trans; eauto].
Qed.
Lemma fsum_feq l l' : Forall2 feqQ l l' -> feqQ (fsumQ l) (fsumQ l').
Proof. induction 1; simpl; [reflexivity|now apply fadd_feq]. Qed.
Lemma map_feq {X} (f g : X -> fl Q) l : (forall x, feqQ (f x) (g x)) -> Forall2 feqQ (map f l) (map g l).
Proof. intros H. induction l; simpl; constructor; auto. Qed.
Lemma Qsum_perm l l' : Permutation l l' -> Qsum l == Qsum l'.
Proof. induction 1; simpl; try lra. Qed.
Lemma Qltb_qeq a b c d : a == b -> c == d -> Qltb a c = Qltb b d.
Proof. intros A B. unfold Qltb. now rewrite A, B. Qed.
Lemma fdivQ_feq a b c d : a == b -> c == d -> feqQ (fdivQ a c) (fdivQ b d).
Proof. intros A B. unfold fdivQ. rewrite (Qltb_qeq 0 0 a b) by (auto; reflexivity). rewrite A, B. destruct (Qeq_bool d 0); [apply feq_refl|]. simpl. now rewrite A, B. Qed.
Lemma fdivfl_feq x x' y y' : feqQ x x' -> feqQ y y' -> feqQ (fdivflQ x y) (fdivflQ x' y').
Proof.
  destruct x, x', y, y'; simpl; try tauto; intros A B; try reflexivity.
  - now apply fdivQ_feq.
  - rewrite (Qltb_qeq _ _ 0 0 B) by reflexivity. apply feq_refl.
  - rewrite (Qltb_qeq _ _ 0 0 B) by reflexivity. apply feq_refl.
Qed.
Lemma fmul_feq x y y' : feqQ y y' -> feqQ (fmulQ x y) (fmulQ x y').
Proof. destruct y, y'; simpl; try tauto; intros A; try apply feq_refl. now rewrite A. Qed.
Lemma fsq_feq x y : feqQ x y -> feqQ (fsq x) (fsq y).
Proof. destruct x, y; simpl; try tauto. intros A. now rewrite A. Qed.
Lemma map2_mapsQ {X A B C} (h : A -> B -> C) (f : X -> A) (g : X -> B) l : map2 h (map f l) (map g l) = map (fun x => h (f x) (g x)) l.
Proof. induction l; simpl; congruence. Qed.

(** The expected value error: samples with the two density values. *)
Lemma ev_order (l l' : list (vec * Q * Q)) d : Permutation l l' ->
  feqQ (evmse d (map (fun x => fst (fst x)) l) (map (fun x => snd (fst x)) l) (map snd l)) (evmse d (map (fun x => fst (fst x)) l') (map (fun x => snd (fst x)) l') (map snd l')).
Proof.
  intros P. unfold evmse. apply fsum_feq. apply map_feq. intros j. apply fsq_feq.
  assert (K : forall f : vec * Q * Q -> Q, feqQ (ev_coord (map (fun x => fst (fst x)) l) (normalise (map f l)) j) (ev_coord (map (fun x => fst (fst x)) l') (normalise (map f l')) j)).
  { intros f. unfold ev_coord, normalise. rewrite !map_map, !map2_mapsQ. eapply feq_trans; [apply fsum_perm; apply Permutation_map; exact P|]. apply fsum_feq, map_feq. intros x. apply fmul_feq. apply fdivQ_feq; [reflexivity|]. apply Qsum_perm, Permutation_map, P. }
  apply fsub_feq; apply K.
Qed.
(** The effective sample size from the weights. *)
Lemma ness_order ws ws' n : Permutation ws ws' -> feqQ (get_approx_NESS ws n) (get_approx_NESS ws' n).
Proof.
  intros P. unfold get_approx_NESS. apply fdivfl_feq; [|apply feq_refl]. apply fdivfl_feq; [apply feq_refl|]. rewrite !map_map. eapply feq_trans; [apply fsum_perm; apply Permutation_map; exact P|].
  apply fsum_feq, map_feq. intros x. pose proof (fdivQ_feq x x _ _ (Qeq_refl x) (Qsum_perm _ _ P)) as E. destruct (fdivQ x (Qsum ws)), (fdivQ x (Qsum ws')); simpl in *; try tauto. now rewrite E.
Qed.

(** The stored weights of a mixture whose components are given in another order. *)
Lemma fnonpos_feq x y : feqQ x y -> fnonpos x = fnonpos y.
Proof. destruct x, y; simpl; try tauto. intros A. now rewrite A. Qed.
(** Stored weights, each as a function of the weight given and the sum. *)
Definition stored (s w : fl Q) : fl Q := let z := if bad_weight w then Fin 0 else w in if fnonpos s then z else fdivflQ z s.
Lemma set_weights_stored n ws : length ws = n -> set_weights n ws = Ok (map (stored (fsumQ (zeroed ws))) ws).
Proof.
  intros L. unfold set_weights. rewrite L, Nat.eqb_refl. simpl. unfold stored. destruct (fnonpos (fsumQ (zeroed ws))); [reflexivity|]. f_equal. unfold zeroed. now rewrite map_map.
Qed.
Lemma stored_feq s s' w : feqQ s s' -> feqQ (stored s w) (stored s' w).
Proof. intros E. unfold stored. rewrite (fnonpos_feq s s' E). destruct (fnonpos s'); [apply feq_refl|]. apply fdivfl_feq; auto. apply feq_refl. Qed.
Lemma zeroed_perm ws ws' : Permutation ws ws' -> feqQ (fsumQ (zeroed ws)) (fsumQ (zeroed ws')).
Proof. intros P. apply fsum_perm. unfold zeroed. now apply Permutation_map. Qed.
Lemma fin_feq l (ws : list Q) : Forall2 feqQ (map Fin ws) l -> exists ws', l = map Fin ws' /\ Forall2 Qeq ws ws'.
Proof.
  revert l. induction ws as [|w ws IH]; intros l F; inversion F; subst; [exists []; split; constructor|]. destruct y as [q| | |]; simpl in H1; try tauto. destruct (IH _ H3) as (ws' & -> & Q). exists (q :: ws'). split; [reflexivity|constructor; auto].
Qed.
Lemma mixture_stored {X} (cs cs' : list (X * fl Q)) ws : Permutation cs cs' -> set_weights (length cs) (map snd cs) = Ok (map Fin ws) ->
  exists ws' ps, set_weights (length cs') (map snd cs') = Ok (map Fin ws') /\ length ws = length cs /\ Permutation (combine (map fst cs) ws) ps /\ map fst ps = map fst cs' /\ Forall2 Qeq (map snd ps) ws'.
Proof.
  intros P H. rewrite set_weights_stored in H by apply map_length. injection H as H. set (s := fsumQ (zeroed (map snd cs))) in *. set (s' := fsumQ (zeroed (map snd cs'))).
  assert (E : feqQ s s') by (apply zeroed_perm, Permutation_map, P).
  (* the stored weight of a component *)
  set (st := fun c : X * fl Q => match stored s (snd c) with Fin a => a | _ => 0 end).
  assert (W : ws = map st cs). { rewrite map_map in H. clear P E. clearbody s. subst st. cbv beta. revert ws H. induction cs as [|c l IH]; intros [|w ws] H; try discriminate; auto. simpl in H. injection H as H1 H2. simpl. f_equal; [now rewrite H1|]. apply IH; auto. }
  assert (Ff : Forall (fun c => stored s (snd c) = Fin (st c)) cs). { rewrite map_map in H. rewrite W in H. rewrite map_map in H. apply Forall_forall. intros c Hc. pose proof (ext_in_map H c Hc) as K. exact K. }
  assert (Ff' : Forall (fun c => stored s (snd c) = Fin (st c)) cs') by (eapply Permutation_Forall; eauto).
  assert (F2 : Forall2 feqQ (map Fin (map st cs')) (map (stored s') (map snd cs'))).
  { clear -Ff' E. clearbody s'. clearbody st. clearbody s. induction Ff' as [|c l Hc Hl IH]; simpl; constructor; [rewrite <- Hc; now apply stored_feq|exact IH]. }
  destruct (fin_feq _ _ F2) as (ws' & E' & Q'). exists ws', (map (fun c => (fst c, st c)) cs').
  split; [rewrite set_weights_stored by apply map_length; fold s'; now rewrite E'|]. split; [now rewrite W, map_length|]. split.
  - rewrite W. replace (combine (map fst cs) (map st cs)) with (map (fun c => (fst c, st c)) cs) by (clearbody st; clear; induction cs as [|c l IH]; simpl; [reflexivity|now rewrite IH]). now apply Permutation_map.
  - rewrite !map_map. simpl. split; [reflexivity|exact Q'].
Qed.
