(** Sums, largest entries and log-sums of floats do not depend on the order. *)
From Coq Require Import List Bool Arith Permutation Reals Lra QArith Qreals.
Import ListNotations.
From Verif Require Import Prelude.Py Prelude.QBase Prelude.RBase Model.Divergence Model.Mixture.
Open Scope R_scope.

Lemma faddR_comm x y : faddR x y = faddR y x.
Proof. destruct x, y; simpl; auto. f_equal. lra. Qed.
Lemma faddR_swap x y z : faddR x (faddR y z) = faddR y (faddR x z).
Proof. destruct x, y, z; simpl; auto. f_equal. lra. Qed.
Lemma fsumR_perm l l' : Permutation l l' -> fsumR l = fsumR l'.
Proof. induction 1; simpl; auto; [now rewrite IHPermutation|apply faddR_swap|congruence]. Qed.
Lemma fmaxR_swap x y z : fmaxR x (fmaxR y z) = fmaxR y (fmaxR x z).
Proof. destruct x, y, z; simpl; auto; f_equal; [|apply Rmax_comm]. rewrite !Rmax_assoc. f_equal. apply Rmax_comm. Qed.
Lemma fmax_perm l l' : Permutation l l' -> fold_right fmaxR NInf l = fold_right fmaxR NInf l'.
Proof. induction 1; simpl; auto; [now rewrite IHPermutation|apply fmaxR_swap|congruence]. Qed.
Lemma logaddexp_swap z x y : logaddexp (logaddexp z x) y = logaddexp (logaddexp z y) x.
Proof.
  assert (P : forall a b, 0 < exp a + exp b) by (intros a b; pose proof (exp_pos a); pose proof (exp_pos b); lra).
  destruct x, y, z; simpl; auto; f_equal.
  all: try (rewrite !exp_ln by apply P); f_equal; lra.
Qed.
Lemma reduce_perm l l' : Permutation l l' -> forall z, fold_left logaddexp l z = fold_left logaddexp l' z.
Proof. induction 1; intros z; simpl; auto; [now rewrite logaddexp_swap|congruence]. Qed.
Lemma combine_map {X A B} (f : X -> A) (g : X -> B) l : combine (map f l) (map g l) = map (fun x => (f x, g x)) l.
Proof. induction l; simpl; congruence. Qed.
Lemma map2_maps {X A B C} (h : A -> B -> C) (f : X -> A) (g : X -> B) l : map2 h (map f l) (map g l) = map (fun x => h (f x) (g x)) l.
Proof. induction l; simpl; congruence. Qed.
Lemma filter_perm {A} (f : A -> bool) l l' : Permutation l l' -> Permutation (filter f l) (filter f l').
Proof.
  induction 1; simpl; auto.
  - destruct (f x); auto.
  - destruct (f x), (f y); auto. apply perm_swap.
  - eapply perm_trans; eauto.
Qed.
Lemma nil_perm {A B} (l l' : list A) (d c : B) : Permutation l l' -> match l with [] => d | _ => c end = match l' with [] => d | _ => c end.
Proof. intros P. apply Permutation_length in P. destruct l, l'; auto; discriminate P. Qed.

Lemma kl_order {X} (p q : X -> fl R) s s' : Permutation s s' -> kl_compute p q s = kl_compute p q s'.
Proof.
  intros P. unfold kl_compute, kl_value, kl_from_log_probs, inlier_pairs. rewrite !combine_map.
  set (ok := fun pq : fl R * fl R => fgtninf (fst pq) && fgtninf (snd pq)). assert (F : Permutation (filter ok (map (fun x => (p x, q x)) s)) (filter ok (map (fun x => (p x, q x)) s'))) by (apply filter_perm, Permutation_map, P).
  destruct s as [|x s], s' as [|x' s']; [reflexivity|apply Permutation_nil in P; discriminate|symmetry in P; apply Permutation_nil in P; discriminate|]. cbn [map bind] in *. f_equal.
  assert (Ep := reduce_perm _ _ (Permutation_map fst F) NInf). assert (Eq := reduce_perm _ _ (Permutation_map snd F) NInf). unfold logaddexp_reduce. rewrite <- Ep, <- Eq. apply fsumR_perm, Permutation_map, F.
Qed.
Lemma js_order {X} (p q : X -> fl R) s s' : Permutation s s' -> js_compute p q s = js_compute p q s'.
Proof.
  intros P. unfold js_compute, js_value, inlier_pairs. rewrite !combine_map.
  set (ok := fun pq : fl R * fl R => fpos (fst pq) && fpos (snd pq) && negb (fisnan (snd pq)) && negb (fisnan (fst pq))). assert (F : Permutation (filter ok (map (fun x => (p x, q x)) s)) (filter ok (map (fun x => (p x, q x)) s'))) by (apply filter_perm, Permutation_map, P).
  destruct s as [|x s], s' as [|x' s']; [reflexivity|apply Permutation_nil in P; discriminate|symmetry in P; apply Permutation_nil in P; discriminate|]. cbn [map] in *. f_equal. f_equal.
  set (ins := filter ok _) in *. set (ins' := filter ok _) in *. rewrite <- (fsumR_perm _ _ (Permutation_map fst F)), <- (fsumR_perm _ _ (Permutation_map snd F)).
  set (f := fun pq : fl R * fl R => (fdivR (fst pq) (fsumR (map fst ins)), fdivR (snd pq) (fsumR (map snd ins)))). assert (N := Permutation_map f F).
  set (g := fun pq : fl R * fl R => fmulR (Fin (1 / 2)) (faddR (fst pq) (snd pq))). rewrite <- (fsumR_perm _ _ (Permutation_map g N)). set (sm := fsumR (map g (map f ins))).
  rewrite !(map_map g). assert (M : forall (h : fl R * fl R -> fl R -> fl R) (k : fl R * fl R -> fl R) l, map2 h l (map k l) = map (fun x => h x (k x)) l) by (intros h k l; induction l; simpl; congruence). rewrite !M. apply fsumR_perm, filter_perm, Permutation_map, N.
Qed.

(** A mixture with its components and stored weights in another order. *)
Lemma prob_order (cs cs' : list (fl R * Q)) : Permutation cs cs' -> mixture_prob (map fst cs) (map snd cs) = mixture_prob (map fst cs') (map snd cs').
Proof. intros P. unfold mixture_prob. rewrite !map2_maps. now rewrite (fsumR_perm _ _ (Permutation_map _ P)). Qed.
Lemma logsumexp_order (cs cs' : list (fl R * Q)) : Permutation cs cs' -> logsumexp (map fst cs) (map snd cs) = logsumexp (map fst cs') (map snd cs').
Proof.
  intros P. unfold logsumexp. rewrite !map2_maps. set (k := fun x : fl R * Q => if Qeq_bool (snd x) 0 then NInf else fst x). rewrite <- (fmax_perm _ _ (Permutation_map k P)).
  set (m := match _ with Fin r => r | _ => 0 end). f_equal. f_equal. apply fsumR_perm, Permutation_map, P.
Qed.
(** Weights that are equal as numbers. *)
Lemma prob_qeq ls : forall ws ws', Forall2 Qeq ws ws' -> mixture_prob ls ws = mixture_prob ls ws' /\ logsumexp ls ws = logsumexp ls ws'.
Proof.
  intros ws ws' F. assert (Z : forall a b, a == b -> Qeq_bool a 0 = Qeq_bool b 0) by (intros a b E; now rewrite E).
  assert (K : forall (h : fl R -> R -> bool -> fl R) ls, map2 (fun l w => h l (Q2R w) (Qeq_bool w 0)) ls ws = map2 (fun l w => h l (Q2R w) (Qeq_bool w 0)) ls ws').
  { intros h l. revert l. induction F; intros [|a0 l0]; simpl; auto. rewrite (Qeq_eqR _ _ H), (Z _ _ H), IHF. reflexivity. }
  split.
  - unfold mixture_prob. pose proof (K (fun l w _ => fmulR (fexp l) (Fin w)) ls) as E. cbv beta in E. now rewrite E.
  - unfold logsumexp. pose proof (K (fun l _ b => if b then NInf else l) ls) as E. cbv beta in E. rewrite E. set (m := match _ with Fin r => r | _ => 0 end). f_equal. f_equal. f_equal. exact (K (fun x w _ => fmulR (Fin w) (fexp (fsubR x (Fin m)))) _).
Qed.
