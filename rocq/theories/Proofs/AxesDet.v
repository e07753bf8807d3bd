(** The determinant of the model does not depend on the order in which the coordinates are listed. *)
From Coq Require Import List Bool Arith Lia QArith Permutation.
Import ListNotations.
From Verif Require Import Prelude.Py Prelude.QBase Model.Base Model.MPMC.
Open Scope Q_scope.

(** * Sums *)
Fixpoint sm (f : nat -> Q) (n : nat) : Q := match n with O => 0 | S k => sm f k + f k end.
Lemma Qsum_last l q : Qsum (l ++ [q]) == Qsum l + q.
Proof. induction l as [|a l IH]; simpl; [ring|]. rewrite IH. ring. Qed.
Lemma sum_sm f n : Qsum (map f (seq 0 n)) == sm f n.
Proof. induction n as [|n IH]; [reflexivity|]. rewrite seq_S, map_app. simpl. now rewrite Qsum_last, IH. Qed.
Lemma sm_ext f g n : (forall i, (i < n)%nat -> f i == g i) -> sm f n == sm g n.
Proof. intros H. induction n as [|n IH]; simpl; [reflexivity|]. rewrite IH, H by (auto; lia). reflexivity. Qed.
Lemma sm_opp f n : sm (fun i => - f i) n == - sm f n.
Proof. induction n as [|n IH]; simpl; [reflexivity|]. rewrite IH. ring. Qed.
Lemma sm_mult c f n : sm (fun i => c * f i) n == c * sm f n.
Proof. induction n as [|n IH]; simpl; [ring|]. rewrite IH. ring. Qed.
Lemma sm_app f n m : sm f (n + m) == sm f n + sm (fun i => f (n + i)%nat) m.
Proof. induction m as [|m IH]; simpl; [rewrite Nat.add_0_r; ring|]. rewrite Nat.add_succ_r. simpl. rewrite IH. ring. Qed.
Lemma sm_add f g n : sm (fun i => f i + g i) n == sm f n + sm g n.
Proof. induction n as [|n IH]; simpl; [reflexivity|]. rewrite IH. ring. Qed.
(** Two sums over pairs of different places, the roles of the two places exchanged. *)
Lemma sm_pairs (t t' : nat -> nat -> Q) m : (forall j k, (j <= k)%nat -> (k < m)%nat -> t j k == - t' (S k) j /\ t (S k) j == - t' j k) ->
  sm (fun j => sm (t j) m) (S m) == - sm (fun j => sm (t' j) m) (S m).
Proof.
  induction m as [|m IH]; intros H; [simpl; ring|].
  assert (S1 : forall u : nat -> nat -> Q, sm (fun j => sm (u j) (S m)) (S (S m)) == sm (fun j => sm (u j) m) (S m) + sm (fun j => u j m) (S m) + sm (u (S m)) (S m)).
  { intros u. change (sm (fun j => sm (u j) (S m)) (S m) + sm (u (S m)) (S m) == sm (fun j => sm (u j) m) (S m) + sm (fun j => u j m) (S m) + sm (u (S m)) (S m)).
    apply Qplus_comp; [|reflexivity]. exact (sm_add (fun j => sm (u j) m) (fun j => u j m) (S m)). }
  rewrite (S1 t), (S1 t'). rewrite IH by (intros; apply H; lia).
  rewrite (sm_ext (fun j => t j m) (fun j => - t' (S m) j) (S m)) by (intros i Hi; apply H; lia).
  rewrite (sm_ext (t (S m)) (fun j => - t' j m) (S m)) by (intros i Hi; apply H; lia).
  rewrite !sm_opp. ring.
Qed.

(** * Signs and lists *)
Definition sgn (j : nat) : Q := if Nat.even j then 1 else - (1).
Lemma sgn_S j : sgn (S j) == - sgn j.
Proof. unfold sgn. rewrite Nat.even_succ, <- Nat.negb_even. destruct (Nat.even j); reflexivity. Qed.
Fixpoint rm (j : nat) (l : list nat) : list nat := match l, j with [], _ => [] | _ :: r, O => r | a :: r, S i => a :: rm i r end.
Lemma rm_length j : forall l, (j < length l)%nat -> S (length (rm j l)) = length l.
Proof. induction j as [|j IH]; intros [|a l] H; simpl in *; try lia. rewrite IH; lia. Qed.
Lemma rm_comm j : forall k l, (j <= k)%nat -> rm k (rm j l) = rm j (rm (S k) l).
Proof.
  induction j as [|j IH]; intros k [|a l] H; [destruct k|destruct k| destruct k|]; try reflexivity. destruct k as [|k]; [lia|].
  change (a :: rm k (rm j l) = a :: rm j (rm (S k) l)). f_equal. apply IH. lia.
Qed.
Lemma nth_rm_ge j : forall k l d, (j <= k)%nat -> nth k (rm j l) d = nth (S k) l d.
Proof. induction j as [|j IH]; intros k [|a l] d H; simpl; auto; try (destruct k; reflexivity). destruct k as [|k]; [lia|]. apply IH. lia. Qed.
Lemma nth_rm_lt j : forall k l d, (k < j)%nat -> nth k (rm j l) d = nth k l d.
Proof. induction j as [|j IH]; intros k [|a l] d H; simpl; auto; try lia. destruct k as [|k]; auto. apply IH. lia. Qed.
Lemma rm_app_lt l1 : forall j l2, (j < length l1)%nat -> rm j (l1 ++ l2) = rm j l1 ++ l2.
Proof. induction l1 as [|a l1 IH]; intros [|j] l2 H; simpl in *; try lia; auto. f_equal. apply IH. lia. Qed.
Lemma rm_app_ge l1 : forall j l2, rm (length l1 + j) (l1 ++ l2) = l1 ++ rm j l2.
Proof. induction l1 as [|a l1 IH]; intros j l2; simpl; auto. f_equal. apply IH. Qed.

(** * The determinant of the rows and columns listed *)
Section Det.
Variable A : nat -> nat -> Q.
Fixpoint Dl (rows cols : list nat) : Q :=
  match rows with
  | [] => 1
  | r :: rs => Qsum (map (fun j => sgn j * A r (nth j cols 0%nat) * Dl rs (rm j cols)) (seq 0 (length rows)))
  end.
Lemma Dl_cons r rs cols : Dl (r :: rs) cols == sm (fun j => sgn j * A r (nth j cols 0%nat) * Dl rs (rm j cols)) (S (length rs)).
Proof. cbn [Dl]. rewrite sum_sm. reflexivity. Qed.
Lemma drop_map (f : nat -> Q) j : forall l, drop_col j (map f l) = map f (rm j l).
Proof. induction j as [|j IH]; intros [|a l]; simpl; auto. now rewrite IH. Qed.
Lemma nth_map_q (f : nat -> Q) l j : (j < length l)%nat -> nth j (map f l) 0 = f (nth j l 0%nat).
Proof. revert j. induction l as [|a l IH]; intros [|j] H; simpl in *; try lia; auto. apply IH. lia. Qed.
Lemma detn_Dl rows : forall cols, length cols = length rows -> detn (length rows) (map (fun i => map (A i) cols) rows) == Dl rows cols.
Proof.
  induction rows as [|r rs IH]; intros cols L; [reflexivity|]. rewrite Dl_cons. cbn [map length detn]. rewrite sum_sm. apply sm_ext. intros j J. fold (sgn j).
  rewrite nth_map_q by (rewrite L; exact J). rewrite map_map. rewrite (map_ext _ (fun i => map (A i) (rm j cols))) by (intros; apply drop_map). rewrite IH; [reflexivity|].
  simpl in L. pose proof (rm_length j cols ltac:(rewrite L; exact J)). lia.
Qed.
Lemma nth_mid (l1 : list nat) a l2 : nth (length l1) (l1 ++ a :: l2) 0%nat = a.
Proof. induction l1; simpl; auto. Qed.
Lemma nth_mid1 (l1 : list nat) a b l2 : nth (length l1 + 1) (l1 ++ a :: b :: l2) 0%nat = b.
Proof. induction l1; simpl; auto. Qed.
Lemma nth_out (l1 : list nat) a b l2 i : nth (length l1 + S (S i)) (l1 ++ a :: b :: l2) 0%nat = nth i l2 0%nat.
Proof. induction l1; simpl; auto. Qed.
Lemma col_swap rows : forall l1 a b l2, (length l1 + S (S (length l2)) = length rows)%nat -> Dl rows (l1 ++ a :: b :: l2) == - Dl rows (l1 ++ b :: a :: l2).
Proof.
  induction rows as [|r rs IH]; intros l1 a b l2 L; [simpl in L; lia|]. rewrite !Dl_cons. simpl in L.
  replace (S (length rs)) with (length l1 + (2 + length l2))%nat by lia. rewrite !sm_app. simpl sm.
  assert (C1 : forall j, (j < length l1)%nat -> sgn j * A r (nth j (l1 ++ a :: b :: l2) 0%nat) * Dl rs (rm j (l1 ++ a :: b :: l2)) == - (sgn j * A r (nth j (l1 ++ b :: a :: l2) 0%nat) * Dl rs (rm j (l1 ++ b :: a :: l2)))).
  { intros j J. rewrite !rm_app_lt by auto. rewrite !app_nth1 by auto. rewrite IH; [ring|]. pose proof (rm_length j l1 J). lia. }
  rewrite (sm_ext _ _ _ C1), sm_opp.
  assert (C2 : forall i, (i < length l2)%nat -> sgn (length l1 + S (S i)) * A r (nth (length l1 + S (S i)) (l1 ++ a :: b :: l2) 0%nat) * Dl rs (rm (length l1 + S (S i)) (l1 ++ a :: b :: l2)) ==
    - (sgn (length l1 + S (S i)) * A r (nth (length l1 + S (S i)) (l1 ++ b :: a :: l2) 0%nat) * Dl rs (rm (length l1 + S (S i)) (l1 ++ b :: a :: l2)))).
  { intros i I. rewrite !rm_app_ge, !nth_out. simpl rm. rewrite IH; [ring|]. pose proof (rm_length i l2 I). lia. }
  rewrite (sm_ext _ _ _ C2), sm_opp. rewrite !nth_mid1, !rm_app_ge. rewrite !Nat.add_0_r, !nth_mid. simpl rm.
  rewrite !Nat.add_1_r, !sgn_S. ring.
Qed.
Lemma row_swap0 a b rs cols : (length cols = S (S (length rs)))%nat -> Dl (a :: b :: rs) cols == - Dl (b :: a :: rs) cols.
Proof.
  intros L. rewrite !Dl_cons.
  assert (G : forall r r', sm (fun j => sgn j * A r (nth j cols 0%nat) * Dl (r' :: rs) (rm j cols)) (S (length (r' :: rs))) ==
    sm (fun j => sm (fun k => sgn j * A r (nth j cols 0%nat) * (sgn k * A r' (nth k (rm j cols) 0%nat) * Dl rs (rm k (rm j cols)))) (S (length rs))) (S (S (length rs)))).
  { intros r r'. apply sm_ext. intros j J. now rewrite Dl_cons, sm_mult. }
  rewrite !G. apply sm_pairs. intros j k Hj Hk. rewrite (rm_comm j k) by auto. rewrite (nth_rm_ge j k) by auto. rewrite (nth_rm_lt (S k) j) by lia. rewrite !sgn_S. split; ring.
Qed.
Lemma row_swap l1 a b l2 : forall cols, length cols = length (l1 ++ a :: b :: l2) -> Dl (l1 ++ a :: b :: l2) cols == - Dl (l1 ++ b :: a :: l2) cols.
Proof.
  induction l1 as [|r l1 IH]; intros cols L; [apply row_swap0; exact L|]. cbn [app]. rewrite !Dl_cons, <- sm_opp. assert (E : length (l1 ++ b :: a :: l2) = length (l1 ++ a :: b :: l2)) by (rewrite !app_length; reflexivity). rewrite E. apply sm_ext. intros j J.
  rewrite IH; [ring|]. cbn [app length] in L. pose proof (rm_length j cols ltac:(lia)). lia.
Qed.

Inductive adjs : list nat -> list nat -> Prop :=
| adj_refl l : adjs l l
| adj_step l1 a b l2 l : adjs (l1 ++ b :: a :: l2) l -> adjs (l1 ++ a :: b :: l2) l.
Lemma adjs_cons x l l' : adjs l l' -> adjs (x :: l) (x :: l').
Proof. induction 1 as [|l1 a b l2 l H IH]; [constructor|]. exact (adj_step (x :: l1) a b l2 _ IH). Qed.
Lemma adjs_trans l l' l'' : adjs l l' -> adjs l' l'' -> adjs l l''.
Proof. induction 1; auto. intros K. constructor. auto. Qed.
Lemma perm_adjs l l' : Permutation l l' -> adjs l l'.
Proof.
  induction 1; [constructor|now apply adjs_cons|exact (adj_step [] y x l _ (adj_refl _))|eapply adjs_trans; eauto].
Qed.
Lemma Dl_perm l l' : Permutation l l' -> Dl l l == Dl l' l'.
Proof.
  intros P. apply perm_adjs in P. induction P as [|l1 a b l2 l H IH]; [reflexivity|]. rewrite <- IH.
  rewrite row_swap by reflexivity. rewrite col_swap; [ring|]. rewrite !app_length. reflexivity.
Qed.
End Det.
