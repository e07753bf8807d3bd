(** C79: point masses. *)
From Coq Require Import List Bool Arith Lia QArith Qabs Lqa.
Import ListNotations.
From Verif Require Import Prelude.Py Prelude.QBase Prelude.QFacts Model.Shape Model.Delta Spec.PointSpec.
Open Scope Q_scope.

Lemma close_iff : forall c x, length x = length c -> all_close c x = true <-> within (1 # 100000000) (1 # 100000) c x.
Proof.
  induction c as [|a c IH]; intros [|b x] L; try discriminate; simpl; [split; [constructor|reflexivity]|].
  rewrite andb_true_iff, IH by (simpl in L; lia). unfold isclose. rewrite Qle_bool_iff. split.
  - intros [H K]. now constructor.
  - intros H. inversion H; auto.
Qed.
Lemma same_within c : forall x, same_point c x -> within (1 # 100000000) (1 # 100000) c x.
Proof.
  induction c as [|a c IH]; intros x H; inversion H as [|? b ? y E F]; subst; constructor; [|now apply IH].
  rewrite E. setoid_replace (b - b) with 0 by ring. pose proof (Qabs_nonneg b). change (Qabs 0) with 0. lra.
Qed.

(** Every batch of rows gets one value per row: +inf when the row is within the tolerance 1e-8 + 1e-5 |x| of
    the centre in every coordinate, in particular at the centre itself, and 0 otherwise; the log density is +inf
    and -inf respectively. *)
Theorem C79_delta_density_partial : forall c rows, rows <> [] -> Forall (fun r => length r = length c) rows ->
  exists ps ls, delta_prob c (Arr2 (length c) rows) = Ok ps /\ delta_log_prob c (Arr2 (length c) rows) = Ok ls /\
    Forall2 (fun x p => (within (1 # 100000000) (1 # 100000) c x -> p = PInf) /\
                        (~ within (1 # 100000000) (1 # 100000) c x -> p = Fin 0) /\
                        (same_point c x -> p = PInf)) rows ps /\
    Forall2 (fun x l => (within (1 # 100000000) (1 # 100000) c x -> l = PInf) /\
                        (~ within (1 # 100000000) (1 # 100000) c x -> l = NInf) /\
                        (same_point c x -> l = PInf)) rows ls.
Proof.
  intros c rows N F. unfold delta_prob, delta_log_prob, check_shape. rewrite Nat.eqb_refl.
  assert (E : match rows with [] => Raise IndexError | _ :: _ => Ok rows end = Ok rows) by (destruct rows; [congruence|reflexivity]).
  rewrite E. cbn [bind]. do 2 eexists. split; [reflexivity|]. split; [reflexivity|]. clear N E.
  assert (G : forall v : fl Q, Forall2 (fun x p => (within (1 # 100000000) (1 # 100000) c x -> p = PInf) /\
                        (~ within (1 # 100000000) (1 # 100000) c x -> p = v) /\
                        (same_point c x -> p = PInf)) rows (map (fun r => if all_close c r then PInf else v) rows)).
  { intros v. induction F as [|r rows L F IH]; simpl; constructor; auto. pose proof (close_iff c r L) as C.
    destruct (all_close c r).
    - split; [reflexivity|]. split; [intros H; exfalso; apply H, C; reflexivity|reflexivity].
    - assert (W : ~ within (1 # 100000000) (1 # 100000) c r) by (intros H; apply C in H; discriminate).
      split; [intros H; contradiction|]. split; [reflexivity|]. intros H. exfalso. apply W. now apply same_within. }
  split; apply G.
Qed.

(** Any number of samples: all of them the centre, each with density +inf. *)
Theorem C79_samples : forall c n, length (delta_sample c n) = n /\ Forall (same_point c) (delta_sample c n) /\
  ((0 < n)%nat -> delta_prob c (Arr2 (length c) (delta_sample c n)) = Ok (repeat PInf n)).
Proof.
  intros c n. assert (L : length (delta_sample c n) = n) by (unfold delta_sample; now rewrite map_length, seq_length).
  assert (R : same_point c c) by (unfold same_point; clear; induction c; constructor; [reflexivity|assumption]).
  assert (S : Forall (fun r => r = c) (delta_sample c n)).
  { unfold delta_sample. rewrite Forall_map. apply Forall_forall. reflexivity. }
  split; [exact L|]. split; [eapply Forall_impl; [|exact S]; intros r ->; exact R|]. intros P.
  destruct (C79_delta_density_partial c (delta_sample c n)) as (ps & ls & E & _ & V & _).
  - intros H. rewrite H in L. simpl in L. lia.
  - eapply Forall_impl; [|exact S]. now intros r ->.
  - rewrite E. f_equal. rewrite <- L. clear - V S R. induction V as [|x p rows ps (_ & _ & H) V IH]; [reflexivity|].
    inversion S; subst. simpl. f_equal; auto.
Qed.

Example C79_example : [[1; 2]; [0; 0]] <> (@nil (list Q)) /\ Forall (fun r => length r = length [1; 2]) [[1; 2]; [0; 0]] /\
  (~ within (1 # 100000000) (1 # 100000) [1; 2] [0; 0]) /\ same_point [1; 2] [2 # 2; 2].
Proof.
  split; [discriminate|]. split; [repeat constructor|]. split; [|repeat constructor].
  intros H. inversion H as [|? ? ? ? A]; subst. vm_compute in A. congruence.
Qed.

(** Not only the centre has density: a different point does too. *)
Theorem C79_elsewhere_refuted : exists c x, ~ same_point c x /\
  delta_prob c (Arr2 1 [x]) = Ok [PInf] /\ delta_log_prob c (Arr2 1 [x]) = Ok [PInf].
Proof.
  exists [1], [100001 # 100000]. split; [|split; vm_compute; reflexivity].
  intros H. inversion H as [|? ? ? ? A]; subst. vm_compute in A. congruence.
Qed.

(** The probability of a box is never answered, also not for boxes strictly around the centre. *)
Theorem C79_integral_refuted :
  (exists c a b, strictly_inside a b c /\ exists e, delta_integral a b = Raise e) /\
  (forall a b r, delta_integral a b <> Ok r).
Proof.
  split.
  - exists [0; 1 # 2], [-(1); 0], [1; 1]. split; [split; repeat constructor|]. eexists. reflexivity.
  - intros a b r. unfold delta_integral. destruct (forallb _ _); discriminate.
Qed.

Print Assumptions C79_delta_density_partial.
Print Assumptions C79_samples.
Print Assumptions C79_elsewhere_refuted.
Print Assumptions C79_integral_refuted.
