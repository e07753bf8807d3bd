(** General list lemmas. *)
From Coq Require Import List Bool Arith Lia.
Import ListNotations.

Lemma nodup_app {A} (l m : list A) :
  NoDup l -> NoDup m -> (forall x, In x l -> ~ In x m) -> NoDup (l ++ m).
Proof.
  induction 1 as [|a l Ha Hl IH]; intros Hm Hd; simpl; auto.
  constructor.
  - rewrite in_app_iff. intros [H|H]; [auto|]. apply (Hd a); simpl; auto.
  - apply IH; auto. intros x Hx. apply Hd. simpl; auto.
Qed.

Lemma nodup_map_in {A B} (f : A -> B) l :
  (forall x y, In x l -> In y l -> f x = f y -> x = y) -> NoDup l -> NoDup (map f l).
Proof.
  induction l as [|a l IH]; simpl; intros Hf Hn; constructor; inversion Hn as [|? ? Ha Hl]; subst.
  - rewrite in_map_iff. intros (x & E & Hx). apply Hf in E; auto. congruence.
  - apply IH; auto.
Qed.

Lemma forall2_length {A B} (R : A -> B -> Prop) l m : Forall2 R l m -> length l = length m.
Proof. induction 1; simpl; auto. Qed.

Lemma forall2_app {A B} (R : A -> B -> Prop) l m l' m' :
  Forall2 R l m -> Forall2 R l' m' -> Forall2 R (l ++ l') (m ++ m').
Proof. induction 1; simpl; auto. Qed.

Lemma forall2_rev {A B} (R : A -> B -> Prop) l m : Forall2 R l m -> Forall2 R (rev l) (rev m).
Proof. induction 1; simpl; auto. apply forall2_app; auto. Qed.

Lemma filter_split_length {A} (f : A -> bool) l :
  length (filter f l) + length (filter (fun x => negb (f x)) l) = length l.
Proof. induction l as [|a l IH]; simpl; auto. destruct (f a); simpl; lia. Qed.

Lemma flat_map_length_const {A B} (f : A -> list B) l k :
  (forall x, In x l -> length (f x) = k) -> length (flat_map f l) = length l * k.
Proof.
  induction l as [|a l IH]; simpl; intros H; auto. rewrite app_length, IH, H; auto.
Qed.
