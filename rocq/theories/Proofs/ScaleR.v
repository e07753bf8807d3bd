(** The weights of nested sampling do not depend on the scale of the likelihoods. *)
From Coq Require Import List Arith Lia QArith Qreals Reals Lra.
Import ListNotations.
From Verif Require Import Prelude.Py Prelude.QBase Prelude.RBase Model.Nested.
Open Scope R_scope.

Lemma scaled_reals c L L' : Forall2 (fun a b : Q => (b == c * a)%Q) L L' -> map Q2R L' = map (Rmult (Q2R c)) (map Q2R L).
Proof. induction 1 as [|a b l l' H F IH]; simpl; auto. rewrite IH, (Qeq_eqR _ _ H), Q2R_mult. reflexivity. Qed.
Lemma map2_scale k : forall L S, map2 Rmult (map (Rmult k) L) S = map (Rmult k) (map2 Rmult L S).
Proof. induction L as [|a L IH]; intros [|s S]; simpl; auto. rewrite IH. f_equal. ring. Qed.
Lemma Rsum_scale k l : Rsum (map (Rmult k) l) = k * Rsum l.
Proof. induction l as [|a l IH]; simpl; [ring|]. rewrite IH. ring. Qed.
Lemma fdivR_scale k x y : 0 < k -> fdivR (k * x) (k * y) = fdivR x y.
Proof.
  intros K. unfold fdivR, Reqb, Rltb. destruct (Req_EM_T (k * y) 0) as [E|E], (Req_EM_T y 0) as [F|F]; try (exfalso; nra).
  - destruct (Req_EM_T (k * x) 0), (Req_EM_T x 0); try (exfalso; nra); auto. destruct (Rlt_dec 0 (k * x)), (Rlt_dec 0 x); auto; exfalso; nra.
  - f_equal. field. split; lra.
Qed.
Lemma nested_weights_scale c N L L' : (0 < c)%Q -> Forall2 (fun a b : Q => (b == c * a)%Q) L L' -> nested_weights N (map Q2R L') = nested_weights N (map Q2R L).
Proof.
  intros C F. assert (K : 0 < Q2R c) by (replace 0 with (Q2R 0) by (unfold Q2R; simpl; field); now apply Qlt_Rlt).
  rewrite (scaled_reals c L L' F). unfold nested_weights. rewrite !map_length, map2_scale, Rsum_scale, map_map. apply map_ext. intros x. now apply fdivR_scale.
Qed.
