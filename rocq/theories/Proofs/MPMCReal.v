(** The quotients of the rational model are what the exponentials and logarithms of the code give. *)
From Coq Require Import List Reals Lra.
From Verif Require Import Prelude.Py Prelude.RBase Model.MPMC.
Open Scope R_scope.

Lemma raw_quotient p q : 0 <= p -> 0 < q -> mp_raw_R (fln (Fin p)) (fln (Fin q)) = Fin (p / q).
Proof.
  intros P Q. unfold mp_raw_R, fln, Rltb, Reqb. destruct (Rlt_dec 0 q); [|lra]. destruct (Rlt_dec 0 p) as [H|H].
  - simpl. unfold Rdiv. rewrite exp_plus, exp_Ropp, !exp_ln; auto.
  - destruct (Req_EM_T p 0); [|lra]. simpl. f_equal. subst. unfold Rdiv. ring.
Qed.
Lemma rho_quotient a qd q : 0 <= a -> 0 < qd -> 0 < q -> mp_rho_R a (fln (Fin qd)) (fln (Fin q)) = Fin (a * qd / q).
Proof.
  intros A D Q. unfold mp_rho_R, fln, Rltb, Reqb. destruct (Rlt_dec 0 q); [|lra]. destruct (Rlt_dec 0 qd); [|lra].
  destruct (Rlt_dec 0 a) as [H|H].
  - simpl. rewrite exp_plus, exp_plus, exp_Ropp, !exp_ln; auto.
  - destruct (Req_EM_T a 0); [|lra]. simpl. f_equal. subst. unfold Rdiv. ring.
Qed.
