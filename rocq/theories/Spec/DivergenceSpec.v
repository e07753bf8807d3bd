(** Divergences of discrete distributions (independent of the model). *)
From Coq Require Import List Reals.
Import ListNotations.
Open Scope R_scope.

Definition total (l : list R) : R := fold_right Rplus 0 l.

(** Pairs of values where both are positive. *)
Fixpoint common (p q : list R) : list (R * R) :=
  match p, q with
  | a :: p', b :: q' =>
      if Rlt_dec 0 a then if Rlt_dec 0 b then (a, b) :: common p' q' else common p' q' else common p' q'
  | _, _ => []
  end.

(** Each side rescaled to sum one. *)
Definition rescaled (c : list (R * R)) : list (R * R) :=
  map (fun ab => (fst ab / total (map fst c), snd ab / total (map snd c))) c.

(** Relative entropy of a list of pairs, and the textbook divergences of the rescaled common part. *)
Definition rel_entropy (c : list (R * R)) : R := total (map (fun ab => fst ab * ln (fst ab / snd ab)) c).
Definition kl_div (p q : list R) : R := rel_entropy (rescaled (common p q)).
Definition js_div (p q : list R) : R :=
  let c := rescaled (common p q) in
  (rel_entropy (map (fun ab => (fst ab, (fst ab + snd ab) / 2)) c) / 2
   + rel_entropy (map (fun ab => (snd ab, (fst ab + snd ab) / 2)) c) / 2) / ln 2.

(** Proportional where both are positive. *)
Definition proportional (p q : list R) : Prop := exists k, 0 < k /\ Forall (fun ab => fst ab = k * snd ab) (common p q).
