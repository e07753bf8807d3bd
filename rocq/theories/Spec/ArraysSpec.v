(** Histories of an object and its caller, who may assign rows of the arrays obtained. *)
From Coq Require Import List QArith.
Import ListNotations.
From Verif Require Import Prelude.Py Prelude.QBase Model.Arrays.

Inductive op (E : Type) := Do (e : E) | Caller (k i : nat) (v : vec).
Arguments Do {E} e. Arguments Caller {E} k i v.

Section Histories.
Context {E S : Type}.
Variable step : E -> heap -> S -> heap * S * list aref.
(** Memory, object, and the arrays handed out so far, oldest first. *)
Definition hist : Type := heap * S * list aref.
Definition h_heap (x : hist) : heap := fst (fst x).
Definition h_self (x : hist) : S := snd (fst x).
Definition h_outs (x : hist) : list aref := snd x.
Definition made (c : heap * S) : hist := (fst c, snd c, []).
Definition run_op (x : hist) (o : op E) : hist :=
  match o with
  | Do e => let '(h, s, outs) := step e (h_heap x) (h_self x) in (h, s, h_outs x ++ outs)
  | Caller k i v => (match nth_error (h_outs x) k with Some r => put_row (h_heap x) r i v | None => h_heap x end, h_self x, h_outs x)
  end.
Definition run (ops : list (op E)) (x : hist) : hist := fold_left run_op ops x.
(** The contents of the arrays at the moment they are handed out. *)
Definition answer (e : E) (x : hist) : list (list vec) :=
  let '(h, _, outs) := step e (h_heap x) (h_self x) in map (read h) outs.
Definition erase (ops : list (op E)) : list (op E) := filter (fun o => match o with Do _ => true | Caller _ _ _ => false end) ops.

(** Whatever happened before, later operations of the object leave the arrays handed out as they are. *)
Definition keeps (c : heap * S) : Prop := forall ops es r,
  let x := run ops (made c) in let y := run (map Do es) x in In r (h_outs x) -> read (h_heap y) r = read (h_heap x) r.
(** What the caller assigns to arrays obtained has no influence on later answers. *)
Definition unaffected (c : heap * S) : Prop := forall ops e, answer e (run ops (made c)) = answer e (run (erase ops) (made c)).
End Histories.
