(** Curves of averages over a table (no reference to the model). A table row is given by its method, dimension, target, count and
    value; [tab] is any list of them. *)
From Coq Require Import String List QArith.
Import ListNotations.
Open Scope Q_scope.

Definition entry : Type := (string * nat * string) * nat * option Q.
Definition e_key (e : entry) := fst (fst e).
Definition e_count (e : entry) : nat := snd (fst e).
Definition e_value (e : entry) : option Q := snd e.

(** The rows of one method, dimension and target. *)
Definition about (k : string * nat * string) (tab : list entry) (e : entry) : Prop := In e tab /\ e_key e = k.

(** [a] is the arithmetic mean of the non-empty list [l]. *)
Definition is_mean (l : list Q) (a : Q) : Prop :=
  l <> [] /\ inject_Z (Z.of_nat (length l)) * a == fold_right Qplus 0 l.

(** The values recorded at count [x], in table order. *)
Inductive values_at (k : string * nat * string) (x : nat) : list entry -> list Q -> Prop :=
| va_nil : values_at k x [] []
| va_take e tab v l : e_key e = k -> e_count e = x -> e_value e = Some v -> values_at k x tab l -> values_at k x (e :: tab) (v :: l)
| va_skip e tab l : (e_key e = k -> e_count e = x -> e_value e = None) -> values_at k x tab l -> values_at k x (e :: tab) l.

(** [a] is the average of the metric at count [x]. *)
Definition average_at (k : string * nat * string) (x : nat) (tab : list entry) (a : Q) : Prop :=
  exists l, values_at k x tab l /\ is_mean l a.

(** Strictly increasing. *)
Definition increasing (l : list nat) : Prop :=
  forall i j a b, (i < j)%nat -> nth_error l i = Some a -> nth_error l j = Some b -> (a < b)%nat.

(** Sum of squared deviations from a. *)
Definition deviations (a : Q) (l : list Q) : Q := fold_right (fun v s => (v - a) * (v - a) + s) 0 l.
