(** Assumptions on what a benchmark evaluates: the metrics and the sampling method. *)
From Coq Require Import List Arith QArith.
Import ListNotations.
From Verif Require Import Prelude.Py Model.Benchmark.

(** Metrics do not change how many samples the method holds. *)
Definition metrics_keep {W : Type} (B : bench W) : Prop :=
  (forall i k w, b_len B (b_mreset B i k w) = b_len B w) /\
  (forall i k w, b_len B (b_pre B i k w) = b_len B w) /\
  (forall i k w, b_len B (b_post B i k w) = b_len B w) /\
  (forall i k w w' v, b_compute B i k w = Ok (w', v) -> b_len B w' = b_len B w).

(** reset discards all samples. *)
Definition reset_empties {W : Type} (B : bench W) : Prop := forall w, b_len B (b_reset B w) = 0%nat.

(** Every call with time limit t that returns relates the count before, the request and the count after by P. *)
Definition calls_satisfy {W : Type} (B : bench W) (t : Q) (P : nat -> nat -> nat -> Prop) : Prop :=
  forall n w w', b_call B n t w = Done w' -> P (b_len B w) n (b_len B w').

(** Every call with time limit t returns or raises. *)
Definition never_hangs {W : Type} (B : bench W) (t : Q) : Prop := forall n w w', b_call B n t w <> Running w'.

(** A call asked for more samples than it holds adds at least one. *)
Definition gains (a n l : nat) : Prop := (a < n -> a < l)%nat.
(** A call keeps the samples it holds. *)
Definition keeps (a n l : nat) : Prop := (a <= l)%nat.
(** A call delivers exactly what is missing. *)
Definition delivers (a n l : nat) : Prop := l = Nat.max n a.
