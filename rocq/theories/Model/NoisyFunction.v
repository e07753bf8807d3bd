(** Model of ais_benchmarks/distributions/derived/CGenericNoisyFunction.py (over Q). *)
From Coq Require Import List Bool Arith QArith.
Import ListNotations.
From Verif Require Import Prelude.Py Prelude.QBase Model.Shape.
Open Scope Q_scope.

(** An n x w array. *)
Record arr : Type := mkArr { a_width : nat; a_rows : list (list Q) }.

(** CGenericNoisyFunction.py:17-23: the object. The function maps the conditioning array and the parameters (None before
    set_params) to an array, given here by its elements in row order. *)
Record noisy : Type := mkNoisy {
  nz_dims : nat;
  nz_f : arr -> option (list Q) -> list Q;
  nz_x : option arr;
  nz_z : option (list Q) }.

(** CGenericNoisyFunction.py:6-23 __init__ (the parameter checks are assumed to pass). *)
Definition noisy_new (d : nat) (f : arr -> option (list Q) -> list Q) : noisy := mkNoisy d f None None.

(** CGenericNoisyFunction.py:69-73 set_params, condition. *)
Inductive noisy_op : Type := SetParams (z : list Q) | Condition (x : arr).
Definition noisy_do (o : noisy) (c : noisy_op) : noisy :=
  match c with
  | SetParams z => mkNoisy (nz_dims o) (nz_f o) (nz_x o) (Some z)
  | Condition x => mkNoisy (nz_dims o) (nz_f o) (Some x) (nz_z o)
  end.

(** numpy broadcasting of one row to width w, and of a list of rows to n rows. *)
Definition wide (w : nat) (r : list Q) : list Q := if (length r =? w)%nat then r else repeat (hd 0 r) w.
Definition tall (n : nat) (rs : list (list Q)) : list (list Q) := if (length rs =? n)%nat then rs else repeat (hd [] rs) n.

(** numpy: common extent of two axes under broadcasting; ValueError when they do not fit. *)
Definition extent (n m : nat) : res nat :=
  if (n =? m)%nat then Ok n else if (n =? 1)%nat then Ok m else if (m =? 1)%nat then Ok n else Raise ValueError.

(** numpy: element-wise a - b with broadcasting. *)
Definition arr_sub (a b : arr) : res arr :=
  (let* w := extent (a_width a) (a_width b) in
   let* n := extent (length (a_rows a)) (length (a_rows b)) in
   Ok (mkArr w (map2 vsub (map (wide w) (tall n (a_rows a))) (map (wide w) (tall n (a_rows b))))))%py.

(** numpy: reshape of a flat list to n rows of width d. *)
Fixpoint chunks (d n : nat) (l : list Q) : list (list Q) :=
  match n with O => [] | S n' => firstn d l :: chunks d n' (skipn d l) end.

(** CGenericNoisyFunction.py:25-28 sample. [noise] is what the noise model's sample(len(x)) returned: as many rows as x,
    assumed to be of the width dims. len(None) is a TypeError. *)
Definition noisy_sample (o : noisy) (noise : list (list Q)) : res arr :=
  match nz_x o with
  | None => Raise TypeError
  | Some x => let fx := nz_f o x (nz_z o) in
      if (length fx =? length (a_rows x) * nz_dims o)%nat
      then Ok (mkArr (nz_dims o) (map2 vadd (chunks (nz_dims o) (length (a_rows x)) fx) noise))
      else Raise ValueError
  end.

(** CGenericNoisyFunction.py:30-33 log_prob and 35-39 prob: the same code around the noise model's log density or
    density, here one function [den] per row after the shape check every distribution of the package makes. *)
Definition noisy_density {V : Type} (o : noisy) (den : list Q -> V) (y : arr) : res (list V) :=
  match nz_x o with
  | None => Raise ValueError
  | Some x => (let* r := arr_sub y x in
      let* rows := check_shape (nz_dims o) (Arr2 (a_width r) (a_rows r)) in Ok (map den rows))%py
  end.
