(** The curves of the metric plots (CBenchmark.py:284-310). *)
From Coq Require Import String List Bool Arith QArith Reals Qreals.
Import ListNotations.
From Verif Require Import Prelude.QBase.
Open Scope Q_scope.

(** One row of the result table as pandas reads it (CBenchmark.py:252): the columns dims, output_samples, method, target_d and the
    one of the metric plotted. A nan in the file is a missing value (None). Simplified: infinities are not read; names are read
    back as they were written. *)
Record trow := mkT { t_dims : nat; t_x : nat; t_method : string; t_target : string; t_y : option Q }.

(** CBenchmark.py:294-296: the rows of method [m] for the selected dims and target_d (256-257). *)
Definition picked (m : string) (dims : nat) (dist : string) (rows : list trow) : list trow :=
  filter (fun r => (String.eqb (t_method r) m && Nat.eqb (t_dims r) dims) && String.eqb (t_target r) dist) rows.

(** CBenchmark.py:298-299 groupby("output_samples"): the distinct values, sorted. *)
Fixpoint insert_count (x : nat) (l : list nat) : list nat :=
  match l with
  | [] => [x]
  | y :: r => if (x <? y)%nat then x :: l else if (x =? y)%nat then l else y :: insert_count x r
  end.
Definition counts (rows : list trow) : list nat := fold_right insert_count [] (map t_x rows).

(** mean() of a group: the mean of the values that are not missing; missing when there is none. *)
Definition present (l : list (option Q)) : list Q := flat_map (fun o => match o with Some v => [v] | None => [] end) l.
Definition mean (l : list Q) : Q := Qsum l / Qnat (length l).
Definition group_mean (x : nat) (rows : list trow) : option Q :=
  match present (map t_y (filter (fun r => Nat.eqb (t_x r) x) rows)) with [] => None | v => Some (mean v) end.
Definition group_means (rows : list trow) : list (option Q) := map (fun x => group_mean x rows) (counts rows).

(** rolling(window=10) (CBenchmark.py:302, 304): the values the i-th entry is computed from; missing unless there are ten and none
    of them is missing (min_periods is the window). *)
Definition window (l : list (option Q)) (i : nat) : option (list Q) :=
  let w := firstn 10 (skipn (S i - 10) l) in
  if ((10 <=? S i) && (length (present w) =? 10))%nat then Some (present w) else None.

(** CBenchmark.py:304 rolling(window=10).mean(). *)
Definition rolling_mean (l : list (option Q)) (i : nat) : option Q :=
  match window l i with Some w => Some (mean w) | None => None end.

(** Sample variance of the window (ddof = 1). *)
Definition variance (w : list Q) : Q := Qsum (map (fun v => (v - mean w) * (v - mean w)) w) / Qnat (length w - 1).
(** CBenchmark.py:302 np.sqrt(….rolling(window=10).std()). *)
Definition rolling_err (l : list (option Q)) (i : nat) : option R :=
  match window l i with Some w => Some (sqrt (sqrt (Q2R (variance w)))) | None => None end.

(** CBenchmark.py:291-309 for one method: None when it has no rows (300-301); otherwise the points passed to ax.plot and the half
    width of the band passed to fill_between, one per distinct count. *)
Definition curve (m : string) (dims : nat) (dist : string) (rows : list trow) : option (list (nat * option Q * option R)) :=
  match picked m dims dist rows with
  | [] => None
  | sel => let g := group_means sel in
           Some (map (fun p => (snd p, rolling_mean g (fst p), rolling_err g (fst p))) (combine (seq 0 (length (counts sel))) (counts sel)))
  end.
