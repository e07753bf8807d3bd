(** Independent description of what a randomly generated target must look like, and of splitting a
    time in hours, minutes and seconds (no reference to the model). *)
From Coq Require Import List ZArith QArith.
Import ListNotations.
From Verif Require Import Prelude.QBase.
Open Scope Q_scope.

(** The unit draws of numpy's uniform generator. *)
Definition unit_draws (u : nat -> Q) : Prop := forall i, 0 <= u i <= 1.

(** The space has room for five of the largest deviations on each side. *)
Fixpoint room (lo hi smax : list Q) : Prop :=
  match lo, hi, smax with
  | [], [], [] => True
  | l :: lo', h :: hi', s :: smax' => l + 5 * s <= h - 5 * s /\ room lo' hi' smax'
  | _, _, _ => False
  end.

(** The corners of the space moved inwards by five deviations. *)
Definition inset_lo (lo s : list Q) : list Q := map2 Qplus lo (map (Qmult 5) s).
Definition inset_hi (hi s : list Q) : list Q := map2 Qminus hi (map (Qmult 5) s).

(** h hours, m minutes and s seconds make up the time t, in the usual notation. *)
Definition clock_reading (t : Q) (h m : Z) (s : Q) : Prop :=
  (0 <= m < 60)%Z /\ 0 <= s < 60 /\ inject_Z h * 3600 + inject_Z m * 60 + s == t.
