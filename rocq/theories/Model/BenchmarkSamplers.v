(** The benchmark runner applied to one object of each sampler whose reset draws afresh. *)
From Coq Require Import String List ZArith QArith.
Import ListNotations.
From Verif Require Import Prelude.Py Prelude.QBase Model.Benchmark Model.Nested Model.Population Model.MPMC Model.TreeSampler
  Model.HiDaisee.

Section Objects.
(** The state of numpy's generator; [gen z] is the state after np.random.seed(z) (CBenchmark.py:391-392); [turn] is the state after
    the draws of one operation. What a call draws and the clock it reads are functions of the generator state. *)
Variable G : Type.
Variable gen : Z -> G.
Variable turn : G -> G.

(** The outcome of an operation on the object, with the generator moved on. *)
Definition moved {S : Type} (g : G) (o : outcome S) : outcome (G * S) :=
  match o with Done s => Done (turn g, s) | Running s => Running (turn g, s) | Failed e s => Failed e (turn g, s) end.

(** CBenchmark.py:454-500 with sampling_method a CNestedSampling (nested.py:25-78): reset draws the live points [points g]. *)
Definition nested_bench (P : ns_params) (pi : vec -> Q) (points : G -> list vec) (tape : G -> list repl) (pick : G -> nat -> nat)
  (len : nst -> nat) (stats : nst -> res (fl Q * fl Q * nat * nat * nat)) (compute : nat -> kind -> G -> nst -> res (G * fl Q))
  (mname tname : string) (dims : nat) : bench (G * nst) :=
  object_bench gen (fun g s => (turn g, ns_reset P (points g) s))
    (fun n t g s => moved g (nested_call P pi n t (tape g) (pick g) s)) len stats compute mname tname dims.

(** The same with a CMultiNestedSampling (multi_nested.py:95-225); [oc g] are the clusterings and ellipsoids found. *)
Definition multi_bench (P : ns_params) (pi : vec -> Q) (points : G -> list vec) (oc : G -> oracle) (tape : G -> list repl)
  (pick : G -> nat -> nat) (len : nst -> nat) (stats : nst -> res (fl Q * fl Q * nat * nat * nat))
  (compute : nat -> kind -> G -> nst -> res (G * fl Q)) (mname tname : string) (dims : nat) : bench (G * nst) :=
  object_bench gen (fun g s => (turn g, ns_reset P (points g) s))
    (fun n t g s => moved g (multi_call P (oc g) pi n t (tape g) (pick g) s)) len stats compute mname tname dims.

(** The same with a CDeterministicMixtureAIS or a CLayeredAIS (dm_ais.py:31-89, layered_ais.py:38-107): reset draws the means. *)
Definition pop_bench (k : pop_kind) (P : pop_params) (pi : vec -> Q) (means : G -> list vec) (tape : G -> list pop_round)
  (len : pop -> nat) (stats : pop -> res (fl Q * fl Q * nat * nat * nat)) (compute : nat -> kind -> G -> pop -> res (G * fl Q))
  (mname tname : string) (dims : nat) : bench (G * pop) :=
  object_bench gen (fun g s => (turn g, pop_reset P (means g) s))
    (fun n t g s => moved g (pop_call k P pi n t (tape g) s)) len stats compute mname tname dims.

(** The same with a CMixturePMC (m_pmc.py:35-121). *)
Definition mp_bench (P : mp_params) (pi : vec -> Q) (means : G -> list vec) (tape : G -> list mp_round)
  (len : mp -> nat) (stats : mp -> res (fl Q * fl Q * nat * nat * nat)) (compute : nat -> kind -> G -> mp -> res (G * fl Q))
  (mname tname : string) (dims : nat) : bench (G * mp) :=
  object_bench gen (fun g s => (turn g, mp_reset P (means g) s))
    (fun n t g s => moved g (mp_call P pi n t (tape g) s)) len stats compute mname tname dims.

(** The same with a CTreePyramidSampling (tree_pyramid.py:335-499): [root g] is the point the root is evaluated at. *)
Definition tp_bench (P : tp_params) (pi : vec -> Q) (root : G -> vec) (tape : G -> list tp_round)
  (len : tp -> nat) (stats : tp -> res (fl Q * fl Q * nat * nat * nat)) (compute : nat -> kind -> G -> tp -> res (G * fl Q))
  (mname tname : string) (dims : nat) : bench (G * tp) :=
  object_bench gen (fun g s => (g, tp_reset P s))
    (fun n t g s => moved g (tp_call P pi n t (root g) (tape g) s)) len stats compute mname tname dims.

(** The same with a CHiDaiseeSampling (hi_daisee.py:187-344). *)
Definition hd_bench (P : hd_params) (pi : vec -> Q) (rds : G -> nat -> hround)
  (len : hd -> nat) (stats : hd -> res (fl Q * fl Q * nat * nat * nat)) (compute : nat -> kind -> G -> hd -> res (G * fl Q))
  (mname tname : string) (dims : nat) : bench (G * hd) :=
  object_bench gen (fun g s => (g, hd_restart P s))
    (fun n t g s => moved g (hd_call P pi n (rds g) s)) len stats compute mname tname dims.

End Objects.
