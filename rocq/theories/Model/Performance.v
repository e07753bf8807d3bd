(** Model of ais_benchmarks/metrics/performance.py. *)
From Coq Require Import List Bool Arith QArith.
Import ListNotations.
From Verif Require Import Prelude.Py Prelude.QBase.
Open Scope Q_scope.

(** A call on a performance metric; pre and post carry the reading (clock, heap size) they take. *)
Inductive mop := MPre (x : Q) | MPost (x : Q) | MCompute | MReset.

(** performance.py:17-23: CElapsedTime. *)
Record etime := mkE { e_ini : Q; e_end : Q; e_value : Q; e_overhead : Q }.

(** performance.py:39-52: one call; compute returns the value and changes nothing. *)
Definition et_step (m : etime) (o : mop) : etime :=
  match o with
  | MPre t => mkE t (e_end m) (e_value m) (e_overhead m)
  | MPost t => mkE (e_ini m) t (e_value m + (t - e_ini m - e_overhead m)) (e_overhead m)
  | MCompute => m
  | MReset => mkE 0 0 0 (e_overhead m)
  end.
Definition et_compute (m : etime) : Q := e_value m.

(** performance.py:30-35: one turn of the calibration loop, returning the measured value. *)
Definition et_calibrate (m : etime) (ab : Q * Q) : etime * Q :=
  let m1 := et_step (et_step m (MPre (fst ab))) (MPost (snd ab)) in
  (et_step m1 MReset, et_compute m1).
Fixpoint et_cal_loop (m : etime) (abs : list (Q * Q)) : etime * list Q :=
  match abs with
  | [] => (m, [])
  | ab :: r => let (m1, v) := et_calibrate m ab in
               let (m2, vs) := et_cal_loop m1 r in (m2, v :: vs)
  end.

(** performance.py:17-37: the constructor; [abs] are the clock pairs of the 200 calibration turns
    (the number is a parameter here), [delta] the sleep of 0.01 s. *)
Definition et_new (abs : list (Q * Q)) (delta : Q) : etime :=
  let (m, vs) := et_cal_loop (mkE 0 0 0 0) abs in
  mkE (e_ini m) (e_end m) (e_value m) (Qsum vs / Qnat (length vs) - delta).

(** performance.py:56-82 CMemoryUsage; reset does not assign value. *)
Record memuse := mkM { m_ini : Q; m_end : Q; m_cum : Q; m_value : Q }.
Definition mem_new : memuse := mkM 0 0 0 0.
Definition mem_step (m : memuse) (o : mop) : memuse :=
  match o with
  | MPre x => mkM x (m_end m) (m_cum m) (m_value m)
  | MPost x => let cum := m_cum m + (x - m_ini m) in mkM (m_ini m) x cum (cum / 1000000)
  | MCompute => m
  | MReset => mkM 0 0 0 (m_value m)
  end.
Definition mem_compute (m : memuse) : Q := m_value m.

(** A history of calls on one object. *)
Definition et_run (m : etime) (os : list mop) : etime := fold_left et_step os m.
Definition mem_run (m : memuse) (os : list mop) : memuse := fold_left mem_step os m.
