(** Model of ais_benchmarks/sampling_methods/nested.py and multi_nested.py. *)
From Coq Require Import List Bool Arith QArith Reals.
Import ListNotations.
From Verif Require Import Prelude.Py Prelude.QBase Prelude.RBase Model.Base.
Open Scope Q_scope.

(** nested.py:12-17, multi_nested.py:80-86 and base.py: space and number of kernel components. The number
    of live points is [ns_N]. [ns_radius] is converged_radius ** ndims of multi_nested.py:116 (only read by
    the multi-nested sampler). *)
Record ns_params := mkNsP { ns_lo : vec; ns_hi : vec; ns_kde : nat; ns_N : nat; ns_radius : Q }.

(** nested.py:19-29, multi_nested.py:88-99: the object. While only one sample is held, self.samples is a
    numpy view of one row of self.live_points (nested.py:60, multi_nested.py:211: basic indexing followed by
    reshape): [ns_view] = Some k says so, and [ns_rows] is then unused. [ns_seen] is a ghost field: the
    points at which the target was evaluated. Simplified: the weights, computed from L at the end of
    every call, are given by [nested_weights]; self.Z is always 0; self.ellipsoids, never read by the sampler,
    is left out. *)
Record nst := mkNst {
  ns_live : list vec;
  ns_view : option nat;
  ns_rows : list vec;
  ns_L : list Q;
  ns_q_samples : nat;
  ns_pi_evals : nat;
  ns_model : option (list vec);
  ns_seen : list vec }.

(** What reading self.samples gives. *)
Definition ns_samples (s : nst) : list vec :=
  match ns_view s with Some k => [nth k (ns_live s) []] | None => ns_rows s end.

(** nested.py:26, multi_nested.py:91 and 96: uniform draws in the unit cube scaled to the space. *)
Definition scale_to_box (lo hi u : vec) : vec := vadd (map2 Qmult u (vsub hi lo)) lo.

(** nested.py:11-29 and multi_nested.py:80-93: construction; [us] are the unit draws. *)
Definition ns_new (P : ns_params) (us : list vec) : nst :=
  mkNst (map (scale_to_box (ns_lo P) (ns_hi P)) us) None [] [] 0 0 None [].

(** base.py:29-35 and 141-143 on this object: samples (no longer a view), counters and model; the live points
    and L are not touched. The ghost field counts since the last reset. *)
Definition ns_base_reset (s : nst) : nst := mkNst (ns_live s) None [] (ns_L s) 0 0 None [].

(** nested.py:25-29 and multi_nested.py:95-99 reset: live points and L, then the base class. *)
Definition ns_reset (P : ns_params) (us : list vec) (s : nst) : nst :=
  ns_base_reset (mkNst (map (scale_to_box (ns_lo P) (ns_hi P)) us) (ns_view s) (ns_rows s) []
                       (ns_q_samples s) (ns_pi_evals s) (ns_model s) (ns_seen s)).

(** nested.py:60, multi_nested.py:211: row k of the live points is appended to the samples. *)
Definition ns_append (k : nat) (l : Q) (s : nst) : nst :=
  match ns_samples s with
  | [] => mkNst (ns_live s) (Some k) [] (ns_L s ++ [l]) (ns_q_samples s) (ns_pi_evals s) (ns_model s) (ns_seen s)
  | rows => mkNst (ns_live s) None (rows ++ [nth k (ns_live s) []]) (ns_L s ++ [l])
                  (ns_q_samples s) (ns_pi_evals s) (ns_model s) (ns_seen s)
  end.

(** nested.py:33-35 and 42-44 (multi_nested.py:108-111, 118-120): a drawn point is counted and evaluated. *)
Definition ns_count (pts : list vec) (s : nst) : nst :=
  mkNst (ns_live s) (ns_view s) (ns_rows s) (ns_L s) (ns_q_samples s + length pts)
        (ns_pi_evals s + length pts) (ns_model s) (ns_seen s ++ pts).

(** nested.py:40-46, multi_nested.py:116-123: the loop of resample. [cand] turns a draw into a candidate
    point, [big] is the test of the ellipsoid volume (always true in nested.py). A redraw is a draw and
    the clock read after it. Returns the new point (None: the tape ended) and the points drawn. *)
Fixpoint ns_search (pi : vec -> Q) (cand : vec -> vec) (value timeout : Q) (big : bool)
         (tape : list (vec * Q)) (cur : vec) (elapsed : Q) : option vec * list vec :=
  if Qltb (pi cur) value && Qltb elapsed timeout && big then
    match tape with
    | [] => (None, [])
    | (d, t) :: r => let '(o, seen) := ns_search pi cand value timeout big r (cand d) t in (o, cand d :: seen)
    end
  else (Some cur, []).

(** One replacement: index of the random live point (nested.py:67), first draw and redraws of resample. *)
Record repl := mkRepl { rp_pick : nat; rp_first : vec; rp_redraws : list (vec * Q) }.

(** nested.py:57-67, multi_nested.py:204-217: one turn of the for loop over the positions [g] of a group of
    live points (nested.py: all of them). [values] is the local array of target values. np.min of an
    empty array raises ValueError. *)
Definition ns_iter (P : ns_params) (pi : vec -> Q) (timeout : Q) (g : list nat) (cand : nst -> repl -> vec -> vec)
           (big : bool) (ev : repl) (s : nst) (values : list Q) : outcome nst * list Q :=
  match g with
  | [] => (Failed ValueError s, values)
  | _ =>
      let gv := map (fun i => nth i values 0) g in
      let k := nth (argminQ gv) g 0%nat in
      let lmin := nth (argminQ gv) gv 0 in
      let f := cand s ev in
      let s1 := ns_append k lmin s in
      let first := vclip (f (rp_first ev)) (ns_lo P) (ns_hi P) in
      match ns_search pi f lmin timeout big (rp_redraws ev) first 0 with
      | (None, seen) => (Running (ns_count (first :: seen) s1), values)
      | (Some y, seen) =>
          let s2 := ns_count (first :: seen) s1 in
          (Done (mkNst (upd (ns_live s2) k y) (ns_view s2) (ns_rows s2) (ns_L s2) (ns_q_samples s2)
                       (ns_pi_evals s2) (ns_model s2) (ns_seen s2)),
           upd values k (pi y))
      end
  end.

(** m turns of the for loop; returns the unused events. *)
Fixpoint ns_for (P : ns_params) (pi : vec -> Q) (timeout : Q) (g : list nat) (cand : nst -> repl -> vec -> vec)
         (big : bool) (m : nat) (tape : list repl) (s : nst) (values : list Q) : outcome nst * list Q * list repl :=
  match m with
  | O => (Done s, values, tape)
  | S m' =>
      match tape with
      | [] => (Running s, values, [])
      | ev :: t =>
          match ns_iter P pi timeout g cand big ev s values with
          | (Done s', values') => ns_for P pi timeout g cand big m' t s' values'
          | (o, values') => (o, values', t)
          end
      end
  end.

(** nested.py:53-54, multi_nested.py:193-194: evaluation of the live points. *)
Definition ns_begin (s : nst) : nst :=
  mkNst (ns_live s) (ns_view s) (ns_rows s) (ns_L s) (ns_q_samples s)
        (ns_pi_evals s + length (ns_live s)) (ns_model s) (ns_seen s ++ ns_live s).

(** nested.py:70-77, multi_nested.py:220-230: X[0] of an empty array raises IndexError; then the model of
    base.py:162-179 is rebuilt. *)
Definition ns_finish (P : ns_params) (pick : nat -> nat) (s : nst) : outcome nst :=
  match ns_samples s with
  | [] => Failed IndexError s
  | ss => match update_model (ns_kde P) pick ss with
          | Raise e => Failed e s
          | Ok m => Done (mkNst (ns_live s) (ns_view s) (ns_rows s) (ns_L s) (ns_q_samples s) (ns_pi_evals s)
                                (Some m) (ns_seen s))
          end
  end.

(** nested.py:32, 41, 67: candidates are displacements of a random live point. randint(0, len) over all
    values of [rp_pick]. *)
Definition nested_cand (s : nst) (ev : repl) (d : vec) : vec :=
  vadd d (nth (rp_pick ev mod length (ns_live s)) (ns_live s) []).

(** nested.py:52-77 importance_sample. *)
Definition nested_call (P : ns_params) (pi : vec -> Q) (n : nat) (timeout : Q) (tape : list repl)
           (pick : nat -> nat) (s : nst) : outcome nst :=
  let s0 := ns_begin s in
  match ns_for P pi timeout (seq 0 (length (ns_live s))) nested_cand true (n - length (ns_samples s)) tape
               s0 (map pi (ns_live s)) with
  | (Done s', _, _) => ns_finish P pick s'
  | (o, _, _) => o
  end.

(** base.py:145-160 on this object. *)
Definition ns_sample (P : ns_params) (pick : nat -> nat) (m : nat) (s : nst) : outcome nst :=
  let bump md := Done (mkNst (ns_live s) (ns_view s) (ns_rows s) (ns_L s) (ns_q_samples s + m) (ns_pi_evals s) (Some md) (ns_seen s)) in
  match ns_model s with
  | Some md => bump md
  | None => match update_model (ns_kde P) pick (ns_samples s) with Raise e => Failed e s | Ok md => bump md end
  end.
Definition ns_query (P : ns_params) (pick : nat -> nat) (s : nst) : outcome nst :=
  match ns_model s with
  | Some md => Done s
  | None => match update_model (ns_kde P) pick (ns_samples s) with
            | Raise e => Failed e s
            | Ok md => Done (mkNst (ns_live s) (ns_view s) (ns_rows s) (ns_L s) (ns_q_samples s) (ns_pi_evals s) (Some md) (ns_seen s))
            end
  end.

(** Operations on a nested sampler. *)
Inductive ns_op :=
| NsCall (pi : vec -> Q) (n : nat) (timeout : Q) (tape : list repl) (pick : nat -> nat)
| NsSample (pick : nat -> nat) (m : nat)
| NsQuery (pick : nat -> nat)
| NsReset (us : list vec).
Definition nested_run (P : ns_params) (o : ns_op) (s : nst) : outcome nst :=
  match o with
  | NsCall pi n timeout tape pick => nested_call P pi n timeout tape pick s
  | NsSample pick m => ns_sample P pick m s
  | NsQuery pick => ns_query P pick s
  | NsReset us => Done (ns_reset P us s)
  end.

(** Histories: the operations, latest first, that have returned or raised. *)
Inductive nested_reachable (P : ns_params) (us : list vec) : list ns_op -> nst -> Prop :=
| nested_init : nested_reachable P us [] (ns_new P us)
| nested_next o ops s s' :
    nested_reachable P us ops s ->
    (nested_run P o s = Done s' \/ exists e, nested_run P o s = Failed e s') ->
    nested_reachable P us (o :: ops) s'.

(** * Multi-nested *)

(** A group of live points with its ellipsoid: the boolean mask (multi_nested.py:134, 161) and the volume. *)
Record group := mkGroup { g_mask : list bool; g_vol : Q }.

(** Positions selected by a mask (multi_nested.py:207). *)
Definition mask_positions (m : list bool) : list nat := filter (fun i => nth i m false) (seq 0 (length m)).

(** What is not computed here: the k-means labels for k clusters (multi_nested.py:142-143), the volume of
    the ellipsoid fitted to the points of a mask (44-63) and the distance of two fitted ellipsoids (127-128). *)
Record oracle := mkOracle {
  o_labels : nat -> list nat;
  o_volume : list bool -> Q;
  o_dist : list bool -> list bool -> Q }.

(** multi_nested.py:147-152, 158, 161: mask of cluster i. *)
Definition cluster_mask (labels : list nat) (i : nat) : list bool := map (fun l => l =? i)%nat labels.
Definition count_true (m : list bool) : nat := length (filter (fun b => b) m).

(** multi_nested.py:174-179: distances of all pairs. *)
Fixpoint pair_dists (dist : list bool -> list bool -> Q) (ms : list (list bool)) : list Q :=
  match ms with
  | [] => []
  | m :: r => map (dist m) r ++ pair_dists dist r
  end.

(** multi_nested.py:130-189 recursive_clustering of [npts] points in dimension [d]; [fuel] bounds the
    recursion depth (None: not finished). KMeans raises ValueError when there are fewer points than
    clusters; a zero total volume (numpy floats) gives inf or nan, for which the comparison at 168 is true,
    respectively false. Simplified: the fit of a cluster,
    which has at least d + 1 points, does not fail (the inflation factor is positive). *)
Fixpoint clustering (fuel : nat) (npts d : nat) (oc : oracle) (ratio min_dist : Q) (gs : list group)
  : option (res (list group)) :=
  match fuel with
  | 0%nat => None
  | S f =>
      let k := S (length gs) in
      if (npts <? k)%nat then Some (Raise ValueError)
      else
        let masks := map (cluster_mask (o_labels oc k)) (seq 0 k) in
        if existsb (fun m => count_true m <? d + 1)%nat masks then Some (Ok gs)
        else
          let cs := map (fun m => mkGroup m (o_volume oc m)) masks in
          if fgtQ (fdivQ (Qsum (map g_vol cs)) (Qsum (map g_vol gs))) ratio then Some (Ok gs)
          else
            let ds := pair_dists (o_dist oc) masks in
            if Qltb (Qsum ds / Qnat (length ds)) min_dist then Some (Ok gs)
            else clustering f npts d oc ratio min_dist cs
  end.

(** multi_nested.py:131-135: the first group holds all points; the fit asserts at least d points (47). *)
Definition cluster_all (fuel : nat) (npts d : nat) (oc : oracle) (ratio min_dist : Q) : option (res (list group)) :=
  if (npts <? d)%nat then Some (Raise AssertionError)
  else let all := repeat true npts in
       clustering fuel npts d oc ratio min_dist [mkGroup all (o_volume oc all)].

(** multi_nested.py:106, 117: candidates are draws of the group's ellipsoid. *)
Definition multi_cand (s : nst) (ev : repl) (d : vec) : vec := d.

(** multi_nested.py:202-217: the loop over the groups. *)
Fixpoint multi_groups (P : ns_params) (pi : vec -> Q) (timeout : Q) (m : nat) (gs : list group)
         (tape : list repl) (s : nst) (values : list Q) : outcome nst :=
  match gs with
  | [] => Done s
  | g :: r =>
      match ns_for P pi timeout (mask_positions (g_mask g)) multi_cand (Qltb (ns_radius P) (g_vol g)) m tape s values with
      | (Done s', values', tape') => multi_groups P pi timeout m r tape' s' values'
      | (o, _, _) => o
      end
  end.

(** multi_nested.py:191-230 importance_sample, with the thresholds of line 130; lines 200-201: the number of
    draws per group, at least one (int() truncates; a negative quotient gives one). *)
Definition multi_call (P : ns_params) (oc : oracle) (pi : vec -> Q) (n : nat) (timeout : Q) (tape : list repl)
           (pick : nat -> nat) (s : nst) : outcome nst :=
  let s0 := ns_begin s in
  let npts := length (ns_live s) in
  match cluster_all (S npts) npts (length (ns_lo P)) oc (4 # 5) (1 # 5) with
  | None => Running s0
  | Some (Raise e) => Failed e s0
  | Some (Ok gs) =>
      let m := Nat.max ((n - length (ns_samples s)) / length gs) 1 in
      match multi_groups P pi timeout m gs tape s0 (map pi (ns_live s)) with
      | Done s' => ns_finish P pick s'
      | o => o
      end
  end.

(** Operations on a multi-nested sampler. *)
Inductive mn_op :=
| MnCall (oc : oracle) (pi : vec -> Q) (n : nat) (timeout : Q) (tape : list repl) (pick : nat -> nat)
| MnSample (pick : nat -> nat) (m : nat)
| MnQuery (pick : nat -> nat)
| MnReset (us : list vec).
Definition multi_run (P : ns_params) (o : mn_op) (s : nst) : outcome nst :=
  match o with
  | MnCall oc pi n timeout tape pick => multi_call P oc pi n timeout tape pick s
  | MnSample pick m => ns_sample P pick m s
  | MnQuery pick => ns_query P pick s
  | MnReset us => Done (ns_reset P us s)
  end.
Inductive multi_reachable (P : ns_params) (us : list vec) : list mn_op -> nst -> Prop :=
| multi_init : multi_reachable P us [] (ns_new P us)
| multi_next o ops s s' :
    multi_reachable P us ops s ->
    (multi_run P o s = Done s' \/ exists e, multi_run P o s = Failed e s') ->
    multi_reachable P us (o :: ops) s'.

(** * Weights *)
Open Scope R_scope.
(** nested.py:70-73, multi_nested.py:220-222. *)
Definition shrink (N i : nat) : R := exp (- INR i / INR N).
Definition shells (N n : nat) : list R :=
  shrink N 0 :: map (fun i => shrink N (i - 1) - shrink N i) (seq 1 (n - 1)).
(** numpy division of finite numbers. *)
Definition fdivR (x y : R) : fl R :=
  if Reqb y 0 then (if Reqb x 0 then NaN else if Rltb 0 x then PInf else NInf) else Fin (x / y).
(** nested.py:73-75, multi_nested.py:223-225: Z and the weights; [L] has one entry per sample. *)
Definition nested_weights (N : nat) (L : list R) : list (fl R) :=
  let LW := map2 Rmult L (shells N (length L)) in
  map (fun x => fdivR x (Rsum LW)) LW.
(** nested.py:48-50, multi_nested.py:101-103 get_NESS for finite weights. *)
Definition nested_NESS (ws : list R) : fl R :=
  match foppR (fsumR (map (fun w => fmulR (Fin w) (fln (Fin w))) ws)) with
  | Fin h => fdivR (exp h) (INR (length ws))
  | PInf => PInf
  | NInf => Fin 0
  | NaN => NaN
  end.
