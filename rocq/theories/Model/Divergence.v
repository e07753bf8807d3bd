(** Model of ais_benchmarks/metrics/divergences.py. *)
From Coq Require Import List Bool Arith Reals.
Import ListNotations.
From Verif Require Import Prelude.Py Prelude.QBase Prelude.RBase.
Open Scope R_scope.

(** numpy division of floats (a zero divisor counts as +0). *)
Definition fdivR (x y : fl R) : fl R :=
  match x, y with
  | NaN, _ => NaN | _, NaN => NaN
  | Fin a, Fin b => if Reqb b 0 then (if Rltb 0 a then PInf else if Rltb a 0 then NInf else NaN) else Fin (a / b)
  | Fin _, _ => Fin 0
  | PInf, Fin b => if Rltb b 0 then NInf else PInf
  | NInf, Fin b => if Rltb b 0 then PInf else NInf
  | _, _ => NaN
  end.

(** x > 0, x > -inf and isnan(x) on floats. *)
Definition fpos (x : fl R) : bool := match x with Fin a => Rltb 0 a | PInf => true | _ => false end.
Definition fgtninf (x : fl R) : bool := match x with Fin _ => true | PInf => true | _ => false end.
Definition fisnan (x : fl R) : bool := match x with NaN => true | _ => false end.

(** np.logaddexp of two floats (its reformulation that avoids overflow is not modelled), and its reduce. *)
Definition logaddexp (x y : fl R) : fl R :=
  match x, y with
  | NaN, _ => NaN | _, NaN => NaN
  | PInf, _ => PInf | _, PInf => PInf
  | NInf, z => z | z, NInf => z
  | Fin a, Fin b => Fin (ln (exp a + exp b))
  end.
Definition logaddexp_reduce (l : list (fl R)) : fl R := fold_left logaddexp l NInf.

(** The entries of both arrays at the inlier positions. Arrays of the same length; an empty one fails
    with a ZeroDivisionError at the inlier ratio (lines 115, 141, 175). *)
Definition inlier_pairs (ok : fl R -> fl R -> bool) (p q : list (fl R)) : list (fl R * fl R) :=
  filter (fun pq => ok (fst pq) (snd pq)) (combine p q).

(** What compute_from_probs returns: an array, or the scalar inf of line 127. *)
Inductive kl_result := KlArray (l : list (fl R)) | KlInf.

(** divergences.py:111-133 compute_from_probs. *)
Definition kl_from_probs (p q : list (fl R)) : res kl_result :=
  match p with
  | [] => Raise ZeroDivisionError
  | _ =>
      let ins := inlier_pairs (fun a b => fpos a && fpos b) p q in
      let sp := fsumR (map fst ins) in
      let ps := map (fun x => if fpos sp then fdivR x sp else x) (map fst ins) in
      let sq := fsumR (map snd ins) in
      if fpos sq then
        let qs := map (fun x => fdivR x sq) (map snd ins) in
        Ok (KlArray (map2 (fun a b => if fgtninf b && negb (fpos b) then Fin 0 else fmulR a (fln (fdivR a b))) ps qs))
      else Ok KlInf
  end.
(** np.sum of the result. *)
Definition kl_total (r : kl_result) : fl R := match r with KlArray l => fsumR l | KlInf => PInf end.

(** divergences.py:136-153 compute_from_log_probs. *)
Definition kl_from_log_probs (p q : list (fl R)) : res (list (fl R)) :=
  match p with
  | [] => Raise ZeroDivisionError
  | _ =>
      let ins := inlier_pairs (fun a b => fgtninf a && fgtninf b) p q in
      let zp := logaddexp_reduce (map fst ins) in
      let zq := logaddexp_reduce (map snd ins) in
      Ok (map (fun pq => let a := fsubR (fst pq) zp in let b := fsubR (snd pq) zq in
                         if fisnan b then PInf else fmulR (fexp a) (fsubR a b)) ins)
  end.

(** divergences.py:101-108: the reported KL divergence. *)
Definition kl_value (lp lq : list (fl R)) : res (fl R) :=
  bind (kl_from_log_probs lp lq) (fun l => Ok (fsumR l)).

(** divergences.py:165-195 CJSDivergence.compute_from_samples on the density values. *)
Definition js_value (p q : list (fl R)) : res (fl R) :=
  match p with
  | [] => Raise ZeroDivisionError
  | _ =>
      let ins := inlier_pairs (fun a b => fpos a && fpos b && negb (fisnan b) && negb (fisnan a)) p q in
      let sp := fsumR (map fst ins) in let sq := fsumR (map snd ins) in
      let nrm := map (fun pq => (fdivR (fst pq) sp, fdivR (snd pq) sq)) ins in
      let m := map (fun pq => fmulR (Fin (1 / 2)) (faddR (fst pq) (snd pq))) nrm in
      let sm := fsumR m in
      let m' := map (fun x => fdivR x sm) m in
      let r := map2 (fun pq x =>
                 faddR (fmulR (fmulR (Fin (1 / 2)) (fst pq)) (fln (fdivR (fst pq) x)))
                       (fmulR (fmulR (Fin (1 / 2)) (snd pq)) (fln (fdivR (snd pq) x)))) nrm m' in
      Ok (fdivR (fsumR (filter (fun x => negb (fisnan x)) r)) (Fin (ln 2)))
  end.

(** divergences.py:77-87 compute with 101-108: points drawn uniformly in the support of p, then both log densities at these points.
    The draws are the list of points; the checks of the arguments are not modelled. *)
Definition kl_compute {X : Type} (p_log q_log : X -> fl R) (samples : list X) : res (fl R) :=
  kl_value (map p_log samples) (map q_log samples).
(** The same with 165-168: both densities at these points. *)
Definition js_compute {X : Type} (p_prob q_prob : X -> fl R) (samples : list X) : res (fl R) :=
  js_value (map p_prob samples) (map q_prob samples).
