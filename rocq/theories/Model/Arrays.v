(** The arrays the sampling methods keep and hand out, as objects: a numpy array is a reference to a buffer, or a view of one row of
    it. What is drawn, accepted and weighed is read from the tapes; what is copied, shared and overwritten is modelled. A call that
    raises an exception is a call that hands out nothing. *)
From Coq Require Import List Bool Arith ZArith QArith.
Import ListNotations.
From Verif Require Import Prelude.Py Prelude.QBase Model.Population.
Open Scope Q_scope.

(** numpy: buffers of rows (a weight is a row of one entry); basic indexing with one integer gives a view of a row, while
    concatenate, vstack, arithmetic, boolean and fancy indexing give new arrays. *)
Definition buffer := list vec.
Definition heap := list buffer.
Record aref := mkA { a_buf : nat; a_row : option nat }.
Definition read (h : heap) (r : aref) : list vec :=
  match nth_error h (a_buf r) with
  | None => []
  | Some b => match a_row r with None => b | Some k => match nth_error b k with Some x => [x] | None => [] end end
  end.
(** a[i] = v in place; an index out of range is an IndexError, which changes nothing. *)
Definition put_row (h : heap) (r : aref) (i : nat) (v : vec) : heap :=
  match nth_error h (a_buf r) with
  | None => h
  | Some b => match a_row r with
              | None => upd h (a_buf r) (upd b i v)
              | Some k => if (i =? 0)%nat then upd h (a_buf r) (upd b k v) else h
              end
  end.
Definition fresh (h : heap) (b : buffer) : heap * aref := (h ++ [b], mkA (length h) None).
Definition row_of (r : aref) (i : nat) : aref := mkA (a_buf r) (Some match a_row r with None => i | Some k => k end).
(** np.concatenate((old, new)) if old.size else new (rejection.py:40-44, metropolis_hastings.py:74, 131, 141,
    dm_ais.py:81-82, layered_ais.py:99-100, m_pmc.py:113-114). *)
Definition join (h : heap) (old new : aref) : heap * aref :=
  match read h old with [] => (h, new) | rows => fresh h (rows ++ read h new) end.

(** base.py:24-25, 33-34. *)
Record arrays := mkArr { f_samples : aref; f_weights : aref }.
Definition fresh_arrays (h : heap) : heap * arrays :=
  let (h1, s) := fresh h [] in let (h2, w) := fresh h1 [] in (h2, mkArr s w).

(** * Rejection sampling *)
Inductive rej_ev :=
| RCall (rounds : list (list vec * list vec)) (returns : bool)
| RSample (xs : list vec)
| RReset.
(** rejection.py:38-44: the accepted proposals (boolean indexing) are added. *)
Definition rej_round_arr (hs : heap * arrays) (r : list vec * list vec) : heap * arrays :=
  let (h, s) := hs in
  let (h1, x) := fresh h (fst r) in let (h2, sa) := join h1 (f_samples s) x in
  let (h3, w) := fresh h2 (snd r) in let (h4, we) := join h3 (f_weights s) w in (h4, mkArr sa we).
(** rejection.py:17-51; the model is built from copies (base.py:160-178, CMultivariateNormal.py:44). *)
Definition rej_arr (e : rej_ev) (h : heap) (s : arrays) : heap * arrays * list aref :=
  match e with
  | RCall rounds returns =>
      let (h1, s1) := fold_left rej_round_arr rounds (h, s) in
      let (h2, w) := fresh h1 (map (fun _ => [1 / Qnat (length (read h1 (f_weights s1)))]) (read h1 (f_weights s1))) in
      (h2, mkArr (f_samples s1) w, if returns then [f_samples s1; w] else [])
  | RSample xs => let (h1, x) := fresh h xs in (h1, s, [x])
  | RReset => let (h1, s1) := fresh_arrays h in (h1, s1, [])
  end.

(** * Metropolis-Hastings *)
Record mh_arrays := mkMhA { m_cur : aref; m_own : arrays }.
Inductive mh_ev :=
| MCall (draws : list (list (option vec))) (returns : bool)
| MSample (runs : list (list (list (option vec))))
| MReset.
Section MH.
Variables (lo hi : vec).
(** metropolis_hastings.py:83-120: the last proposal of a step, or the given object when no time is left. *)
Definition mh_move (hc : heap * aref) (d : option vec) : heap * aref :=
  match d with None => hc | Some d => fresh (fst hc) (map (fun x => vclip (vadd x d) lo hi) (read (fst hc) (snd hc))) end.
(** 122-132 mcmc: the first sample of a run is the current sample itself. *)
Definition mh_chain (hca : heap * aref * aref) (moves : list (option vec)) : heap * aref * aref :=
  let '(h, c, acc) := hca in
  let (h1, c1) := fold_left mh_move moves (h, c) in let (h2, a) := join h1 acc c1 in (h2, c1, a).
(** 57-75 sample; the burn-in is part of the first moves. *)
Definition mh_run_arr (hca : heap * aref * aref) (run : list (list (option vec))) : heap * aref * aref :=
  let '(h, c, res) := hca in
  let (h1, e) := fresh h [] in
  let '(h2, c2, smp) := fold_left mh_chain run (h1, c, e) in let (h3, r) := join h2 res smp in (h3, c2, r).
Definition mh_arr (e : mh_ev) (h : heap) (s : mh_arrays) : heap * mh_arrays * list aref :=
  match e with
  | MCall draws returns => (* 134-146 *)
      let '(h1, c, sa) := fold_left (fun hca mv => mh_run_arr hca [mv]) draws (h, m_cur s, f_samples (m_own s)) in
      let (h2, w) := fresh h1 (map (fun _ => [1 / Qnat (length (read h1 sa))]) (read h1 sa)) in
      (h2, mkMhA c (mkArr sa w), if returns then [sa; w] else [])
  | MSample runs =>
      let (h1, r0) := fresh h [] in
      let '(h2, c, r) := fold_left mh_run_arr runs (h1, m_cur s, r0) in (h2, mkMhA c (m_own s), [r])
  | MReset => let (h1, s1) := fresh_arrays h in (h1, mkMhA (m_cur s) s1, []) (* 77-81 *)
  end.
End MH.

(** * The population samplers *)
Inductive pop_kind := DM | LAIS | MPMC.
Record pop_arrays := mkPopA { q_means : list aref; q_own : arrays }.
(** One turn: the component and the noise of every draw, the weights, and what the adaptation uses: the selected rows, the steps of
    the walks, the fitted means. *)
Record pop_turn := mkTurnA { qt_draws : list (nat * vec); qt_weights : list vec; qt_picks : list nat; qt_walks : list (list (option vec)); qt_fit : list vec -> list vec }.
Inductive pop_ev :=
| PCall (turns : list pop_turn) (returns : bool)
| PSample (draws : list (nat * vec))
| PReset (centres : list vec).
(** CMultivariateNormal.py:64: a draw is the mean plus noise. *)
Definition pop_rows (h : heap) (means : list aref) (draws : list (nat * vec)) : list vec :=
  map (fun iz => vadd (hd [] (read h (nth (fst iz) means (mkA (length h) None)))) (snd iz)) draws.
Fixpoint fresh_rows (h : heap) (xs : list vec) : heap * list aref :=
  match xs with [] => (h, []) | x :: r => let (h1, a) := fresh h [x] in let (h2, l) := fresh_rows h1 r in (h2, a :: l) end.
Section Pop.
Variables (kind : pop_kind) (lo hi : vec).
(** layered_ais.py:54-68: the means are clipped sums, or stay the same objects. *)
Fixpoint pop_walks (h : heap) (means : list aref) (walks : list (list (option vec))) : heap * list aref :=
  match means, walks with
  | m :: ms, w :: ws => let (h1, m1) := fold_left (mh_move lo hi) w (h, m) in let (h2, l) := pop_walks h1 ms ws in (h2, m1 :: l)
  | _, _ => (h, means)
  end.
(** dm_ais.py:47-56 (rows of the batch, as views), layered_ais.py:70-74, m_pmc.py:53-78 (computed means). *)
Definition pop_adapt_arr (h : heap) (new : aref) (t : pop_turn) (means : list aref) : heap * list aref :=
  match kind with
  | DM => (h, map (row_of new) (qt_picks t))
  | LAIS => pop_walks h means (qt_walks t)
  | MPMC => fresh_rows h (qt_fit t (read h new))
  end.
(** dm_ais.py:62-84, layered_ais.py:80-102, m_pmc.py:84-116: one turn. *)
Definition pop_turn_arr (hs : heap * pop_arrays) (t : pop_turn) : heap * pop_arrays :=
  let (h, s) := hs in
  let (h1, new) := fresh h (pop_rows h (q_means s) (qt_draws t)) in
  let (h2, nw) := fresh h1 (qt_weights t) in
  let (h3, means) := pop_adapt_arr h2 new t (q_means s) in
  let (h4, sa) := join h3 (f_samples (q_own s)) new in
  let (h5, we) := join h4 (f_weights (q_own s)) nw in (h5, mkPopA means (mkArr sa we)).
Definition wnorm (ws : list vec) : list vec :=
  let t := fold_right Qplus 0 (map (fun w => nth 0 w 0) ws) in map (map (fun x => x / t)) ws.
(** The returned weights are a quotient (dm_ais.py:86, layered_ais.py:104) or self.weights (m_pmc.py:118). The centres of
    a reset are copied (CMultivariateNormal.py:44). *)
Definition pop_arr (e : pop_ev) (h : heap) (s : pop_arrays) : heap * pop_arrays * list aref :=
  match e with
  | PCall turns returns =>
      let (h1, s1) := fold_left pop_turn_arr turns (h, s) in
      let (h2, w) := match kind with MPMC => (h1, f_weights (q_own s1)) | _ => fresh h1 (wnorm (read h1 (f_weights (q_own s1)))) end in
      (h2, s1, if returns then [f_samples (q_own s1); w] else [])
  | PSample draws => let (h1, x) := fresh h (pop_rows h (q_means s) draws) in (h1, s, [x])
  | PReset centres =>
      let (h1, own) := fresh_arrays h in let (h2, means) := fresh_rows h1 centres in (h2, mkPopA means own, [])
  end.
End Pop.

(** * Nested and multi-nested sampling *)
Record ns_arrays := mkNsA { n_live : aref; n_own : arrays }.
Inductive ns_ev :=
| NCall (rounds : list (nat * (list vec -> vec))) (ws : list vec) (returns : bool)
| NSample (xs : list vec)
| NReset (points : list vec).
(** nested.py:56-68, multi_nested.py:203-217: the first sample is a view of a row of the live points; then this row is
    overwritten. *)
Definition ns_round_arr (hs : heap * ns_arrays) (r : nat * (list vec -> vec)) : heap * ns_arrays :=
  let (h, s) := hs in
  let (h1, sa) := match read h (f_samples (n_own s)) with
                  | [] => (h, row_of (n_live s) (fst r))
                  | rows => fresh h (rows ++ read h (row_of (n_live s) (fst r)))
                  end in
  (put_row h1 (n_live s) (fst r) (snd r (read h1 (n_live s))), mkNsA (n_live s) (mkArr sa (f_weights (n_own s)))).
(** nested.py:52-77, multi_nested.py:191-230; reset nested.py:25-29, multi_nested.py:95-99. *)
Definition ns_arr (e : ns_ev) (h : heap) (s : ns_arrays) : heap * ns_arrays * list aref :=
  match e with
  | NCall rounds ws returns =>
      let (h1, s1) := fold_left ns_round_arr rounds (h, s) in
      let (h2, w) := fresh h1 ws in
      (h2, mkNsA (n_live s1) (mkArr (f_samples (n_own s1)) w), if returns then [f_samples (n_own s1); w] else [])
  | NSample xs => let (h1, x) := fresh h xs in (h1, s, [x])
  | NReset points =>
      let (h1, lv) := fresh h points in let (h2, own) := fresh_arrays h1 in (h2, mkNsA lv own, [])
  end.

(** * Tree pyramids *)
Record tree_arrays := mkTrA { tr_samples : aref; tr_weights : aref }.
(** tree_pyramid.py:224-225 (a cell is split), 382, 387, 408, 414, 444, 447, 460, 466, 512, 517, 707 (rows assigned in
    place); the values are computed from the two arrays. *)
Inductive tree_act :=
| Grow (k : nat)
| SetS (i : nat) (f : list vec -> list vec -> vec)
| SetW (i : nat) (f : list vec -> list vec -> vec).
Inductive tree_ev :=
| TCall (acts : list tree_act) (leaves : list nat) (returns : bool)
| TDraw (f : list vec -> list vec -> list vec)
| TReset.
Section Tree.
Variable dims : nat.
Definition tree_act_arr (hs : heap * tree_arrays) (a : tree_act) : heap * tree_arrays :=
  let (h, s) := hs in
  match a with
  | Grow k => let (h1, x) := fresh h (read h (tr_samples s) ++ repeat (repeat 0 dims) k) in
              let (h2, w) := fresh h1 (read h1 (tr_weights s) ++ repeat [0] k) in (h2, mkTrA x w)
  | SetS i f => (put_row h (tr_samples s) i (f (read h (tr_samples s)) (read h (tr_weights s))), s)
  | SetW i f => (put_row h (tr_weights s) i (f (read h (tr_samples s)) (read h (tr_weights s))), s)
  end.
Definition select (b : list vec) (l : list nat) : list vec := map (fun i => nth i b []) l.
(** tree_pyramid.py:363-475, 689-703: indexing with a list of flags gives copies; the arrays of the other branch (693-703)
    are new as well. *)
Definition tree_arr (e : tree_ev) (h : heap) (s : tree_arrays) : heap * tree_arrays * list aref :=
  match e with
  | TCall acts leaves returns =>
      let (h1, s1) := fold_left tree_act_arr acts (h, s) in
      let (h2, x) := fresh h1 (select (read h1 (tr_samples s1)) leaves) in
      let (h3, w) := fresh h2 (select (read h2 (tr_weights s1)) leaves) in (h3, s1, if returns then [x; w] else [])
  | TDraw f => let (h1, x) := fresh h (f (read h (tr_samples s)) (read h (tr_weights s))) in (h1, s, [x])
  | TReset => let (h1, x) := fresh h [repeat 0 dims] in let (h2, w) := fresh h1 [[0]] in (h2, mkTrA x w, [])
  end.
End Tree.

(** * HiDaisee *)
Record hd_arrays := mkHdA { hd_nodes : list (vec * vec); hd_own : arrays }.
Inductive hd_ev :=
| HCall (n : nat) (turn : list (vec * vec) -> list (vec * vec)) (returns : bool)
| HDraw (f : list (vec * vec) -> list vec)
| HReset.
(** hi_daisee.py:200-289, 307-316: the nodes hold their own samples; self.samples and self.weights are new arrays after
    every call, and only the length of self.samples is read (204). *)
Definition hd_arr (e : hd_ev) (h : heap) (s : hd_arrays) : heap * hd_arrays * list aref :=
  match e with
  | HCall n turn returns =>
      let nodes := Nat.iter (n - length (read h (f_samples (hd_own s)))) turn (hd_nodes s) in
      if returns then
        let (h1, x) := fresh h (map fst nodes) in let (h2, w) := fresh h1 (map snd nodes) in (h2, mkHdA nodes (mkArr x w), [x; w])
      else (h, mkHdA nodes (hd_own s), [])
  | HDraw f => let (h1, x) := fresh h (f (hd_nodes s)) in (h1, s, [x])
  | HReset => let (h1, own) := fresh_arrays h in (h1, mkHdA [] own, [])
  end.

(** * Constructors (base.py:12-25 and the reset of every class) *)
Definition rej_made : heap * arrays := fresh_arrays [].
Definition mh_made (x0 : vec) : heap * mh_arrays := let (h1, own) := fresh_arrays [] in let (h2, c) := fresh h1 [x0] in (h2, mkMhA c own).
Definition pop_made (centres : list vec) : heap * pop_arrays := let (h1, own) := fresh_arrays [] in let (h2, means) := fresh_rows h1 centres in (h2, mkPopA means own).
Definition ns_made (points : list vec) : heap * ns_arrays := let (h1, own) := fresh_arrays [] in let (h2, lv) := fresh h1 points in (h2, mkNsA lv own).
Definition tree_made (dims : nat) : heap * tree_arrays := let (h1, x) := fresh [] [repeat 0 dims] in let (h2, w) := fresh h1 [[0]] in (h2, mkTrA x w).
Definition hd_made : heap * hd_arrays := let (h1, own) := fresh_arrays [] in (h1, mkHdA [] own).
