(** Model of ais_benchmarks/sampling_methods/hi_daisee.py (CHiDaiseeNode, CHiDaiseeTree, CHiDaiseeSampling; drawing and
    printing are left out). Node objects are references: object k is self.nodes[k], as split appends the two objects it
    creates at the positions it stores in their idx. Weights are quotients of finite numbers by positive ones and kept as
    rationals; the values q, which can become NaN, as floats. *)
From Coq Require Import List Bool Arith QArith.
Import ListNotations.
From Verif Require Import Prelude.Py Prelude.QBase Model.Uniform Model.Mixture Model.Tree.
Open Scope Q_scope.

(** hi_daisee.py:40-53. The parent (48, 108-109) is stored but never read and not kept. [h_rows] holds samples and
    weights together; N (64) is its length; split sets samples to None (139) and leaves weights and N, which are not read
    again for a node that is no leaf: the rows are emptied here. ESS is recomputed by every add_sample and only read
    directly after one (273). *)
Record hnode := mkH { h_center : vec; h_radius : vec; h_q : fl Q; h_kids : option (nat * nat); h_rows : list (vec * Q) }.
Definition hnode_new (center radius : vec) (q : fl Q) : hnode := mkH center radius q None [].
Definition set_q (n : hnode) (q : fl Q) : hnode := mkH (h_center n) (h_radius n) q (h_kids n) (h_rows n).
(** hi_daisee.py:61-64. *)
Definition add_row (n : hnode) (x : vec) (w : Q) : hnode := mkH (h_center n) (h_radius n) (h_q n) (h_kids n) (h_rows n ++ [(x, w)]).

(** hi_daisee.py:49: the node's CMultivariateUniform (what [uniform_new] builds for a radius per dimension). *)
Definition node_box (n : hnode) : uniform :=
  mkUnif (length (h_center n)) (vsub (h_center n) (h_radius n)) (vadd (h_center n) (h_radius n)) (Qprod (map (fun r => r * 2) (h_radius n))).
(** hi_daisee.py:55-56 with CMultivariateUniform.py:49-59 for one row. A box that contains a point has a positive volume,
    so that the reciprocal of a zero volume does not matter. *)
Definition node_prob (n : hnode) (x : vec) : Q :=
  if inlier (u_lo (node_box n)) (u_hi (node_box n)) x then 1 / u_volume (node_box n) else 0.
(** hi_daisee.py:67-68 with CMultivariateUniform.py:32-36: one draw; [u j] is the unit draw of coordinate j. *)
Definition node_draw (n : hnode) (u : nat -> Q) : vec := uniform_row (u_lo (node_box n)) (u_hi (node_box n)) u 0.
(** hi_daisee.py:65. *)
Definition node_ess (n : hnode) : fl Q :=
  let ws := map snd (h_rows n) in fdivQ (Qsum ws * Qsum ws) (Qsum (map (fun w => w * w) ws)).
(** np.mean of the weights of a node, NaN for none (262, 265, 299). *)
Definition mean_weight (n : hnode) : fl Q := fdivQ (Qsum (map snd (h_rows n))) (Qnat (length (h_rows n))).

(** hi_daisee.py:85-94. *)
Record htree := mkHT { ht_nodes : list hnode; ht_leaves : list nat }.
Definition htree_new (lo hi : vec) : htree :=
  mkHT [hnode_new (map2 (fun h l => (h + l) / 2) hi lo) (map2 (fun h l => (h - l) / 2) hi lo) (Fin 0)] [0%nat].

(** hi_daisee.py:98-105: centre and radius of a child; [sign] is -1 for the left one. *)
Definition half_radius (r : vec) (k : nat) : vec := upd r k (nth k r 0 / 2).
Definition shift_center (c r : vec) (k : nat) (sign : Q) : vec := upd c k (nth k c 0 + sign * (nth k r 0 / 2)).

(** hi_daisee.py:121-131: the samples of the parent go to the children, with new weights. The flag is false when the
    child refused a sample (ValueError); the children keep what they got before. *)
Fixpoint push (pi : vec -> Q) (k : nat) (rows : list (vec * Q)) (l r : hnode) : hnode * hnode * bool :=
  match rows with
  | [] => (l, r, true)
  | (x, _) :: rows' =>
      if Qltb (nth k x 0) (nth k (h_center l) 0 + nth k (h_radius l) 0)
      then if Qle_bool (node_prob l x) 0 then (l, r, false) else push pi k rows' (add_row l x (pi x / node_prob l x)) r
      else if Qle_bool (node_prob r x) 0 then (l, r, false) else push pi k rows' l (add_row r x (pi x / node_prob r x))
  end.

(** list.remove: the first occurrence. *)
Fixpoint remove1 (i : nat) (l : list nat) : list nat :=
  match l with [] => [] | a :: r => if (a =? i)%nat then r else a :: remove1 i r end.

(** hi_daisee.py:96-139 split of node [i]; [k] is what randint returns (100). The flag is false for the ValueError of
    lines 124 and 129: the children are attached and in the node list by then, the leaf list is as before. A reference
    that is no node does not occur; the tree is returned. *)
Definition split (pi : vec -> Q) (i k : nat) (t : htree) : htree * bool :=
  match nth_error (ht_nodes t) i with
  | None => (t, false)
  | Some n =>
      let m := length (ht_nodes t) in
      let half := fdivflQ (h_q n) (Fin 2) in
      let l0 := hnode_new (shift_center (h_center n) (h_radius n) k (-1)) (half_radius (h_radius n) k) half in
      let r0 := hnode_new (shift_center (h_center n) (h_radius n) k 1) (half_radius (h_radius n) k) half in
      let '(l, r, ok) := push pi k (h_rows n) l0 r0 in
      let n' := mkH (h_center n) (h_radius n) (h_q n) (Some (m, S m)) (if ok then [] else h_rows n) in
      (mkHT (upd (ht_nodes t) i n' ++ [l; r]) (if ok then remove1 i (ht_leaves t) ++ [m; S m] else ht_leaves t), ok)
  end.

(** hi_daisee.py:172-185: tau enters only through sigma * sqrt(log t / N), the optimism boost (255, 261), which is a parameter
    here: [p_boost t N] stands for its value at t >= 1 (for t = 0 the logarithm is -inf and the square root NaN). *)
Record hd_params := mkHP { hp_lo : vec; hp_hi : vec; hp_boost : nat -> nat -> Q; hp_nmin : nat; hp_ess : Q }.
Definition boost (P : hd_params) (t N : nat) : fl Q := if (t =? 0)%nat then NaN else Fin (hp_boost P t N).

(** The object: tree, self.samples with self.weights, counters, and the reported density: boxes and weights of the mixture
    (the uniform density of reset, 196-198, is a mixture of one). *)
Record hd := mkHD { hs_tree : htree; hs_samples : list (vec * Q); hs_pi : nat; hs_q : nat; hs_draws : nat;
                    hs_model : list uniform * list (fl Q) }.

(** hi_daisee.py:187-198 (and the constructor, 185). *)
Definition hd_new (P : hd_params) : hd :=
  mkHD (htree_new (hp_lo P) (hp_hi P)) [] 0 0 0
       ([node_box (hnode_new (map2 (fun h l => (h + l) / 2) (hp_hi P) (hp_lo P)) (map2 (fun h l => (h - l) / 2) (hp_hi P) (hp_lo P)) (Fin 0))], [Fin 1]).

(** base.py:29-35 on this object: the tree is not touched. base.py:143 sets the model to None as well, which
    hi_daisee.py:198 replaces before anything can read it: here it is kept until then. *)
Definition hd_base_reset (s : hd) : hd := mkHD (hs_tree s) [] 0 0 0 (hs_model s).
(** hi_daisee.py:187-198 reset: the base class (188 and again 193), a new tree (194) and the uniform model (196-198). *)
Definition hd_restart (P : hd_params) (s : hd) : hd :=
  let b := hd_base_reset (hd_base_reset s) in
  mkHD (htree_new (hp_lo P) (hp_hi P)) (hs_samples b) (hs_pi b) (hs_q b) (hs_draws b)
       ([node_box (hnode_new (map2 (fun h l => (h + l) / 2) (hp_hi P) (hp_lo P)) (map2 (fun h l => (h - l) / 2) (hp_hi P) (hp_lo P)) (Fin 0))], [Fin 1]).

(** hi_daisee.py:206-224: the nodes passed, root first, and the leaf reached; [pick j] is the j-th np.random.rand(). The loop
    is bounded by [fuel]; None when it is used up. *)
Fixpoint descend (fuel : nat) (t : htree) (pick : nat -> Q) (j i : nat) : option (list nat * nat) :=
  if existsb (Nat.eqb i) (ht_leaves t) then Some ([], i)
  else match fuel with
       | O => None
       | S f =>
           match nth_error (ht_nodes t) i with
           | Some n =>
               match h_kids n with
               | Some (a, b) =>
                   match nth_error (ht_nodes t) a, nth_error (ht_nodes t) b with
                   | Some na, Some nb =>
                       let q_left := fdivflQ (h_q na) (faddQ (h_q nb) (h_q na)) in
                       let next := if fltQ (Fin (pick j)) q_left then a else b in
                       match descend f t pick (S j) next with Some (p, leaf) => Some (i :: p, leaf) | None => None end
                   | _, _ => None
                   end
               | None => None
               end
           | None => None
           end
       end.

(** hi_daisee.py:258-263. *)
Definition total_ev (P : hd_params) (t : nat) (tr : htree) : fl Q :=
  fsumQ (map (fun n => faddQ (mean_weight n) (boost P t (length (h_rows n))))
             (filter (fun n => negb (length (h_rows n) =? 0)%nat)
                     (flat_map (fun i => match nth_error (ht_nodes tr) i with Some n => [n] | None => [] end) (ht_leaves tr)))).

(** hi_daisee.py:269-270: one ancestor. *)
Definition refresh_q (nodes : list hnode) (i : nat) : list hnode :=
  match nth_error nodes i with
  | Some n => match h_kids n with
              | Some (a, b) => match nth_error nodes a, nth_error nodes b with
                               | Some na, Some nb => upd nodes i (set_q n (faddQ (h_q na) (h_q nb)))
                               | _, _ => nodes
                               end
              | None => nodes
              end
  | None => nodes
  end.

(** The random numbers of one turn of the loop. *)
Record hround := mkHR { hr_pick : nat -> Q; hr_draw : nat -> Q; hr_dim : nat }.

(** hi_daisee.py:206, 217, 269: P is the root followed by the nodes passed, and its last entry is left out: the direct parent
    of the leaf, when the leaf is not the root. *)
Definition refreshed_path (path : list nat) : list nat := rev (removelast (0%nat :: path)).

(** hi_daisee.py:204-282: the turn number [t]. *)
Definition hd_turn (P : hd_params) (pi : vec -> Q) (t : nat) (rd : hround) (s : hd) : outcome hd :=
  let tr := hs_tree s in
  match descend (length (ht_nodes tr)) tr (hr_pick rd) 0 0 with
  | None => Running s
  | Some (path, i) =>
      match nth_error (ht_nodes tr) i with
      | None => Running s
      | Some n =>
          let x := node_draw n (hr_draw rd) in
          let p := node_prob n x in
          if Qle_bool p 0 then Failed AssertionError (mkHD tr (hs_samples s) (hs_pi s) (hs_q s) (S (hs_draws s)) (hs_model s))
          else
            let n1 := add_row n x (pi x / p) in
            let tr1 := mkHT (upd (ht_nodes tr) i n1) (ht_leaves tr) in
            let n2 := set_q n1 (fdivflQ (faddQ (mean_weight n1) (boost P t (length (h_rows n1)))) (total_ev P t tr1)) in
            let tr2 := mkHT (fold_left refresh_q (refreshed_path path) (upd (ht_nodes tr1) i n2)) (ht_leaves tr) in
            if (hp_nmin P <=? length (h_rows n2))%nat && fltQ (node_ess n2) (Fin (hp_ess P * Qnat (length (h_rows n2))))
            then
              let '(tr3, ok) := split pi i (hr_dim rd) tr2 in
              let s' := mkHD tr3 (hs_samples s) (S (hs_pi s) + length (h_rows n2)) (S (hs_q s) + length (h_rows n2)) (S (hs_draws s)) (hs_model s) in
              if ok then Done s' else Failed ValueError s'
            else Done (mkHD tr2 (hs_samples s) (S (hs_pi s)) (S (hs_q s)) (S (hs_draws s)) (hs_model s))
      end
  end.

(** hi_daisee.py:204: the turns t, t+1, ..., t+k-1; [rds t] are the random numbers of turn t. *)
Fixpoint hd_turns (P : hd_params) (pi : vec -> Q) (rds : nat -> hround) (t k : nat) (s : hd) : outcome hd :=
  match k with
  | O => Done s
  | S k' => match hd_turn P pi t (rds t) s with Done s' => hd_turns P pi rds (S t) k' s' | o => o end
  end.

(** The leaf nodes in the order of the leaf list. *)
Definition leaf_nodes (t : htree) : list hnode :=
  flat_map (fun i => match nth_error (ht_nodes t) i with Some n => [n] | None => [] end) (ht_leaves t).
(** hi_daisee.py:302-311. *)
Definition hd_rows (t : htree) : list (vec * Q) := flat_map h_rows (leaf_nodes t).
(** hi_daisee.py:292-300, 313-320: one component per leaf, weighted with its mean weight. The lengths agree, so that
    set_weights does not raise. *)
Definition hd_model (t : htree) : list uniform * list (fl Q) :=
  (map node_box (leaf_nodes t),
   match set_weights (length (leaf_nodes t)) (map mean_weight (leaf_nodes t)) with Ok ws => ws | Raise _ => [] end).

(** hi_daisee.py:200-285 importance_sample; the timeout is not read. *)
Definition hd_call (P : hd_params) (pi : vec -> Q) (n : nat) (rds : nat -> hround) (s : hd) : outcome hd :=
  let k := length (hs_samples s) in
  match hd_turns P pi rds k (n - k) s with
  | Done s' => Done (mkHD (hs_tree s') (hd_rows (hs_tree s')) (hs_pi s') (hs_q s') (hs_draws s') (hd_model (hs_tree s')))
  | o => o
  end.

(** base.py:151-154 and CMixtureModel.py:59-77 for one row, with finite weights: the weighted sum of the densities of the boxes
    (the comparison with the smallest float, CMixtureModel.py:74, does not concern non-negative values). *)
Definition hd_prob (s : hd) (x : vec) : fl Q :=
  fsumQ (map2 (fun u w => fmulQ (if inlier (u_lo u) (u_hi u) x then Fin (1 / u_volume u) else Fin 0) w) (fst (hs_model s)) (snd (hs_model s))).

(** Histories of an object, latest first, each call with the flag whether it returned; sample(n) of the base class
    (base.py:145-149) counts n proposal samples. *)
Inductive hd_op :=
| HdCall (pi : vec -> Q) (n : nat) (rds : nat -> hround)
| HdSample (n : nat)
| HdReset.
Definition hd_drawn (n : nat) (s : hd) : hd := mkHD (hs_tree s) (hs_samples s) (hs_pi s) (hs_q s) (hs_draws s + n) (hs_model s).
Inductive hd_reachable (P : hd_params) : list (hd_op * bool) -> hd -> Prop :=
| hd_init : hd_reachable P [] (hd_new P)
| hd_done ops s pi n rds s' : hd_reachable P ops s -> hd_call P pi n rds s = Done s' -> hd_reachable P ((HdCall pi n rds, true) :: ops) s'
| hd_failed ops s pi n rds e s' : hd_reachable P ops s -> hd_call P pi n rds s = Failed e s' -> hd_reachable P ((HdCall pi n rds, false) :: ops) s'
| hd_sampled ops s n : hd_reachable P ops s -> hd_reachable P ((HdSample n, true) :: ops) (hd_drawn n s)
| hd_reset ops s : hd_reachable P ops s -> hd_reachable P ((HdReset, true) :: ops) (hd_restart P s).

(** The same operations as a function (hi_daisee.py:187-285, base.py:145-149). *)
Definition hd_run (P : hd_params) (o : hd_op) (s : hd) : outcome hd :=
  match o with
  | HdCall pi n rds => hd_call P pi n rds s
  | HdSample n => Done (hd_drawn n s)
  | HdReset => Done (hd_restart P s)
  end.
