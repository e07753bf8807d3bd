(** Model of CTreePyramidSampling (ais_benchmarks/sampling_methods/tree_pyramid.py:269-741), both the "simple" flow
    (425-475) and the flow shared by "dm" and "mixture" (363-423). Numbers are rationals with IEEE special values, no
    rounding. The density of a normal with diagonal covariance is a parameter over Q. Plotting and viz_* are left out. *)
From Coq Require Import List Bool Arith QArith.
Import ListNotations.
From Verif Require Import Prelude.Py Prelude.QBase Model.Uniform Model.Mixture Model.Population Model.Tree.
Open Scope Q_scope.

Inductive kernel := Haar | Normal.
Inductive flow := Simple | MixtureFlow.
(** tree_pyramid.py:304-322. [p_nden v m x] is the density at x of the normal with mean m and covariance v times the
    identity; [p_frames] the number of frames find can use before the interpreter's recursion limit. *)
Record tp_params := mkTP { p_lo : vec; p_hi : vec; p_kernel : kernel; p_flow : flow; p_leaf_resampling : bool;
                           p_ess : option Q; p_nmin : nat; p_parallel : nat; p_nden : Q -> vec -> vec -> Q; p_frames : nat }.
Definition p_dims (P : tp_params) : nat := length (p_lo P).

(** self.model: the root's sampler (322, 338) or the mixture built by _update_model (710-736): cells and weights. *)
Inductive tp_model := MRoot | MMix (cells : list (vec * Q)) (ws : list (fl Q)).

(** The object. The last three fields are ghosts: proposal draws, target evaluations and proposal evaluations made. *)
Record tp := mkS { s_tree : tree; s_model : tp_model; s_q_samples : nat; s_q_evals : nat; s_pi_evals : nat;
                   g_draws : nat; g_qs : nat; g_pis : nat }.
Definition tp_new (P : tp_params) : tp := mkS (tree_new (p_lo P) (p_hi P)) MRoot 0 0 0 0 0 0.
(** base.py:29-35 on this object: tree and model are not touched. The ghosts count since the last reset as well. *)
Definition tp_base_reset (s : tp) : tp := mkS (s_tree s) (s_model s) 0 0 0 0 0 0.
(** tree_pyramid.py:335-340 reset: the base class, then a new tree (337) and its root's sampler (338). *)
Definition tp_reset (P : tp_params) (s : tp) : tp :=
  let b := tp_base_reset s in
  mkS (tree_new (p_lo P) (p_hi P)) MRoot (s_q_samples b) (s_q_evals b) (s_pi_evals b) (g_draws b) (g_qs b) (g_pis b).

(** numpy indexing and assignment with a list of booleans. *)
Fixpoint masked {A : Type} (mask : list bool) (l : list A) : list A :=
  match mask, l with
  | b :: m, a :: r => if b then a :: masked m r else masked m r
  | _, _ => []
  end.
Fixpoint put_masked {A : Type} (mask : list bool) (l vals : list A) : list A :=
  match mask, l with
  | b :: m, a :: r => if b then match vals with v :: vs => v :: put_masked m r vs | [] => a :: put_masked m r [] end
                      else a :: put_masked m r vals
  | _, _ => l
  end.

Definition cell_lo (c : vec) (r : Q) : vec := map (fun a => a - r) c.
Definition cell_hi (c : vec) (r : Q) : vec := map (fun a => a + r) c.

(** A draw of a cell's kernel from the tape entry u (CMultivariateUniform.py:32-36; for the normal kernel the tape
    holds the drawn value itself). *)
Definition kernel_draw (k : kernel) (c : vec) (r : Q) (u : vec) : vec :=
  match k with Haar => uniform_draw (cell_lo c r) (cell_hi c r) u | Normal => u end.
(** tree_pyramid.py:52-58: density of a node's own sampler; the normal one has covariance radius / bw_div, bw_div = 4. *)
Definition node_density (P : tp_params) (c : vec) (r : Q) (x : vec) : fl Q :=
  match p_kernel P with
  | Haar => if inlier (cell_lo c r) (cell_hi c r) x then fdivQ 1 (Qpow (r * 2) (length c)) else Fin 0
  | Normal => Fin (p_nden P (r / 4) c x)
  end.

(** np.mean of a weight history. *)
Definition fmean (ws : list (fl Q)) : fl Q := fdivflQ (fsumQ ws) (Fin (Qnat (length ws))).
Definition hist_list (h : history) : list (vec * fl Q) := match h with HList l => l | _ => [] end.

(** tree_pyramid.py:62-69, 71-89 with 460-466 (and 443-447, 407-414): sample x is stored in the history and the cache,
    weighed with target density [p] over proposal density [q]; value = mean weight * radius ** d. *)
Definition take_sample (t : tree) (ref : nat) (x : vec) (p : Q) (q : fl Q) : tree :=
  match nth_error (t_nodes t) ref with
  | None => t
  | Some n =>
      let w := fdivflQ (Fin p) q in
      let h := hist_list (n_hist n) ++ [(x, w)] in
      let v := fmulQ (fmean (hist_weights h)) (Fin (Qpow (n_radius n) (length (n_center n)))) in
      put_cache (put_node t ref (set_payload n w v (HList h))) (upd (t_samples t) (n_idx n) x) (upd (t_weights t) (n_idx n) w)
  end.

(** tree_pyramid.py:705-708. *)
Definition self_normalize (t : tree) : tree :=
  let w := masked (t_mask t) (t_weights t) in
  let s := fsumQ w in
  if fgtQ s 0 then put_cache t (t_samples t) (put_masked (t_mask t) (t_weights t) (map (fun x => fdivflQ x s) w)) else t.

(** tree_pyramid.py:710-736: the weights are read before the normalisation; CMixtureModel normalises a copy. *)
Definition update_model (s : tp) : tp :=
  let t := s_tree s in
  let ws := masked (t_mask t) (t_weights t) in
  let cells := masked (t_mask t) (combine (t_centers t) (t_radii t)) in
  let mw := match set_weights (length cells) ws with Ok l => l | Raise _ => [] end in
  mkS (self_normalize t) (MMix cells mw) (s_q_samples s) (s_q_evals s) (s_pi_evals s) (g_draws s) (g_qs s) (g_pis s).

(** tree_pyramid.py:697-703: leaf number i writes its history at [i : i + its length] of arrays that have one row per
    sample held; then the rows with positive weight are kept. *)
Fixpoint write_at {A : Type} (l : list A) (i : nat) (vals : list A) : list A :=
  match vals with [] => l | v :: vs => write_at (upd l i v) (S i) vs end.
Fixpoint write_leaves {A : Type} (l : list A) (i : nat) (hs : list (list A)) : list A :=
  match hs with [] => l | h :: r => write_leaves (write_at l i h) (S i) r end.
(** The histories of the leaves; len(None) is a TypeError. *)
Fixpoint leaf_histories (t : tree) (refs : list nat) : res (list (list (vec * fl Q))) :=
  match refs with
  | [] => Ok []
  | i :: r =>
      match nth_error (t_nodes t) i with
      | None => Raise IndexError
      | Some n => match n_hist n with
                  | HNone => Raise TypeError
                  | HGone => Raise AttributeError
                  | HList l => bind (leaf_histories t r) (fun ls => Ok (l :: ls))
                  end
      end
  end.
(** tree_pyramid.py:689-703. Comparing None with a number is a TypeError. *)
Definition get_samples (P : tp_params) (t : tree) : res (list (vec * fl Q)) :=
  match p_ess P with
  | None => Raise TypeError
  | Some e =>
      if Qltb 1 e then Ok (combine (masked (t_mask t) (t_samples t)) (masked (t_mask t) (t_weights t)))
      else bind (leaf_histories t (t_leaves t)) (fun hs =>
           let total := length (concat hs) in
           let rows := write_leaves (repeat (repeat 0 (p_dims P), Fin 0) total) 0 hs in
           Ok (filter (fun xw => fgtQ (snd xw) 0) rows))
  end.

(** Random outcomes of one turn: keys that order the leaves when some value is NaN, draws for the nodes by reference, resampling
    draws by row, and for the mixture flow selector and component draws of sample() and of the nodes. *)
Record tp_round := mkR { rd_key : nat -> Q; rd_draw : nat -> vec; rd_re : nat -> vec; rd_clock : Q;
                         rd_psel : nat -> nat -> Q; rd_pdraw : nat -> nat -> vec;
                         rd_nsel : nat -> nat -> Q; rd_ndraw : nat -> nat -> vec }.

(** tree_pyramid.py:452: sorted(leaves, reverse=True), a stable descending sort by value (103-104). The order python
    produces in the presence of NaN values is not modelled: any permutation, given by the keys on the tape. *)
Definition leaf_value (t : tree) (ref : nat) : fl Q := match nth_error (t_nodes t) ref with Some n => n_value n | None => NaN end.
Fixpoint insert_desc (v : nat -> fl Q) (x : nat) (l : list nat) : list nat :=
  match l with
  | [] => [x]
  | y :: r => if fltQ (v x) (v y) then y :: insert_desc v x r else x :: l
  end.
Definition sort_desc (v : nat -> fl Q) (l : list nat) : list nat := fold_right (insert_desc v) [] l.
Definition is_nan (x : fl Q) : bool := match x with NaN => true | _ => false end.
Definition lambda_hat (t : tree) (r : tp_round) : list nat :=
  if existsb (fun i => is_nan (leaf_value t i)) (t_leaves t) then sort_desc (fun i => Fin (rd_key r i)) (t_leaves t) else sort_desc (leaf_value t) (t_leaves t).

(** tree_pyramid.py:664-675. A refused leaf is listed again, so that it gets one more sample. *)
Fixpoint expand_nodes (P : tp_params) (t : tree) (ps : list nat) (max_parts : nat) (acc : list nat) : tree * res (list nat) :=
  match ps with
  | [] => (t, Ok acc)
  | p :: r =>
      match expand (p_ess P) (p_nmin P) p t with
      | (t', Raise e) => (t', Raise e)
      | (t', Ok None) => expand_nodes P t' r max_parts (acc ++ [p])
      | (t', Ok (Some new)) =>
          let acc' := acc ++ new in
          if (max_parts <? length acc')%nat then (t', Ok acc') else expand_nodes P t' r max_parts acc'
      end
  end.

(** tree_pyramid.py:500-533 resample. In the last loop every leaf has a history (proved), whose last entry is replaced. *)
Definition replace_last {A : Type} (l : list A) (a : A) : list A := upd l (length l - 1) a.
Definition refresh_leaf (t : tree) (ref : nat) : tree :=
  match nth_error (t_nodes t) ref with
  | None => t
  | Some n =>
      let w := nth (n_idx n) (t_weights t) NaN in
      let h := match n_hist n with
               | HList l => HList (replace_last l (nth (n_idx n) (t_samples t) [], w))
               | h => h
               end in
      put_node t ref (set_payload n w (fmulQ w (Fin (Qpow (2 * n_radius n) (length (n_center n))))) h)
  end.
Definition re_unit (P : tp_params) (u : vec) : vec :=
  match p_kernel P with Haar => map (fun a => -(1#2) + a) u | Normal => u end.
Definition re_sample (c : vec) (r : Q) (z : vec) : vec := map2 (fun a b => b * 2 * r + a) c z.
Definition re_density (P : tp_params) (r : Q) (z : vec) : fl Q :=
  match p_kernel P with
  | Haar => fdivQ 1 (Qpow (2 * r) (p_dims P))
  | Normal => Fin (p_nden P (1 # 2) (repeat 0 (p_dims P)) z)
  end.
Definition resample_rows (P : tp_params) (r : tp_round) (cells : list (vec * Q)) : list (vec * Q * vec) :=
  map (fun kc => (fst (snd kc), snd (snd kc), re_unit P (rd_re r (fst kc)))) (combine (seq 0 (length cells)) cells).
Definition resample_tree (P : tp_params) (pi : vec -> Q) (r : tp_round) (t : tree) : tree :=
  let rows := resample_rows P r (combine (masked (t_mask t) (t_centers t)) (masked (t_mask t) (t_radii t))) in
  let xs := map (fun '(c, rad, z) => re_sample c rad z) rows in
  let ws := map (fun '(c, rad, z) => fdivflQ (Fin (pi (re_sample c rad z))) (re_density P rad z)) rows in
  let t1 := self_normalize (put_cache t (put_masked (t_mask t) (t_samples t) xs) (put_masked (t_mask t) (t_weights t) ws)) in
  fold_left refresh_leaf (t_leaves t1) t1.
Definition resample (P : tp_params) (pi : vec -> Q) (r : tp_round) (s : tp) : tp :=
  let m := length (t_leaves (s_tree s)) in
  mkS (resample_tree P pi r (s_tree s)) (s_model s) (s_q_samples s + m) (s_q_evals s + m) (s_pi_evals s + m)
      (g_draws s + m) (g_qs s + m) (g_pis s + m).
Definition maybe_resample (P : tp_params) (pi : vec -> Q) (r : tp_round) (s : tp) : tp :=
  if p_leaf_resampling P then resample P pi r s else s.

(** A new or revisited node of the simple flow (tree_pyramid.py:458-466); one draw and two evaluations, all counted. *)
Definition node_turn (P : tp_params) (pi : vec -> Q) (u : vec) (ref : nat) (s : tp) : tp :=
  match nth_error (t_nodes (s_tree s)) ref with
  | None => s
  | Some n =>
      let x := kernel_draw (p_kernel P) (n_center n) (n_radius n) u in
      mkS (take_sample (s_tree s) ref x (pi x) (node_density P (n_center n) (n_radius n) x)) (s_model s)
          (s_q_samples s + 1) (s_q_evals s + 1) (s_pi_evals s + 1) (g_draws s + 1) (g_qs s + 1) (g_pis s + 1)
  end.

(** The tree of a state replaced. *)
Definition with_tree (s : tp) (t : tree) : tp :=
  mkS t (s_model s) (s_q_samples s) (s_q_evals s) (s_pi_evals s) (g_draws s) (g_qs s) (g_pis s).

(** tree_pyramid.py:450-472: a turn of the simple flow. *)
Definition simple_turn (P : tp_params) (pi : vec -> Q) (r : tp_round) (s : tp) : outcome tp :=
  match expand_nodes P (s_tree s) (lambda_hat (s_tree s) r) (p_parallel P) [] with
  | (t, Raise e) => Failed e (with_tree s t)
  | (t, Ok new) => Done (maybe_resample P pi r (fold_left (fun s ref => node_turn P pi (rd_draw r ref) ref s) new (with_tree s t)))
  end.

(** base.py:145-149 and CMixtureModel.py:79-89 / CMultivariateUniform.py:32-36: sample() from the current model. A
    mixture with a NaN weight makes np.random.multinomial raise ValueError. *)
Definition model_sample (P : tp_params) (m : tp_model) (n : nat) (sel : nat -> nat -> Q) (draw : nat -> nat -> vec) : res (list vec) :=
  match m with
  | MRoot => Ok (map (fun k => kernel_draw (p_kernel P) (root_center (p_lo P) (p_hi P)) (root_radius (p_lo P) (p_hi P)) (draw k 0%nat)) (seq 0 n))
  | MMix cells ws =>
      if forallb is_fin ws then
        mixture_sample (map fin_val ws) n sel
          (fun k i => let c := nth i cells ([], 0) in kernel_draw (p_kernel P) (fst c) (snd c) (draw k i))
      else match n with O => Ok [] | _ => Raise ValueError end
  end.

(** tree_pyramid.py:553-602: strictly inside the cell. *)
Fixpoint strictly_in (c : vec) (r : Q) (x : vec) : bool :=
  match c, x with
  | a :: c', v :: x' => Qltb (a - r) v && Qltb v (a + r) && strictly_in c' r x'
  | _, _ => true
  end.
(** tree_pyramid.py:570-603 prob of one point given as a row of dims entries. Several cells would make the assignment
    of line 602 fail. *)
Definition tp_prob (P : tp_params) (t : tree) (m : tp_model) (x : vec) : res (fl Q) :=
  match p_kernel P with
  | Haar =>
      match filter (fun '(c, r, _) => strictly_in c r x)
                   (masked (t_mask t) (combine (combine (t_centers t) (t_radii t)) (t_weights t))) with
      | [] => Ok (Fin 0)
      | [(_, r, w)] => Ok (fdivflQ w (Fin (Qpow (2 * r) (p_dims P))))
      | _ => Raise ValueError
      end
  | Normal =>
      match m with
      | MRoot => Ok (Fin (p_nden P (root_radius (p_lo P) (p_hi P) / 4) (root_center (p_lo P) (p_hi P)) x))
      | MMix cells ws => Ok (fsumQ (map2 (fun c w => fmulQ (Fin (p_nden P (snd c) (fst c) x)) w) cells ws))
      end
  end.

(** tree_pyramid.py:351-361 find_unique: the distinct nodes, in order of first occurrence. *)
Fixpoint find_unique (frames : nat) (t : tree) (xs : list vec) (nodes : list nat) : res (list nat) :=
  match xs with
  | [] => Ok nodes
  | x :: r => bind (find frames t x None) (fun i =>
              find_unique frames t r (if existsb (Nat.eqb i) nodes then nodes else nodes ++ [i]))
  end.

(** tree_pyramid.py:406-414: a node of the mixture flow is drawn from the model and weighed with the object's own
    density, the cache being updated in between. *)
Fixpoint mixture_nodes (P : tp_params) (pi : vec -> Q) (r : tp_round) (refs : list nat) (s : tp) : outcome tp :=
  match refs with
  | [] => Done s
  | ref :: rest =>
      match nth_error (t_nodes (s_tree s)) ref, model_sample P (s_model s) 1 (fun _ => rd_nsel r ref) (fun _ => rd_ndraw r ref) with
      | Some n, Ok [x] =>
          let t1 := put_cache (s_tree s) (upd (t_samples (s_tree s)) (n_idx n) x) (t_weights (s_tree s)) in
          match tp_prob P t1 (s_model s) x with
          | Raise e => Failed e (mkS t1 (s_model s) (s_q_samples s + 1) (s_q_evals s) (s_pi_evals s) (g_draws s + 1) (g_qs s) (g_pis s))
          | Ok q => mixture_nodes P pi r rest
                      (mkS (take_sample t1 ref x (pi x) q) (s_model s) (s_q_samples s + 1) (s_q_evals s + 1) (s_pi_evals s + 1)
                           (g_draws s + 1) (g_qs s + 1) (g_pis s + 1))
          end
      | _, Raise e => Failed e s
      | _, _ => Failed IndexError s
      end
  end.

(** tree_pyramid.py:390-420: a turn of the mixture flow; [need] is n_samples minus the samples held. *)
Definition mixture_turn (P : tp_params) (pi : vec -> Q) (need : nat) (r : tp_round) (s : tp) : outcome tp :=
  let m := ((need + 2 ^ p_dims P - 1) / 2 ^ p_dims P)%nat in
  let s1 := mkS (s_tree s) (s_model s) (s_q_samples s + m) (s_q_evals s) (s_pi_evals s) (g_draws s + m) (g_qs s) (g_pis s) in
  match model_sample P (s_model s) m (rd_psel r) (rd_pdraw r) with
  | Raise e => Failed e (mkS (s_tree s) (s_model s) (s_q_samples s + m) (s_q_evals s) (s_pi_evals s) (g_draws s) (g_qs s) (g_pis s))
  | Ok xs =>
      match find_unique (p_frames P) (s_tree s) (map (fun x => vclip x (p_lo P) (p_hi P)) xs) [] with
      | Raise e => Failed e s1
      | Ok nodes =>
          match expand_nodes P (s_tree s) nodes need [] with
          | (t, Raise e) => Failed e (with_tree s1 t)
          | (t, Ok new) =>
              match mixture_nodes P pi r new (with_tree s1 t) with
              | Done s2 => Done (maybe_resample P pi r s2)
              | o => o
              end
          end
      end
  end.

Definition turn (P : tp_params) (pi : vec -> Q) (need : nat) (r : tp_round) (s : tp) : outcome tp :=
  match p_flow P with Simple => simple_turn P pi r s | MixtureFlow => mixture_turn P pi need r s end.

(** tree_pyramid.py:379-388 and 441-448: the root gets its sample; only the mixture flow counts its evaluations. *)
Definition root_turn (P : tp_params) (pi : vec -> Q) (u : vec) (s : tp) : tp :=
  match nth_error (t_nodes (s_tree s)) 0 with
  | Some n =>
      match n_hist n with
      | HNone =>
          let x := kernel_draw (p_kernel P) (n_center n) (n_radius n) u in
          let c := match p_flow P with Simple => 0%nat | MixtureFlow => 1%nat end in
          update_model (mkS (take_sample (s_tree s) 0 x (pi x) (node_density P (n_center n) (n_radius n) x)) (s_model s)
                            (s_q_samples s + 1) (s_q_evals s + c) (s_pi_evals s + c) (g_draws s + 1) (g_qs s + 1) (g_pis s + 1))
      | _ => s
      end
  | None => s
  end.

(** tree_pyramid.py:390-423, 450-475: the while loop, then the model update. *)
Fixpoint tp_loop (P : tp_params) (pi : vec -> Q) (n : nat) (timeout : Q) (tape : list tp_round) (elapsed : Q) (s : tp) : outcome tp :=
  match get_samples P (s_tree s) with
  | Raise e => Failed e s
  | Ok l =>
      if (length l <? n)%nat && Qltb elapsed timeout then
        match tape with
        | [] => Running s
        | r :: tp' => match turn P pi (n - length l) r s with
                      | Done s' => tp_loop P pi n timeout tp' (rd_clock r) s'
                      | o => o
                      end
        end
      else Done (update_model s)
  end.

(** tree_pyramid.py:477-498 importance_sample; [u] is the draw of the root. It returns get_samples of the final state. *)
Definition tp_call (P : tp_params) (pi : vec -> Q) (n : nat) (timeout : Q) (u : vec) (tape : list tp_round) (s : tp) : outcome tp :=
  tp_loop P pi n timeout tape 0 (root_turn P pi u s).

Inductive tp_op :=
| TpCall (pi : vec -> Q) (n : nat) (timeout : Q) (u : vec) (tape : list tp_round)
| TpSample (m : nat) (sel : nat -> nat -> Q) (draw : nat -> nat -> vec)
| TpReset.
Definition tp_run (P : tp_params) (o : tp_op) (s : tp) : outcome tp :=
  match o with
  | TpCall pi n timeout u tape => tp_call P pi n timeout u tape s
  | TpSample m sel draw =>
      let c d := mkS (s_tree s) (s_model s) (s_q_samples s + m) (s_q_evals s) (s_pi_evals s) (g_draws s + d) (g_qs s) (g_pis s) in
      match model_sample P (s_model s) m sel draw with Ok _ => Done (c m) | Raise e => Failed e (c 0%nat) end
  | TpReset => Done (tp_reset P s)
  end.

(** Histories, latest operation first; the flag tells whether the operation returned. *)
Inductive tp_reachable (P : tp_params) : list (tp_op * bool) -> tp -> Prop :=
| tp_init : tp_reachable P [] (tp_new P)
| tp_done o ops s s' : tp_reachable P ops s -> tp_run P o s = Done s' -> tp_reachable P ((o, true) :: ops) s'
| tp_fail o ops s e s' : tp_reachable P ops s -> tp_run P o s = Failed e s' -> tp_reachable P ((o, false) :: ops) s'.
