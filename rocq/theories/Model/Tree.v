(** Model of the partition tree of ais_benchmarks/sampling_methods/tree_pyramid.py (CTreePyramidNode and
    CTreePyramid, lines 23-235). Node objects are references: the object created k-th is number k. Objects are only
    created by the constructor of the tree and by expand, which append them to self.nodes in the order of creation,
    so the list self.nodes is used as the heap and a reference is a position in it. What the code stores in
    node.node_idx is kept as a separate field. A node's sampler is determined by its centre and radius and not stored. *)
From Coq Require Import List Bool Arith QArith.
Import ListNotations.
From Verif Require Import Prelude.Py Prelude.QBase.
Open Scope Q_scope.

(** Multiplication of floats with special values (zero is unsigned). *)
Definition fmulQ (x y : fl Q) : fl Q :=
  match x, y with
  | NaN, _ => NaN | _, NaN => NaN
  | Fin a, Fin b => Fin (a * b)
  | Fin a, i => if Qeq_bool a 0 then NaN else if Qltb 0 a then i else foppQ i
  | i, Fin a => if Qeq_bool a 0 then NaN else if Qltb 0 a then i else foppQ i
  | PInf, PInf => PInf | NInf, NInf => PInf | _, _ => NInf
  end.

(** tree_pyramid.py:45-46, 68-69, 87-88, 194-195: coords_hist and weight_hist together: None, deleted by expand, or
    the rows appended so far (sample appends a coordinate and weigh, called right after it, a weight). *)
Inductive history := HNone | HGone | HList (l : list (vec * fl Q)).

(** tree_pyramid.py:24-47. leaf_idx -1 is None here. The placeholders [None] * 2^d of a node without children (38)
    are the empty list. coords (40) is not kept: it is always the last drawn coordinate. *)
Record node := mkN { n_center : vec; n_radius : Q; n_children : list nat; n_weight : fl Q; n_leaf : option nat;
                     n_idx : nat; n_level : nat; n_value : fl Q; n_hist : history }.

(** tree_pyramid.py:118-129. *)
Record tree := mkT { t_nodes : list node; t_leaves : list nat; t_centers : list vec; t_radii : list Q;
                     t_samples : list vec; t_weights : list (fl Q); t_mask : list bool }.

(** tree_pyramid.py:36-47: a new node; value = weight * radius ** d. *)
Definition node_new (center : vec) (radius : Q) (idx : nat) (leaf : option nat) (level : nat) (weight : fl Q) : node :=
  mkN center radius [] weight leaf idx level (fmulQ weight (Fin (Qpow radius (length center)))) HNone.

(** tree_pyramid.py:119: centre (dmin + dmax) / 2 and radius np.max((dmax - dmin) / 2). *)
Definition root_center (lo hi : vec) : vec := map2 (fun l h => (l + h) / 2) lo hi.
Fixpoint max_list (l : list Q) : Q :=
  match l with [] => 0 | [x] => x | x :: r => qmax x (max_list r) end.
Definition root_radius (lo hi : vec) : Q := max_list (map2 (fun l h => (h - l) / 2) lo hi).

(** tree_pyramid.py:118-129 constructor, for at least one dimension (np.max of an empty array raises). *)
Definition tree_new (lo hi : vec) : tree :=
  let c := root_center lo hi in let r := root_radius lo hi in
  mkT [node_new c r 0 (Some 0%nat) 0 (Fin 0)] [0%nat] [c] [r] [repeat 0 (length lo)] [Fin 0] [true].

(** tree_pyramid.py:106-107. *)
Definition is_leaf (n : node) : bool := match n_leaf n with Some _ => true | None => false end.

(** tree_pyramid.py:177: itertools.product([-1, 1], repeat=d), in its order. *)
Fixpoint coeffs (d : nat) : list (list Q) :=
  match d with
  | O => [[]]
  | S k => map (cons (-1)) (coeffs k) ++ map (cons 1) (coeffs k)
  end.
(** tree_pyramid.py:180-183. *)
Definition child_centers (c : vec) (r : Q) : list vec :=
  map (fun co => map2 (fun a k => a + r / 2 * k) c co) (coeffs (length c)).

(** np.sum of a weight history, and of its squares (tree_pyramid.py:168). *)
Definition hist_weights (l : list (vec * fl Q)) : list (fl Q) := map snd l.
Definition hist_ess (l : list (vec * fl Q)) : fl Q :=
  let s := fsumQ (hist_weights l) in
  fdivflQ (fmulQ s s) (fsumQ (map (fun w => fmulQ w w) (hist_weights l))).

(** tree_pyramid.py:165-172: the criterion; Ok true lets the expansion go on. len(None) is a TypeError and a deleted
    attribute an AttributeError. *)
Definition may_expand (ess_target : option Q) (n_min : nat) (h : history) : res bool :=
  match ess_target with
  | None => Ok true
  | Some e =>
      match h with
      | HNone => Raise TypeError
      | HGone => Raise AttributeError
      | HList l => if (length l <? n_min)%nat then Ok false
                   else Ok (negb (fgtQ (hist_ess l) (e * Qnat (length l))))
      end
  end.

(** tree_pyramid.py:174-235: what expand does once the criterion lets it. The i-th new node gets leaf number
    len(leaves) + i - 1 (205), the first one then the number of the expanded leaf (213). *)
Definition expand_children (t : tree) (n : node) (li : nat) : list node :=
  let cs := child_centers (n_center n) (n_radius n) in
  map (fun ic => node_new (snd ic) (n_radius n / 2) (length (t_nodes t) + fst ic)
                          (Some (if (fst ic =? 0)%nat then li else (length (t_leaves t) + fst ic - 1)%nat))
                          (S (n_level n)) (fdivflQ (n_weight n) (Fin (Qnat (length cs)))))
      (combine (seq 0 (length cs)) cs).
Definition expand_at (t : tree) (ref : nat) (n : node) (li : nat) : tree :=
  let new := expand_children t n li in
  let refs := seq (length (t_nodes t)) (length new) in
  let n' := mkN (n_center n) (n_radius n) refs (n_weight n) None (n_idx n) (n_level n) (n_value n) HGone in
  mkT (upd (t_nodes t) ref n' ++ new)
      (upd (t_leaves t) li (hd 0%nat refs) ++ tl refs)
      (t_centers t ++ map n_center new)
      (t_radii t ++ map n_radius new)
      (t_samples t ++ map (fun _ => repeat 0 (length (n_center n))) new)
      (t_weights t ++ map (fun _ => Fin 0) new)
      (upd (t_mask t ++ map (fun _ => true) new) (n_idx n) false).

(** tree_pyramid.py:160-235 expand of the object number [ref]; the second component is the returned list. A reference
    that is no object of the tree does not occur in the code; it is an IndexError here. *)
Definition expand (ess_target : option Q) (n_min : nat) (ref : nat) (t : tree) : tree * res (option (list nat)) :=
  match nth_error (t_nodes t) ref with
  | None => (t, Raise IndexError)
  | Some n =>
      match n_leaf n with
      | None => (t, Raise AssertionError)
      | Some li =>
          match may_expand ess_target n_min (n_hist n) with
          | Raise e => (t, Raise e)
          | Ok false => (t, Ok None)
          | Ok true => (expand_at t ref n li, Ok (Some (seq (length (t_nodes t)) (length (expand_children t n li)))))
          end
      end
  end.

(** tree_pyramid.py:96-99: the test of get_child for one child. *)
Fixpoint in_cell (c : vec) (r : Q) (x : vec) : bool :=
  match c, x with
  | a :: c', v :: x' => Qle_bool (a - r) v && Qle_bool v (a + r) && in_cell c' r x'
  | _, _ => true
  end.
(** tree_pyramid.py:91-101 get_child: the first child whose cell contains the value. A node without children has
    placeholders None there, whose attribute center does not exist. *)
Fixpoint first_child (t : tree) (refs : list nat) (x : vec) : res nat :=
  match refs with
  | [] => Raise ValueError
  | k :: r => match nth_error (t_nodes t) k with
              | None => Raise AttributeError
              | Some n => if in_cell (n_center n) (n_radius n) x then Ok k else first_child t r x
              end
  end.
Definition get_child (t : tree) (ref : nat) (x : vec) : res nat :=
  match nth_error (t_nodes t) ref with
  | None => Raise IndexError
  | Some n => match n_children n with [] => Raise AttributeError | l => first_child t l x end
  end.

(** tree_pyramid.py:144-158 find with [depth] frames left before the interpreter's recursion limit. Line 153 resets
    prev to the root in every call, whatever was passed. *)
Fixpoint find (depth : nat) (t : tree) (x : vec) (prev : option nat) : res nat :=
  match depth with
  | O => Raise RecursionError
  | S d =>
      let prev := 0%nat in
      match nth_error (t_nodes t) prev with
      | None => Raise IndexError
      | Some n => if is_leaf n then Ok prev
                  else bind (get_child t prev x) (fun c => find d t x (Some c))
      end
  end.

(** Payload updates the sampler makes: the histories, weights and values of nodes and the cached samples and weights
    (tree_pyramid.py:67-69, 85-89, 382, 387, 408, 414, 444, 447, 460, 466, 512, 517, 528-533, 707). *)
Definition set_payload (n : node) (w v : fl Q) (h : history) : node :=
  mkN (n_center n) (n_radius n) (n_children n) w (n_leaf n) (n_idx n) (n_level n) v h.
Definition put_node (t : tree) (ref : nat) (n : node) : tree :=
  mkT (upd (t_nodes t) ref n) (t_leaves t) (t_centers t) (t_radii t) (t_samples t) (t_weights t) (t_mask t).
Definition put_cache (t : tree) (samples : list vec) (weights : list (fl Q)) : tree :=
  mkT (t_nodes t) (t_leaves t) (t_centers t) (t_radii t) samples weights (t_mask t).

(** Histories of a tree object, latest first: expansions with any criterion and payload updates that keep the shapes
    of the caches. The flag tells whether nodes were created. *)
Inductive tree_op :=
| TExpand (ess_target : option Q) (n_min : nat) (ref : nat)
| TNode (ref : nat) (w v : fl Q) (h : history)
| TCache (samples : list vec) (weights : list (fl Q)).
Definition grew (r : res (option (list nat))) : bool := match r with Ok (Some _) => true | _ => false end.
Inductive tree_reachable (lo hi : vec) : list (tree_op * bool) -> tree -> Prop :=
| tr_init : tree_reachable lo hi [] (tree_new lo hi)
| tr_expand ops t e m ref t' r : tree_reachable lo hi ops t -> expand e m ref t = (t', r) ->
    tree_reachable lo hi ((TExpand e m ref, grew r) :: ops) t'
| tr_node ops t ref n w v h : tree_reachable lo hi ops t -> nth_error (t_nodes t) ref = Some n ->
    tree_reachable lo hi ((TNode ref w v h, false) :: ops) (put_node t ref (set_payload n w v h))
| tr_cache ops t ss ws : tree_reachable lo hi ops t -> length ss = length (t_samples t) -> length ws = length (t_weights t) ->
    tree_reachable lo hi ((TCache ss ws, false) :: ops) (put_cache t ss ws).
