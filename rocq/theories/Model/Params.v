(** Model of the constructors of the parametric distributions as operations on the caller's parameter dictionary and on the
    arrays in it (distributions.py:62-98, CMultivariateNormal.py, CMultivariateExponential.py, CMultivariateUniform.py,
    CMultivariateDelta.py), and of the names of the samplers (base.py:12-16, metropolis_hastings.py:39, tree_pyramid.py:304). *)
From Coq Require Import String.
From Coq Require Import List Bool Arith Reals.
Import ListNotations.
From Verif Require Import Prelude.Py Prelude.RBase Model.Normal.
Open Scope R_scope.

(** Numpy arrays live in a heap and are passed by reference. A cell is a list of rows; a one-dimensional array is one row. *)
Definition cell : Type := list (list R).
Definition heap : Type := list cell.
Definition load (h : heap) (a : nat) : cell := nth a h [].
Definition row_at (h : heap) (a : nat) : list R := hd [] (load h a).
(** A new array: the heap with it; its address is the length of the old heap. *)
Definition alloc (h : heap) (c : cell) : heap := h ++ [c].
(** In-place assignment a[...] = c by the caller. *)
Fixpoint store (h : heap) (a : nat) (c : cell) : heap :=
  match h, a with
  | [], _ => []
  | _ :: r, O => c :: r
  | x :: r, S b => x :: store r b c
  end.

(** Values of a parameter dictionary: an array, a Python list of two arrays, a string, a number, a bound method (of the object
    with this number). *)
Inductive pval : Type := PArr (a : nat) | PPair (a b : nat) | PStr (s : string) | PNat (n : nat) | PFun (id : nat).
Definition dict : Type := list (string * pval).
Fixpoint get (k : string) (d : dict) : option pval :=
  match d with [] => None | (k', v) :: r => if String.eqb k k' then Some v else get k r end.
(** d[k] = v *)
Fixpoint put (k : string) (v : pval) (d : dict) : dict :=
  match d with
  | [] => [(k, v)]
  | (k', v') :: r => if String.eqb k k' then (k, v) :: r else (k', v') :: put k v r
  end.

Inductive kind : Type := KNormal | KExp | KUniform | KDelta.
(** A distribution object: kind, dims, support_vals, the addresses of loc, scale (and inv_cov or log_scale), the numbers computed
    by the constructor (the terms of the normal density, prob_val of the uniform one). self.params, type, family and the bound
    methods are left out: the methods of these classes do not read them. *)
Record obj : Type := mkObj { o_kind : kind; o_dims : nat; o_support : pval; o_loc : nat; o_scale : nat; o_aux : nat; o_const : list R }.

Section Params.
(** np.linalg.det and np.linalg.inv, as in Model/Normal.v; [inv] takes and returns rows. *)
Variable det : rmat -> R.
Variable inv : rmat -> rmat.
Definition mat_of (c : cell) : rmat := fun i j => nth j (nth i c []) 0.
Definition rows_of (n : nat) (m : rmat) : cell := map (fun i => map (m i) (seq 0 n)) (seq 0 n).
Definition square (n : nat) (c : cell) : bool := (length c =? n)%nat && forallb (fun r => (length r =? n)%nat) c.
(** np.sqrt(np.diag(sigma)) * 6.0 *)
Definition six_sds (n : nat) (c : cell) : list R := map (fun i => sqrt (mat_of c i i) * 6) (seq 0 n).
Definition vadd (a b : list R) : list R := map (fun p => fst p + snd p) (combine a b).
Definition vsub (a b : list R) : list R := map (fun p => fst p - snd p) (combine a b).

Definition type_of (k : kind) : string :=
  match k with KNormal => "normal" | KExp => "exp" | KUniform => "uniform" | KDelta => "delta" end.
Definition family_of (k : kind) : string :=
  match k with KNormal | KExp => "exponential" | KUniform => "uniform" | KDelta => "delta" end.
(** The entries every constructor writes into the caller's dictionary (CMultivariateNormal.py:30-34, CMultivariateExponential.py:9-13,
    CMultivariateUniform.py:10-14, CMultivariateDelta.py:10-14). *)
Definition enter (k : kind) (id n : nat) (d : dict) : dict :=
  put "dims" (PNat n) (put "loglikelihood_f" (PFun id) (put "likelihood_f" (PFun id) (put "family" (PStr (family_of k)) (put "type" (PStr (type_of k)) d)))).

(** _check_param and reading an array (distributions.py:116-126). Simplified: an entry that is not an array is a TypeError. *)
Definition arr (k : string) (d : dict) : res nat :=
  match get k d with Some (PArr a) => Ok a | Some _ => Raise TypeError | None => Raise AssertionError end.
(** Broadcasting the radius over the centre: one number serves all coordinates. *)
Definition spread (n : nat) (r : list R) : res (list R) :=
  if (length r =? 1)%nat then Ok (repeat (hd 0 r) n) else if (length r =? n)%nat then Ok r else Raise ValueError.
(** np.prod(scale * 2), or (scale * 2) ** dims when there is one radius only (CMultivariateUniform.py:21-24). *)
Definition volume (n : nat) (r : list R) : R :=
  if (length r =? 1)%nat then (hd 0 r * 2) ^ n else fold_right (fun x p => x * 2 * p) 1 r.

(** What a constructor call leaves: the object or the exception, the heap, the caller's dictionary. *)
Definition built : Type := (res obj * heap * dict)%type.

(** CMultivariateNormal.py:26-62. Simplified: the assertion about the shape of sigma comes before the support is computed, so a
    mismatch is an AssertionError and leaves no support behind. *)
Definition build_normal (id : nat) (h : heap) (d : dict) : built :=
  match arr "mean" d, arr "sigma" d with
  | Ok m, Ok s =>
      let n := length (row_at h m) in
      let d1 := enter KNormal id n d in
      if square n (load h s) then
        let '(h2, d2) :=
          match get "support" d1 with
          | Some _ => (h, d1)
          | None => (alloc h [vsub (row_at h m) (six_sds n (load h s)); vadd (row_at h m) (six_sds n (load h s))], put "support" (PArr (length h)) d1)
          end in
        let sup := match get "support" d2 with Some v => v | None => PNat 0 end in
        let v := det (mat_of (load h s)) in
        if Rltb 0 v then
          let h3 := alloc (alloc (alloc h2 [row_at h m]) (load h s)) (rows_of n (inv (mat_of (load h s)))) in
          (Ok (mkObj KNormal n sup (length h2) (S (length h2)) (S (S (length h2))) [- (1 / 2) * INR n * ln (PI * 2); - (1 / 2) * ln v]), h3, d2)
        else (Raise AssertionError, alloc (alloc h2 [row_at h m]) (load h s), d2)
      else (Raise AssertionError, h, d1)
  | Raise e, _ => (Raise e, h, d)
  | _, Raise e => (Raise e, h, d)
  end.

(** CMultivariateExponential.py:6-25. *)
Definition build_exp (id : nat) (h : heap) (d : dict) : built :=
  match arr "mean" d with
  | Raise e => (Raise e, h, d)
  | Ok m =>
      let mean := row_at h m in
      let d1 := enter KExp id (length mean) d in
      let '(h2, d2) :=
        match get "support" d1 with
        | Some _ => (h, d1)
        | None => (alloc h [map (fun _ => 0) mean; map (fun x => 4 * x) mean], put "support" (PArr (length h)) d1)
        end in
      let sup := match get "support" d2 with Some v => v | None => PNat 0 end in
      let scale := map (fun x => 1 / x) mean in
      (Ok (mkObj KExp (length mean) sup (length h2) (S (length h2)) (S (S (length h2))) []),
       alloc (alloc (alloc h2 [mean]) [scale]) [map (fun x => ln (x * exp 1)) scale], d2)
  end.

(** CMultivariateUniform.py:6-30. loc and scale are the caller's arrays; volume and prob_val are computed once. *)
Definition build_uniform (id : nat) (h : heap) (d : dict) : built :=
  match arr "center" d, arr "radius" d with
  | Ok c, Ok r =>
      let n := length (row_at h c) in
      let d1 := enter KUniform id n d in
      match spread n (row_at h r) with
      | Raise e => (Raise e, h, d1)
      | Ok rad =>
          (Ok (mkObj KUniform n (PPair (length h) (S (length h))) c r r [1 / volume n (row_at h r)]),
           alloc (alloc h [vsub (row_at h c) rad]) [vadd (row_at h c) rad], put "support" (PPair (length h) (S (length h))) d1)
      end
  | Raise e, _ => (Raise e, h, d)
  | _, Raise e => (Raise e, h, d)
  end.

(** CMultivariateDelta.py:6-22. loc is the caller's array. *)
Definition build_delta (id : nat) (h : heap) (d : dict) : built :=
  match arr "center" d, get "support" d with
  | Ok c, Some sup => let n := length (row_at h c) in (Ok (mkObj KDelta n sup c c c []), h, enter KDelta id n d)
  | Raise e, _ => (Raise e, h, d)
  | _, None => (Raise AssertionError, h, d)
  end.

Definition build (k : kind) : nat -> heap -> dict -> built :=
  match k with KNormal => build_normal | KExp => build_exp | KUniform => build_uniform | KDelta => build_delta end.
End Params.

(** distributions.py:228-234 support(), before the reshape: the rows of support_vals as they are now. *)
Definition support_now (h : heap) (o : obj) : cell :=
  match o_support o with PArr a => load h a | PPair a b => [row_at h a; row_at h b] | _ => [] end.

Definition isclose_R (a b : R) : bool := Rleb (Rabs (a - b)) (1 / 100000000 + 1 / 100000 * Rabs b).
(** The corners loc - scale and loc + scale that the methods of the uniform class compute at every call (lines 33-34, 41-42, 53-54). *)
Definition low_now (h : heap) (o : obj) : list R :=
  match spread (length (row_at h (o_loc o))) (row_at h (o_scale o)) with Ok r => vsub (row_at h (o_loc o)) r | Raise _ => [] end.
Definition high_now (h : heap) (o : obj) : list R :=
  match spread (length (row_at h (o_loc o))) (row_at h (o_scale o)) with Ok r => vadd (row_at h (o_loc o)) r | Raise _ => [] end.
(** prob of one point of the right dimension, read off the arrays as they are now: CMultivariateNormal.py:67-75,
    CMultivariateExponential.py:30-46, CMultivariateUniform.py:50-59, CMultivariateDelta.py:35-42. *)
Definition density_now (h : heap) (o : obj) (x : list R) : fl R :=
  match o_kind o with
  | KNormal =>
      let q := quad_form (o_dims o) (mat_of (load h (o_aux o))) (fun i => nth i (row_at h (o_loc o)) 0 - nth i x 0) in
      Fin (exp (nth 0 (o_const o) 0 + nth 1 (o_const o) 0 + - (1 / 2) * q))
  | KExp =>
      if forallb (Rltb 0) x
      then Fin (exp (Rsum (map (fun p => - fst (fst p) * snd p * snd (fst p)) (combine (combine (row_at h (o_scale o)) (row_at h (o_aux o))) x))))
      else Fin 0
  | KUniform =>
      if forallb (fun p => Rltb (fst (fst p)) (snd p) && Rleb (snd p) (snd (fst p))) (combine (combine (low_now h o) (high_now h o)) x)
      then Fin (nth 0 (o_const o) 0) else Fin 0
  | KDelta => if forallb (fun p => isclose_R (fst p) (snd p)) (combine (row_at h (o_loc o)) x) then PInf else Fin 0
  end.
(** The two arrays sample() hands to the random generator: mean and covariance (CMultivariateNormal.py:65), the mean
    (CMultivariateExponential.py:28), the corners (CMultivariateUniform.py:33-35), the centre (CMultivariateDelta.py:25). *)
Definition draws_now (h : heap) (o : obj) : cell * cell :=
  match o_kind o with
  | KNormal => (load h (o_loc o), load h (o_scale o))
  | KExp => (load h (o_loc o), [])
  | KUniform => ([low_now h o], [high_now h o])
  | KDelta => (load h (o_loc o), [])
  end.

(** Constructors of samplers as far as the name goes: Metropolis-Hastings and the tree sampler write theirs into the caller's
    dictionary (metropolis_hastings.py:39, tree_pyramid.py:304), the base class reads it (base.py:16). The name given to a method
    of a benchmark file is set later (CBenchmark.py:78). *)
Inductive skind : Type := SMetropolis | STree | SOther.
Definition sampler_enter (k : skind) (d : dict) : dict :=
  match k with SMetropolis => put "name" (PStr "MCMC-MH") d | STree => put "name" (PStr "TP_AIS") d | SOther => d end.
Definition sampler_name (k : skind) (d : dict) : pval :=
  match get "name" (sampler_enter k d) with Some v => v | None => PStr "GenericSamplingMethod" end.
