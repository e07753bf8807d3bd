(** Model of ais_benchmarks/sampling_methods/base.py (sampling method base classes). *)
From Coq Require Import List Bool Arith QArith Qround.
Import ListNotations.
From Verif Require Import Prelude.Py Prelude.QBase.
Open Scope Q_scope.

(** base.py:21-25 (and 138): the fields common to every sampler. [model] holds the component
    means of the kernel density model of CMixtureSamplingMethod ([None] = Python None).
    [ghost_drawn] is not a field of the code: it records, for specification purposes only, every
    point drawn from the proposal and passed to the target density.
    Simplified: [space_min], [space_max], [ndims], the name, the debug flag and the variogram
    cache (never read) are left out of the record. *)
Record core := mkCore {
  samples : list vec;
  weights : list Q;
  num_q_samples : nat;
  num_q_evals : nat;
  num_pi_evals : nat;
  model : option (list vec);
  ghost_drawn : list vec
}.

(** base.py:29-35 CSamplingMethod.reset: assigns counters, samples and weights; the model is not touched. The ghost
    field counts since the last reset. *)
Definition base_reset (c : core) : core := mkCore [] [] 0 0 0 (model c) [].

(** base.py:141-143 CMixtureSamplingMethod.reset: the base class first, then self.model = None. *)
Definition core_reset (c : core) : core :=
  let b := base_reset c in
  mkCore (samples b) (weights b) (num_q_samples b) (num_q_evals b) (num_pi_evals b) None (ghost_drawn b).

(** base.py:12-27, 136-139: the state after construction. *)
Definition core_init : core := mkCore [] [] 0 0 0 None [].

(** base.py:37-39 get_acceptance_rate. int/int with a zero denominator raises. *)
Definition get_acceptance_rate (c : core) : res Q :=
  match samples c with
  | [] => Raise AssertionError
  | _ => match num_q_samples c with
         | O => Raise ZeroDivisionError
         | S _ => Ok (Qnat (length (samples c)) / Qnat (num_q_samples c))
         end
  end.

(** base.py:72-75 get_approx_NESS: 1 / sum((w/sum w)^2) / len(samples).
    numpy float division: a zero weight sum or a zero sum of squares gives special values. *)
Definition get_approx_NESS (ws : list Q) (n : nat) : fl Q :=
  let s := Qsum ws in
  let norm := map (fun w => fdivQ w s) ws in
  let sq := fsumQ (map (fun w => match w with Fin a => Fin (a * a) | NaN => NaN | _ => PInf end) norm) in
  fdivflQ (fdivflQ (Fin 1) sq) (Fin (Qnat n)).

(** base.py:46 the variogram of lag t: sum over all rows and coordinates of the squared lag-t
    differences, divided by (n - t). *)
Definition sqdist (x y : vec) : Q := Qsum (map2 (fun a b => (a - b) * (a - b)) x y).
Definition variogram (x : list vec) (t : nat) : Q :=
  Qsum (map2 sqdist (skipn t x) (firstn (length x - t) x)) / Qnat (length x - t).

(** base.py:51 W = sum (x - mean)^2 / (n - 1), the mean being over all entries of the array.
    (n - 1) = 0 gives NaN (0/0). *)
Definition entries (x : list vec) : list Q := concat x.
Definition ness_W (x : list vec) : fl Q :=
  let e := entries x in
  let mean := Qsum e / Qnat (length e) in
  fdivQ (Qsum (map (fun a => (a - mean) * (a - mean)) e)) (Qnat (length x) - 1).

(** base.py:61 rho[t] = 1 - variogram(t) / (2 W). *)
Definition rho (x : list vec) (t : nat) : fl Q :=
  fsubQ (Fin 1) (fdivflQ (Fin (variogram x t))
                         (match ness_W x with Fin w => Fin (2 * w) | s => s end)).

(** base.py:57-66 the while loop; [fuel] = n iterations suffice since t < n.
    Returns the list rho[1:t]. *)
Fixpoint ness_loop (fuel : nat) (x : list vec) (t : nat) (acc : list (fl Q)) : list (fl Q) :=
  match fuel with
  | O => acc
  | S f =>
      if (t <? length x)%nat then
        let r := rho x t in
        let acc' := acc ++ [r] in
        if Nat.even t && fltQ (faddQ (nth (t - 2) acc' NaN) r) (Fin 0) then acc'
        else ness_loop f x (S t) acc'
      else acc
  end.

(** base.py:41-70 get_NESS. *)
Definition get_NESS (x : list vec) : fl Q :=
  let n := length x in
  let s := fsumQ (ness_loop n x 1 []) in
  let den := faddQ (Fin 1) (match s with Fin a => Fin (2 * a) | v => v end) in
  fdivflQ (fdivflQ (Fin (Qnat n)) den) (Fin (Qnat n)).

(** base.py:162-179 _update_model. [pick] is the random generator: the i-th index drawn is
    [pick i mod len(samples)], which ranges over all values random_integers(0, len-1) can return.
    random_integers(0, -1) raises ValueError; 1/n_samples_kde with n_samples_kde = 0 raises
    ZeroDivisionError. Simplified: only the component means are kept; every component has
    covariance diag(bw) and weight 1/n_samples_kde (see [kde_weights]). *)
Definition update_model (n_kde : nat) (pick : nat -> nat) (ss : list vec) : res (list vec) :=
  match n_kde with
  | O => Raise ZeroDivisionError
  | S _ =>
      match ss with
      | [] => Raise ValueError
      | _ => Ok (map (fun i => nth (pick i mod length ss) ss []) (seq 0 n_kde))
      end
  end.

(** base.py:145-149 CMixtureSamplingMethod.sample(m), as far as the object's own state is concerned:
    the model is built if missing and the sample counter grows by m (the drawn points themselves
    come from the mixture, see Model/Mixture.v). *)
Definition core_sample (n_kde : nat) (pick : nat -> nat) (m : nat) (c : core) : outcome core :=
  match model c with
  | Some _ => Done (mkCore (samples c) (weights c) (num_q_samples c + m) (num_q_evals c) (num_pi_evals c)
                           (model c) (ghost_drawn c))
  | None => match update_model n_kde pick (samples c) with
            | Raise e => Failed e c
            | Ok md => Done (mkCore (samples c) (weights c) (num_q_samples c + m) (num_q_evals c)
                                    (num_pi_evals c) (Some md) (ghost_drawn c))
            end
  end.

(** base.py:151-160 prob and log_prob, as far as the object's own state is concerned: the model is
    built if missing; no counter changes. *)
Definition core_query (n_kde : nat) (pick : nat -> nat) (c : core) : outcome core :=
  match model c with
  | Some _ => Done c
  | None => match update_model n_kde pick (samples c) with
            | Raise e => Failed e c
            | Ok md => Done (mkCore (samples c) (weights c) (num_q_samples c) (num_q_evals c)
                                    (num_pi_evals c) (Some md) (ghost_drawn c))
            end
  end.

(** base.py:177 the weights handed to the mixture. *)
Definition kde_weights (n_kde : nat) : list Q := repeat (1 / Qnat n_kde) n_kde.

(** base.py:252-255: int() truncates towards zero, then at least one. *)
Definition Qtrunc (q : Q) : Z := Z.quot (Qnum q) (Zpos (Qden q)).
Definition grid_count (range resolution : Q) : res nat :=
  match fdivQ range resolution with
  | Fin q => Ok (if (Qtrunc q <? 1)%Z then 1%nat else Z.to_nat (Qtrunc q))
  | NaN => Raise ValueError
  | _ => Raise OverflowError
  end.

(** base.py:260 np.linspace(start, stop, num) for num >= 1 (num = 1 gives [start]). *)
Definition linspace (start stop : Q) (num : nat) : list Q :=
  match num with
  | O => []
  | S O => [start]
  | S m => map (fun i => start + Qnat i * ((stop - start) / Qnat m)) (seq 0 m) ++ [stop]
  end.

(** All rows with one entry per list, the last list varying fastest (C order reshape). *)
Fixpoint lexprod (ls : list (list Q)) : list vec :=
  match ls with
  | [] => [[]]
  | l :: r => flat_map (fun a => map (cons a) (lexprod r)) l
  end.

(** base.py:263 np.array(np.meshgrid(dims)).T.reshape(-1, d). meshgrid uses 'xy' indexing, so the
    transposed array has axes (n_{d-1}, ..., n_2, n_0, n_1): rows are enumerated in that order and
    coordinates put back in place. *)
Definition mesh_rows (dims : list (list Q)) : list vec :=
  match dims with
  | l0 :: l1 :: rest =>
      map (fun v => skipn (length rest) v ++ rev (firstn (length rest) v))
          (lexprod (rev rest ++ [l0; l1]))
  | _ => lexprod dims
  end.

(** base.py:249-264 make_grid (the same code is in utils/plot_utils.py:10-25). The scalar
    [resolution] is broadcast over the dimensions. *)
Fixpoint grid_dims (lo hi : vec) (resolution : Q) : res (list (list Q)) :=
  match lo, hi with
  | l :: lo', h :: hi' =>
      match grid_count (h - l) resolution with
      | Raise e => Raise e
      | Ok n => match grid_dims lo' hi' resolution with
                | Raise e => Raise e
                | Ok ds => Ok (linspace l h n :: ds)
                end
      end
  | _, _ => Ok []
  end.
Definition make_grid (lo hi : vec) (resolution : Q) : res (list vec * list (list Q) * list nat) :=
  match grid_dims lo hi resolution with
  | Raise e => Raise e
  | Ok ds => Ok (mesh_rows ds, ds, map (@length Q) ds)
  end.
