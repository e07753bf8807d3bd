(** Model of the curves and contours of ais_benchmarks/utils/plot_utils.py and of the places that draw densities with them. *)
From Coq Require Import List Bool Arith ZArith QArith Qround Reals Qreals.
Import ListNotations.
From Verif Require Import Prelude.Py Prelude.QBase Model.Base.
Open Scope Q_scope.

(** plot_utils.py:34-37 plot_pdf on an interval: the points handed to ax.plot. int() truncates; np.linspace refuses a
    negative count. *)
Definition plot_pdf (lo hi resolution scale : Q) (d : vec -> Q) : res (list (Q * Q)) :=
  match fdivQ (hi - lo) resolution with
  | Fin q => if (Qtrunc q <? 0)%Z then Raise ValueError
             else Ok (map (fun x => (x, d [x] * scale)) (linspace lo hi (Z.to_nat (Qtrunc q))))
  | NaN => Raise ValueError
  | _ => Raise OverflowError
  end.

(** distributions.py:236-242 CDistribution.draw in one dimension: a tenth of the width is added on both sides. *)
Definition draw_dist (lo hi resolution : Q) (d : vec -> Q) : res (list (Q * Q)) :=
  plot_pdf (lo - (hi - lo) * (1 # 10)) (hi + (hi - lo) * (1 # 10)) resolution 1 d.

(** base.py:188-203 draw1d: one curve for every component, scaled by its weight, the last one again for the legend, and
    the curve of the density itself. Simplified: the vertical lines of the samples are left out; without components
    the loop variables of lines 195-196 are unbound (UnboundLocalError). *)
Fixpoint curves (lo hi : Q) (parts : list (Q * (vec -> Q))) : res (list (list (Q * Q))) :=
  match parts with
  | [] => Ok []
  | (w, q) :: r => match plot_pdf lo hi (1 # 100) w q with
                   | Raise e => Raise e
                   | Ok c => match curves lo hi r with Raise e => Raise e | Ok cs => Ok (c :: cs) end
                   end
  end.
Definition draw1d (lo hi : Q) (parts : list (Q * (vec -> Q))) (d : vec -> Q) : res (list (list (Q * Q)) * list (Q * Q) * list (Q * Q)) :=
  match curves lo hi parts with
  | Raise e => Raise e
  | Ok cs => match rev cs with
             | [] => Raise UnboundLocalError
             | again :: _ => match plot_pdf lo hi (1 # 100) 1 d with Raise e => Raise e | Ok c => Ok (cs, again, c) end
             end
  end.

(** prob_p.reshape(shape) of a flat array: the position of an entry in C order. *)
Fixpoint flat_index (shape idx : list nat) : nat :=
  match shape, idx with
  | _ :: shape', i :: idx' => (i * fold_right Nat.mul 1 shape' + flat_index shape' idx')%nat
  | _, _ => 0%nat
  end.
Definition table_at {A : Type} (a0 : A) (shape : list nat) (flat : list A) (idx : list nat) : A := nth (flat_index shape idx) flat a0.

(** plot_utils.py:50 reshape(shape).transpose() for two axes: row i, column j of the picture. *)
Definition arrange {A : Type} (a0 : A) (n0 n1 : nat) (flat : list A) : list (list A) :=
  map (fun i => map (fun j => table_at a0 [n0; n1] flat [j; i]) (seq 0 n0)) (seq 0 n1).

(** np.min and np.max over all entries, np.arange. *)
Definition amin (l : list Q) : Q := match l with [] => 0 | x :: r => fold_left qmin r x end.
Definition amax (l : list Q) : Q := match l with [] => 0 | x :: r => fold_left qmax r x end.
Definition arange (a b step : Q) : list Q := map (fun i => a + Qnat i * step) (seq 0 (Z.to_nat (Qceiling ((b - a) / step)))).

(** plot_utils.py:57-58: what ax.contour is called with. *)
Record contour := mkContour { ct_xs : list Q; ct_ys : list Q; ct_z : list (list Q); ct_levels : list Q }.

(** plot_utils.py:49-59 plot_grid_sampled_pdfs without marginalize_axes; None: an empty list is returned and nothing is
    drawn. Simplified: a grid that has not two axes, which contour refuses, gives TypeError in all cases. *)
Definition plot_grid (ds : list (list Q)) (shape : list nat) (prob : list Q) : res (option contour) :=
  match ds, shape with
  | [xs; ys], [n0; n1] =>
      let z := arrange 0 n0 n1 prob in
      let lo := amin (concat z) in
      let hi := amax (concat z) in
      if Qltb lo hi then Ok (Some (mkContour xs ys z (arange lo hi ((hi - lo) / 15)))) else Ok None
  | _, _ => Raise TypeError
  end.

(** plot_utils.py:28-31 and 62-64 plot_pdf2d. *)
Definition plot_pdf2d (lo hi : vec) (resolution scale : Q) (d : vec -> Q) : res (option contour) :=
  match make_grid lo hi resolution with
  | Raise e => Raise e
  | Ok (rows, ds, shape) => plot_grid ds shape (map (fun p => p * scale) (map d rows))
  end.

(** CBenchmark.py:438-443: with debug on, the target of two dimensions. plot_utils.grid_sample_distribution (28-31)
    returns densities, which are taken for logarithms. *)
Definition debug_picture (lo hi : vec) (d : vec -> Q) : res (list Q * list Q * list (list R)) :=
  match make_grid lo hi (2 # 100) with
  | Raise e => Raise e
  | Ok (rows, [xs; ys], [n0; n1]) => Ok (xs, ys, arrange 0%R n0 n1 (map (fun x => exp (Q2R (d x))) rows))
  | Ok _ => Raise TypeError
  end.
