(** Model of the draw methods of the samplers, which the benchmark calls after every batch in debug mode
    (CBenchmark.py:495-516). *)
From Coq Require Import List Bool Arith ZArith QArith.
Import ListNotations.
From Verif Require Import Prelude.Py Prelude.QBase Model.Base Model.DensityPlots Model.MetropolisHastings Model.Tree Model.HiDaisee.
Open Scope Q_scope.

(** matplotlib's Rectangle((x, y), width, height). *)
Record rectangle := mkRect { rc_x : Q; rc_y : Q; rc_w : Q; rc_h : Q }.

(** tree_pyramid.py:625-638 draw_2d_tree: one rectangle for every leaf. The colours are left out. *)
Definition tree_rects (t : tree) : list rectangle :=
  flat_map (fun i => match nth_error (t_nodes t) i with
                     | Some n => let c := n_center n in
                                 let r := n_radius n in
                                 [mkRect (nth 0 c 0 - r) (nth 1 c 0 - r) (2 * r) (2 * r)]
                     | None => []
                     end) (t_leaves t).
(** hi_daisee.py:323-340 draw_2d_tree: a node has a radius for every axis. The colours are left out. *)
Definition hd_rects (t : htree) : list rectangle :=
  flat_map (fun i => match nth_error (ht_nodes t) i with
                     | Some n => let c := h_center n in
                                 let r := h_radius n in
                                 [mkRect (nth 0 c 0 - nth 0 r 0) (nth 1 c 0 - nth 1 r 0) (2 * nth 0 r 0) (2 * nth 1 r 0)]
                     | None => []
                     end) (ht_leaves t).

(** base.py:188-205 draw1d of the mixture samplers: the curves and a vertical line for every pair of zip(samples,
    weights), the last one again for the legend; without any pair its variables are unbound at line 201. *)
Definition mixture_draw1d (lo hi : Q) (parts : list (Q * (vec -> Q))) (d : vec -> Q) (rows : list (Q * Q))
  : res (list (list (Q * Q)) * list (Q * Q) * list (Q * Q) * list (Q * Q)) :=
  match draw1d lo hi parts d with
  | Raise e => Raise e
  | Ok pic => match rev rows with [] => Raise UnboundLocalError | row :: _ => Ok (pic, rows ++ [row]) end
  end.
(** base.py:207-223 draw2d of the mixture samplers. The proposals are CMultivariateNormal objects, which have no
    attribute "mean" (lines 211, 213); without proposals the variable of the loop is unbound. *)
Definition mixture_draw2d (proposals : nat) : res (list contour) :=
  match proposals with O => Raise UnboundLocalError | S _ => Raise AttributeError end.
(** base.py:181-186. *)
Definition mixture_draw (lo hi : vec) (parts : list (Q * (vec -> Q))) (d : vec -> Q) (rows : list (vec * Q)) : res (list (list (Q * Q))) :=
  match hi with
  | [h] => match mixture_draw1d (nth 0 lo 0) h parts d (map (fun r => (nth 0 (fst r) 0, snd r)) rows) with
           | Raise e => Raise e
           | Ok (cs, again, c, lines) => Ok (cs ++ [again; lines; c])
           end
  | [_; _] => match mixture_draw2d (length parts) with Raise e => Raise e | Ok _ => Ok [] end
  | _ => Ok []
  end.

(** metropolis_hastings.py:180-182 (201-205): the curve of the proposal, a copy of which is moved by the last point of
    the trajectory; [q] is the density of the proposed displacement (both shipped proposals depend on their location
    by a shift only: CMultivariateNormal.py:67-71, CMultivariateUniform.py:49-59). *)
Definition mh_dashed (lo hi : Q) (q : vec -> Q) (s : mh) : res (list (Q * Q)) :=
  match rev (mh_traj s) with
  | [] => Raise IndexError
  | z :: _ => plot_pdf lo hi (1 # 10) 1 (fun x => q (vsub x z))
  end.
