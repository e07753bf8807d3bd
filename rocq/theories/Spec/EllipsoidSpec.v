(** How an ellipsoid should follow its points when they are moved or measured in another unit. *)
From Coq Require Import List Reals.
Import ListNotations.
From Verif Require Import Model.Ellipsoid.
Open Scope R_scope.

(** x -> c x + b, coordinate by coordinate. *)
Definition moved (c : R) (b : rvect) (pts : list rvect) : list rvect := map (fun x i => c * x i + b i) pts.
(** The image of an ellipsoid: its centre is mapped, its covariance is multiplied by c^2, its volume by |c|^d. *)
Definition image_centre (c : R) (b : rvect) (e e' : ellipsoid) : Prop := forall i, e_loc e' i = c * e_loc e i + b i.
Definition image_spread (c : R) (e e' : ellipsoid) : Prop := forall i j, e_scale e' i j = c * c * e_scale e i j.
Definition image_volume (c : R) (e e' : ellipsoid) : Prop := e_volume e' = Rabs c ^ e_dims e * e_volume e.
