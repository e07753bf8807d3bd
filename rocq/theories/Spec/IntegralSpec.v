(** Integrals over the real line (independent of the model). *)
From Coq Require Import Reals.
From Coquelicot Require Import Coquelicot.
Open Scope R_scope.

(** The integrals over windows [a, b] exist and converge to [l] as the windows grow. *)
Definition integrates_to (f : R -> R) (l : R) : Prop :=
  forall eps, 0 < eps -> exists B, 0 < B /\
    forall a b, a <= - B -> B <= b -> exists v, is_RInt f a b v /\ Rabs (v - l) < eps.

(** Textbook densities. *)
Definition maxwell_density (x : R) : R := if Rlt_dec 0 x then x * exp (- (x * x / 2)) else 0.
Definition laplace_density (x : R) : R := exp (- Rabs x) / 2.
Definition pareto_density (x : R) : R := / (4 * ((1 + Rabs x) * sqrt (1 + Rabs x))).

(** Kernels: non-negative, symmetric about [c], zero further than [w] from [c], total mass one. *)
Definition kernel_at (k : R -> R) (c w : R) : Prop :=
  (forall x, 0 <= k x) /\ (forall x, k (c + x) = k (c - x)) /\ (forall x, w < Rabs (x - c) -> k x = 0) /\
  integrates_to k 1.

(** Values change at most L times as fast as the point. *)
Definition lipschitz (L : R) (F : R -> R) : Prop := forall x y, Rabs (F x - F y) <= L * Rabs (x - y).
(** The integral over [a, b]. *)
Definition segment_integral (F : R -> R) (a b : R) : R := RInt F a b.
(** The same on the segment [a, b] only. *)
Definition lipschitz_on (a b L : R) (F : R -> R) : Prop :=
  forall x y, a <= x <= b -> a <= y <= b -> Rabs (F x - F y) <= L * Rabs (x - y).
(** Divergences of two unnormalised densities on [a, b], as integrals. *)
Definition kl_integral (p q : R -> R) (a b : R) : R :=
  let P := segment_integral p a b in let Q := segment_integral q a b in
  segment_integral (fun x => p x / P * ln ((p x / P) / (q x / Q))) a b.
Definition js_integral (p q : R -> R) (a b : R) : R :=
  let P := segment_integral p a b in let Q := segment_integral q a b in
  let m x := (p x / P + q x / Q) / 2 in
  (segment_integral (fun x => p x / P * ln ((p x / P) / m x)) a b / 2
   + segment_integral (fun x => q x / Q * ln ((q x / Q) / m x)) a b / 2) / ln 2.
