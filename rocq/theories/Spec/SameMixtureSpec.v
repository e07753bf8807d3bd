(** Mixtures written in different ways (no reference to the model). *)
From Coq Require Import List QArith Reals Qreals Permutation.
Import ListNotations.
From Verif Require Import Prelude.Py Prelude.QBase Spec.WeightSpec Spec.DensitySpec.
Open Scope Q_scope.

(** A component: the log density it reports and the law of its draws. *)
Record component (X : Type) := mkComponent { c_log : X -> fl R; c_law : list (Q * X) }.
Arguments mkComponent {X}.
Arguments c_log {X}.
Arguments c_law {X}.

Definition mean_of {X : Type} (l : list (Q * X)) (f : X -> Q) : Q := Qsum (map (fun mx => fst mx * f (snd mx)) l).

(** [m] is a mixture with probabilities and components [inner]: its density and the mean values of its draws are the weighted sums. *)
Definition mixture_of {X : Type} (inner : list (Q * component X)) (m : component X) : Prop :=
  is_normalised (map fst inner) /\
  (forall x, log_of (c_log m x) (weighted_sum (map fst inner) (map (fun wc => density_of (c_log (snd wc) x)) inner))) /\
  (forall f, mean_of (c_law m) f == Qsum (map (fun wc => fst wc * mean_of (c_law (snd wc)) f) inner)).

(** Two lists of weights and components that mean the same mixture: another order, weights in other units, components without a usable
    weight left out, equal components put together, a component that is a mixture replaced by its parts. *)
Inductive same_mixture {X : Type} : list (fl Q * component X) -> list (fl Q * component X) -> Prop :=
| sm_order d d' : Permutation d d' -> same_mixture d d'
| sm_units c d : 0 < c -> same_mixture d (map (fun wc => (scale_weight c (fst wc), snd wc)) d)
| sm_unused w c d : ~ usable w -> w <> PInf -> same_mixture ((w, c) :: d) d
| sm_together a b c d : 0 <= a -> 0 <= b -> same_mixture ((Fin a, c) :: (Fin b, c) :: d) ((Fin (a + b), c) :: d)
| sm_nested a m inner d : 0 <= a -> mixture_of inner m -> same_mixture ((Fin a, m) :: d) (map (fun wc => (Fin (a * fst wc), snd wc)) inner ++ d)
| sm_sym d d' : same_mixture d d' -> same_mixture d' d
| sm_trans d d' d'' : same_mixture d d' -> same_mixture d' d'' -> same_mixture d d''.

(** What a user may give: no infinite weight, at least one usable one, log densities finite or -inf. *)
Definition proper_mixture {X : Type} (d : list (fl Q * component X)) : Prop :=
  ~ In PInf (map fst d) /\ Exists usable (map fst d) /\ forall wc x, In wc d -> log_value (c_log (snd wc) x).
