(** Draws of sample() of HiDaisee and the law of their random numbers. *)
From Coq Require Import List QArith.
Import ListNotations.
From Verif Require Import Prelude.Py Prelude.QBase Model.Base Model.Mixture Model.Uniform Model.HiDaisee Model.Population Model.MixtureLaw
  Spec.UnbiasedSpec Spec.MixtureLawSpec.
Open Scope Q_scope.

(** base.py:145-149 and CMixtureModel.py:79-89 on the model of hi_daisee.py:313-320: the points of sample(n). [sel k] are the uniform
    draws behind the k-th selection (np.random.multinomial refuses weights that are not numbers), [draw k i] the draw of the unit cube of
    component i (CMultivariateUniform.py:32-36). *)
Definition hd_points (s : hd) (n : nat) (sel : nat -> nat -> Q) (draw : nat -> nat -> vec) : res (list vec) :=
  if forallb is_fin (snd (hs_model s)) then
    mixture_sample (map fin_val (snd (hs_model s))) n sel
      (fun k i => let b := nth i (fst (hs_model s)) (mkUnif 0 [] [] 0) in uniform_row (u_lo b) (u_hi b) (fun j => nth j (draw k i) 0) 0)
  else match n with O => Ok [] | _ => Raise ValueError end.

(** Expected value of [F] at the outcome of sample(n) (base.py:145-149), [dl] being the law of the draw of the unit cube. *)
Definition hd_sample_mean (s : hd) (ul : list (Q * Q)) (dl : list (Q * vec)) (n : nat) (F : res (list vec) -> Q) : Q :=
  expect_each (repeat (iteration_law ul (repeat dl (length (fst (hs_model s))))) n) (fun evs => F (hd_points s n (sel_of evs) (draw_of [] evs))).
