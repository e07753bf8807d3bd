(** The probability law of the random numbers of CMixtureModel.sample, of the resampling of DM-AIS and of the tree's sample(). *)
From Coq Require Import List QArith.
Import ListNotations.
From Verif Require Import Prelude.Py Prelude.QBase Model.Base Model.Mixture Model.Population Model.Tree Model.TreeSampler
  Spec.UnbiasedSpec Spec.WalkSpec Spec.MixtureLawSpec.
Open Scope Q_scope.

(** CMixtureModel.py:82-87: the random numbers of one iteration, one uniform draw of law [ul] per component for the selector
    (np.random.multinomial) and one draw of every component. All are independent; the code makes only those it needs, which
    does not change the law of the outcome. *)
Definition iteration_law {X : Type} (ul : list (Q * Q)) (laws : list (list (Q * X))) : list (Q * (list Q * list X)) :=
  pair_law (joint (repeat ul (length laws))) (joint laws).
(** The k-th draws as the tapes of [mixture_sample] and [model_sample]. *)
Definition sel_of {X : Type} (evs : list (list Q * list X)) (k j : nat) : Q := nth j (fst (nth k evs ([], []))) 0.
Definition draw_of {X : Type} (x0 : X) (evs : list (list Q * list X)) (k i : nat) : X := nth i (snd (nth k evs ([], []))) x0.

(** CMixtureModel.py:79-89: expected value of [F] at the outcome of sample(n). *)
Definition sample_mean {X : Type} (x0 : X) (ul : list (Q * Q)) (ws : list Q) (laws : list (list (Q * X))) (n : nat)
           (F : res (list X) -> Q) : Q :=
  expect_each (repeat (iteration_law ul laws) n) (fun evs => F (mixture_sample ws n (sel_of evs) (draw_of x0 evs))).

(** base.py:145-149 on the tree object: expected value of [F] at the outcome of sample(n), [dl] being the law of the draw of the
    unit cube behind every kernel. *)
Definition tree_mean (P : tp_params) (ul : list (Q * Q)) (dl : list (Q * vec)) (cells : nat) (m : tp_model) (n : nat)
           (F : res (list vec) -> Q) : Q :=
  expect_each (repeat (iteration_law ul (repeat dl cells)) n) (fun evs => F (model_sample P m n (sel_of evs) (draw_of [] evs))).

(** dm_ais.py:47-56: a turn whose selector draws (one list per proposal) are [us]; draws of the proposals and clock as in r. *)
Definition with_selectors (r : pop_round) (us : list (list Q)) : pop_round :=
  mkPopR (pr_draw r) (fun j i => nth i (nth j us []) 0) (pr_mh r) (pr_clock r).
(** Expected value of [F] at the centres of the proposals after a turn of DM-AIS with draws as in r, over the selector draws. *)
Definition centres_mean (P : pop_params) (pi : vec -> Q) (ul : list (Q * Q)) (r : pop_round) (s : pop) (F : list vec -> Q) : Q :=
  expect_each (repeat (joint (repeat ul (length (pop_draws P (pop_means s) r)))) (length (pop_means s)))
    (fun us => F (pop_means (out_state (pop_iter DM P pi (with_selectors r us) s)))).
