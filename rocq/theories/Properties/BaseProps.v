(** Properties C22, C61, C65, C67 (sampler base class). *)
From Coq Require Import List Bool Arith ZArith QArith.
Import ListNotations.
From Verif Require Import Prelude.Py Prelude.QBase Model.Base Model.Rejection Model.MetropolisHastings
  Spec.Box Spec.GridSpec Spec.FloatSpec Proofs.BaseProofs Proofs.KdeProofs Proofs.NessProofs
  Proofs.RejectionWitness Proofs.MHWitness Proofs.BaseWitness.
Open Scope Q_scope.

(** C22. Range of the reported value, and when it is one. *)
Theorem C22_approx_ness_range :
  forall ws, Forall (fun w => 0 <= w) ws -> 0 < Qsum ws ->
  exists v, get_approx_NESS ws (length ws) = Fin v /\
    1 / Qnat (length ws) <= v <= 1 /\ (v == 1 <-> (forall a b, In a ws -> In b ws -> a == b)).
Proof. exact approx_ness_bounds. Qed.
Print Assumptions C22_approx_ness_range.

(** C22. Rescaling the weights changes nothing. *)
Theorem C22_approx_ness_scale :
  forall ws c, Forall (fun w => 0 <= w) ws -> 0 < Qsum ws -> 0 < c ->
  exists v v', get_approx_NESS ws (length ws) = Fin v /\
    get_approx_NESS (map (fun w => c * w) ws) (length ws) = Fin v' /\ v' == v.
Proof. exact approx_ness_scale. Qed.
Print Assumptions C22_approx_ness_scale.

Example C22_approx_ness_example :
  Forall (fun w => 0 <= w) [1; 0; 3] /\ 0 < Qsum [1; 0; 3] /\
  exists v, get_approx_NESS [1; 0; 3] 3 = Fin v /\ v == 8 # 15.
Proof. exact approx_ness_ex. Qed.

(** C61. Number of points per dimension, spacing, all combinations and only those, inside the box,
    corners, no duplicates. *)
Theorem C61_grid :
  forall lo hi r, is_box lo hi -> 0 < r ->
  exists rows ds shape, make_grid lo hi r = Ok (rows, ds, shape) /\
    shape = map2 (fun l h => Z.to_nat (points_along (h - l) r)) lo hi /\
    map (@length Q) ds = shape /\
    Forall2 evenly_spread (combine lo hi) ds /\
    length rows = nprod shape /\
    (forall v, In v rows <-> Forall2 (fun a l => In a l) v ds) /\
    Forall (in_box lo hi) rows /\
    Exists (fun v => same_point v lo) rows /\
    (Forall (fun k => (2 <= k)%nat) shape -> Exists (fun v => same_point v hi) rows) /\
    (strictly_below lo hi -> NoDup rows).
Proof. exact make_grid_spec. Qed.
Print Assumptions C61_grid.

(** A 2 x 4 grid. *)
Example C61_grid_example :
  is_box [0; -(1)] [1; 1] /\ 0 < (1#2) /\ strictly_below [0; -(1)] [1; 1] /\
  exists rows ds, make_grid [0; -(1)] [1; 1] (1#2) = Ok (rows, ds, [2; 4]%nat) /\
    length rows = 8%nat.
Proof. exact grid_ex. Qed.

(** C65. In every history, any density model held by the rejection sampler has the requested number
    of components, all centred on held samples. *)
Theorem C65_kde_rejection :
  forall P c, rej_reachable P c -> forall m, model c = Some m ->
    length m = rj_kde P /\ Forall (fun x => In x (samples c)) m.
Proof. exact kde_rej_reachable. Qed.
Print Assumptions C65_kde_rejection.

(** C65. The same for Metropolis-Hastings. *)
Theorem C65_kde_mh :
  forall P x0 ops s, mh_reachable P x0 ops s -> forall m, model (mh_core s) = Some m ->
    length m = mh_kde P /\ Forall (fun x => In x (samples (mh_core s))) m.
Proof. exact kde_mh_reachable. Qed.
Print Assumptions C65_kde_mh.

(** C65. A call that returns leaves a model, in both samplers. *)
Theorem C65_kde_present_rejection :
  forall P t n timeout e0 tape pick c c',
    rej_importance_sample P t n timeout e0 tape pick c = Done c' ->
    exists m, model c' = Some m /\ length m = rj_kde P /\ Forall (fun x => In x (samples c')) m.
Proof. exact kde_rej_present. Qed.
Print Assumptions C65_kde_present_rejection.

Theorem C65_kde_present_mh :
  forall P lp n timeout tape pick s s',
    mh_importance_sample P lp n timeout tape pick s = Done s' ->
    exists m, model (mh_core s') = Some m /\ length m = mh_kde P /\
              Forall (fun x => In x (samples (mh_core s'))) m.
Proof. exact kde_mh_present. Qed.
Print Assumptions C65_kde_present_mh.

(** C65. The component weights are equal and sum to one. *)
Theorem C65_kde_weights :
  forall k, (0 < k)%nat -> length (kde_weights k) = k /\ Qsum (kde_weights k) == 1 /\
    (forall a b, In a (kde_weights k) -> In b (kde_weights k) -> a = b).
Proof. exact kde_weights_ok. Qed.
Print Assumptions C65_kde_weights.

Example C65_kde_example :
  rej_reachable exP ex_c1 /\ model ex_c1 <> None /\
  mh_reachable wP wx0 [wop] ws1 /\ model (mh_core ws1) <> None.
Proof. exact kde_ex. Qed.

(** C67 (full statement: finite and in (0,1]) is false in three ways. *)
Theorem C67_ness_finite_refuted :
  exists x, (1 < length x)%nat /\ Forall (fun r => length r = 1%nat) x /\
    ~ (exists v, feqQ (get_NESS x) (Fin v)).
Proof. exact ness_infinite. Qed.
Print Assumptions C67_ness_finite_refuted.

Theorem C67_ness_at_most_one_refuted :
  exists x v, (1 < length x)%nat /\ get_NESS x = Fin v /\ 1 < v.
Proof. exact ness_above_one. Qed.
Print Assumptions C67_ness_at_most_one_refuted.

Theorem C67_ness_positive_refuted :
  exists x v, (1 < length x)%nat /\ get_NESS x = Fin v /\ v < 0.
Proof. exact ness_negative. Qed.
Print Assumptions C67_ness_positive_refuted.

(** C67, what holds: invariance under shifting and rescaling all samples. *)
Theorem C67_ness_invariance_partial :
  forall c b, ~ c == 0 -> forall x, feqQ (get_NESS (map (map (fun a => c * a + b)) x)) (get_NESS x).
Proof. exact ness_affine. Qed.
Print Assumptions C67_ness_invariance_partial.

Example C67_ness_invariance_example : ~ (-(2)) == 0 /\
  map (map (fun a => -(2) * a + 3)) [[0]; [5]; [1]; [4]] = [[3]; [-(7)]; [1]; [-(5)]] /\
  feqQ (get_NESS [[0]; [5]; [1]; [4]]) (Fin (17#18)).
Proof. exact ness_affine_example. Qed.
