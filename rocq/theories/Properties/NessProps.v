(** Property C67, the value of the effective sample size. *)
From Coq Require Import List Bool Arith Lia ZArith QArith Lqa.
Import ListNotations.
From Verif Require Import Prelude.Py Prelude.QBase Model.Base Spec.FloatSpec Spec.NessSpec Proofs.NessLaw.
Open Scope Q_scope.

(** C67, what holds (full statement: finite and in (0,1]). For every sequence of at least two samples with two different
    entries the result is 1 / (1 + 2 (r(1) + ... + r(T))), T being the first even lag with a negative pair r(T-1) + r(T), or the
    last lag if there is none; it is +infinity exactly when this denominator vanishes. *)
Theorem C67_ness_law_partial :
  forall xs d, Forall (fun r => length r = d) xs -> (1 < length xs)%nat ->
  let n := length xs in let x i j := nth j (nth i xs []) 0 in
  (exists i j i' j', (i < n)%nat /\ (j < d)%nat /\ (i' < n)%nat /\ (j' < d)%nat /\ ~ x i j == x i' j') ->
  exists T, last_lag n d x T /\
    (~ 1 + 2 * lag_sum n d x T == 0 -> feqQ (get_NESS xs) (Fin (1 / (1 + 2 * lag_sum n d x T)))) /\
    (1 + 2 * lag_sum n d x T == 0 -> get_NESS xs = PInf).
Proof.
  intros xs d R M n x (i & j & i' & j' & I & J & I' & J' & D). apply (ness_law xs d R M).
  apply (spread_apart _ _ _ i j i' j'); auto.
Qed.
Print Assumptions C67_ness_law_partial.
Example C67_ness_law_partial_example :
  let x i j := nth j (nth i [[0]; [5]; [1]; [4]] []) 0 in
  ~ x 0%nat 0%nat == x 1%nat 0%nat /\ last_lag 4 1 x 3 /\ 1 / (1 + 2 * lag_sum 4 1 x 3) == 17 # 18.
Proof.
  intros x. split; [vm_compute; discriminate|]. split; [|vm_compute; reflexivity].
  repeat split.
  - simpl. lia.
  - intros t H. destruct t as [|[|[|t]]]; [|intros (Z & _); discriminate| |lia].
    + intros (_ & Z & _). lia.
    + intros (_ & _ & Z). vm_compute in Z. discriminate.
  - left. reflexivity.
Qed.

(** C67 is also false for the invariance: shifting one coordinate of all samples changes the result (the code centres all
    coordinates at one common mean). *)
Theorem C67_ness_shift_refuted :
  exists x v a b, (1 < length x)%nat /\ Forall (fun r => length r = length v) x /\
  get_NESS x = Fin a /\ get_NESS (map (fun r => vadd r v) x) = Fin b /\ ~ a == b.
Proof.
  exists [[0; 0]; [5; 1]; [1; 3]; [4; 2]], [0; 9]. eexists. eexists. split; [simpl; lia|]. split; [repeat constructor|].
  split; [vm_compute; reflexivity|]. split; [vm_compute; reflexivity|]. vm_compute. discriminate.
Qed.
Print Assumptions C67_ness_shift_refuted.
