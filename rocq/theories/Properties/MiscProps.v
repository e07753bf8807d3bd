(** C60 (time formatting) and C62 (random targets). *)
From Coq Require Import List Bool Arith Lia ZArith QArith Lqa.
Import ListNotations.
From Verif Require Import Prelude.Py Prelude.QBase Model.Base Model.Misc Spec.Box Spec.GridSpec Spec.TargetSpec Proofs.MiscProofs.
Open Scope Q_scope.

(** For every time the result is a clock reading of it: whole hours and minutes, 0 <= m < 60 and
    0 <= s < 60, adding up to the time. *)
Theorem C60_hms_reading : forall t,
  exists h m : Z, exists hq mq s, time_to_hms t = (hq, mq, s) /\
    hq == inject_Z h /\ mq == inject_Z m /\ clock_reading t h m s /\ (0 <= t -> (0 <= h)%Z).
Proof.
  intros t. pose proof (hms_decomposition t) as D. destruct (time_to_hms t) as [[h m] s].
  destruct D as (H & M & E1 & E2 & R & S & E & P). exists H, M, h, m, s.
  split; [reflexivity|]. split; [assumption|]. split; [assumption|]. split; [|assumption].
  split; [assumption|]. split; [assumption|]. rewrite <- E1, <- E2. exact E.
Qed.

(** It is the only one: any clock reading of the time is what the function returns. *)
Theorem C60_hms_unique : forall t h m s, clock_reading t h m s ->
  exists hq mq sq, time_to_hms t = (hq, mq, sq) /\ hq == inject_Z h /\ mq == inject_Z m /\ sq == s.
Proof.
  intros t h m s (A & B & C). pose proof (hms_unique t h m s A B C) as U.
  destruct (time_to_hms t) as [[h' m'] s']. exists h', m', s'. split; [reflexivity|exact U].
Qed.

Example C60_example : clock_reading (14769#2) 2 3 (9#2).
Proof. split; [lia|]. split; [lra|]. vm_compute. reflexivity. Qed.

(** With deviations of the dimension of the space and room for ten of them the generated target has
    the asked number of components, deviations between the bounds, means at least five deviations
    inside the space, weights that are non-negative and sum to one, and a support that lies in the
    space and contains every mean. *)
Theorem C62_random_gmm_partial : forall lo hi smin smax draws raw,
  room lo hi smax -> is_box smin smax -> Forall (fun a => 0 <= a) smin ->
  draws <> [] -> Forall (fun d => unit_draws (fst d) /\ unit_draws (snd d)) draws ->
  length raw = length draws -> Forall (fun w => 0 <= w) raw -> 0 < Qsum raw ->
  exists g, generateRandomGMM lo hi smin smax draws raw = Ok g /\
    length (g_means g) = length draws /\ length (g_sigmas g) = length draws /\ length (g_weights g) = length draws /\
    Forall2 (fun m s => in_box smin smax s /\ in_box (inset_lo lo s) (inset_hi hi s) m) (g_means g) (g_sigmas g) /\
    Forall (fun w => 0 <= w) (g_weights g) /\ Qsum (g_weights g) == 1 /\
    in_box lo hi (g_smin g) /\ in_box lo hi (g_smax g) /\
    Forall (in_box (g_smin g) (g_smax g)) (g_means g).
Proof. exact random_gmm. Qed.

Example C62_random_gmm_example :
  room [0; -(1)] [1; 1] [1#20; 1#10] /\ is_box [1#25; 0] [1#20; 1#10] /\ Forall (fun a => 0 <= a) [1#25; 0] /\
  [((fun _ => 0), (fun _ => 1#2)); ((fun _ => 1#3), (fun _ => 0))] <> (@nil ((nat -> Q) * (nat -> Q))) /\
  0 < Qsum [1#2; 1#7].
Proof. exact room_example. Qed.

(** The full claim asks this of every call whose space is a box. It fails: with the default
    deviations a one-dimensional space gets a target whose means have another dimension. *)
Theorem C62_default_sigma_refuted :
  exists lo hi g, is_box lo hi /\ (forall l h, In (l, h) (combine lo hi) -> l + 1 <= h) /\
    generateRandomGMM lo hi default_sigma_min default_sigma_max [((fun _ => 0), (fun _ => 1#2))] [1] = Ok g /\
    Forall (fun m => length m <> length lo) (g_means g).
Proof.
  destruct default_sigma_1d as (g & E & F). exists [0], [1], g. split; [simpl; lra|]. split; [|auto].
  intros l h [H|[]]. inversion H. subst. lra.
Qed.

(** ... and a two-dimensional one always an error. *)
Theorem C62_default_sigma_2d_refuted : forall lo hi draws raw,
  length lo = 2%nat -> length hi = 2%nat -> draws <> [] ->
  generateRandomGMM lo hi default_sigma_min default_sigma_max draws raw = Raise ValueError.
Proof. intros; now apply default_sigma_2d. Qed.

Example C62_default_sigma_2d_example : length [0; 0] = 2%nat /\ length [1; 1] = 2%nat /\
  [((fun _ => 0), (fun _ => 1#2))] <> (@nil ((nat -> Q) * (nat -> Q))).
Proof. repeat split. discriminate. Qed.

(** Without room for ten deviations a mean can fall outside the space. *)
Theorem C62_room_refuted :
  exists lo hi smin smax draws raw g m,
    is_box lo hi /\ is_box smin smax /\ length smin = length lo /\ Forall (fun a => 0 < a) smin /\
    Forall (fun d => unit_draws (fst d) /\ unit_draws (snd d)) draws /\
    Forall (fun w => 0 <= w) raw /\ 0 < Qsum raw /\
    generateRandomGMM lo hi smin smax draws raw = Ok g /\ In m (g_means g) /\ ~ in_box lo hi m.
Proof. exact no_room_refuted. Qed.

(** The egg box target: one component per grid point, all inside the space and, if the space is
    non-degenerate, distinct; equal positive weights summing to one; the support contains the means. *)
Theorem C62_eggbox : forall lo hi delta sigma, is_box lo hi -> 0 < delta -> 0 <= sigma ->
  exists g, generateEggBoxGMM lo hi delta sigma = Ok g /\
    length (g_means g) = nprod (map2 (fun l h => Z.to_nat (points_along (h - l) delta)) lo hi) /\
    length (g_sigmas g) = length (g_means g) /\ length (g_weights g) = length (g_means g) /\
    Forall (in_box lo hi) (g_means g) /\ (strictly_below lo hi -> NoDup (g_means g)) /\
    Qsum (g_weights g) == 1 /\ Forall (fun w => 0 < w) (g_weights g) /\
    Forall (in_box (g_smin g) (g_smax g)) (g_means g).
Proof. exact eggbox. Qed.

Example C62_eggbox_example : is_box [0; -(1)] [1; 1] /\ 0 < (1#4) /\ 0 <= (1#100).
Proof. simpl. lra. Qed.

Print Assumptions C60_hms_reading.
Print Assumptions C60_hms_unique.
Print Assumptions C62_random_gmm_partial.
Print Assumptions C62_default_sigma_refuted.
Print Assumptions C62_default_sigma_2d_refuted.
Print Assumptions C62_room_refuted.
Print Assumptions C62_eggbox.
