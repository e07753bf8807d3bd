(** Populations of proposals (independent of the samplers). *)
From Coq Require Import List Bool Arith QArith.
Import ListNotations.
Open Scope Q_scope.

Definition total_of (l : list Q) : Q := fold_right Qplus 0 l.

(** d is the density at x of the mixture that gives equal weight to the proposals ms. *)
Definition equal_mixture {M X : Type} (dens : M -> X -> Q) (ms : list M) (x : X) (d : Q) : Prop :=
  d * inject_Z (Z.of_nat (length ms)) == total_of (map (fun m => dens m x) ms).

(** w is the importance weight of x: target density over equal mixture density. *)
Definition mixture_weight {M X : Type} (pi : X -> Q) (dens : M -> X -> Q) (ms : list M) (x : X) (w : Q) : Prop :=
  exists d, equal_mixture dens ms x d /\ 0 < d /\ w * d == pi x.

(** The given non-negative weights, divided by their sum. *)
Definition shares (ws : list Q) (out : list Q) : Prop :=
  length out = length ws /\ Forall (fun w => 0 <= w) out /\ total_of out == 1 /\
  forall i a b, nth_error ws i = Some a -> nth_error out i = Some b -> b * total_of ws == a.

(** One entry per event: whether it is a reset, and a number; the sum of the numbers since the last reset.
    Latest event first. *)
Fixpoint since_reset (h : list (bool * nat)) : nat :=
  match h with
  | [] => 0
  | (true, _) :: _ => 0
  | (false, n) :: r => n + since_reset r
  end.

(** A run of population importance sampling from the proposals [ms]: batches of [size] samples, each weighted
    against the proposals in force, followed by an adaptation allowed by [adapt]. *)
Inductive population_run {M X : Type} (pi : X -> Q) (dens : M -> X -> Q) (size : nat)
          (adapt : list M -> list X -> list Q -> list M -> Prop) : list M -> list X -> list Q -> list M -> Prop :=
| run_end ms : population_run pi dens size adapt ms [] [] ms
| run_batch ms xs ws ms1 xs' ws' ms' :
    length xs = size -> Forall2 (mixture_weight pi dens ms) xs ws -> adapt ms xs ws ms1 ->
    population_run pi dens size adapt ms1 xs' ws' ms' ->
    population_run pi dens size adapt ms (xs ++ xs') (ws ++ ws') ms'.

(** Resampling: every new proposal mean is one of the batch, of positive weight. *)
Definition resampled {X : Type} (ms : list X) (xs : list X) (ws : list Q) (ms' : list X) : Prop :=
  length ms' = length ms /\
  Forall (fun m => exists i w, nth_error xs i = Some m /\ nth_error ws i = Some w /\ 0 < w) ms'.

(** x' is x + d moved to the nearest point of the box, coordinate by coordinate. *)
Fixpoint clipped_move (lo hi x d x' : list Q) : Prop :=
  match lo, hi, x, d, x' with
  | [], [], [], [], [] => True
  | l :: lo, h :: hi, a :: x, b :: d, c :: x' =>
      ((a + b < l /\ c == l) \/ (l <= a + b <= h /\ c == a + b) \/ (h < a + b /\ c == h)) /\ clipped_move lo hi x d x'
  | _, _, _, _, _ => False
  end.

(** Metropolis walk of one mean, driven by displacements and unit draws: the displaced and clipped point is
    taken when its target density exceeds the draw times the present one. *)
Inductive walk (pi : list Q -> Q) (lo hi : list Q) : list (list Q * Q) -> list Q -> list Q -> Prop :=
| walk_end x : walk pi lo hi [] x x
| walk_move d a evs x x' y :
    clipped_move lo hi x d x' -> a * pi x < pi x' -> walk pi lo hi evs x' y -> walk pi lo hi ((d, a) :: evs) x y
| walk_stay d a evs x x' y :
    clipped_move lo hi x d x' -> pi x' <= a * pi x -> walk pi lo hi evs x y -> walk pi lo hi ((d, a) :: evs) x y.

(** Adaptation in which every proposal mean walks for L steps. *)
Definition walked (pi : list Q -> Q) (lo hi : list Q) (L : nat) (ms : list (list Q)) (xs : list (list Q)) (ws : list Q)
           (ms' : list (list Q)) : Prop :=
  Forall2 (fun m m' => exists evs, length evs = L /\ Forall (fun e => 0 <= snd e < 1) evs /\ walk pi lo hi evs m m') ms ms'.
