(** Benchmarks over the rejection sampler and over Metropolis-Hastings. *)
From Coq Require Import String List Bool Arith ZArith Lia QArith.
Import ListNotations.
From Verif Require Import Prelude.Py Prelude.QBase Prelude.QFacts Model.Base Model.Rejection Model.MetropolisHastings
  Model.TableFormat Model.Benchmark Spec.BenchSpec Spec.BenchMethodSpec Proofs.BenchmarkProofs Proofs.BenchmarkTrace
  Proofs.RejectionProofs.
Open Scope list_scope.

(** base.py:37-70 as read by write_results. *)
Definition core_stats (c : core) : res (fl Q * fl Q * nat * nat * nat) :=
  match get_acceptance_rate c with
  | Raise e => Raise e
  | Ok a => Ok (get_NESS (samples c), Fin a, num_q_samples c, num_q_evals c, num_pi_evals c)
  end.

Definition on_object {G A : Type} (g : G) (o : outcome A) : outcome (G * A) :=
  match o with Done a => Done (g, a) | Running a => Running (g, a) | Failed e a => Failed e (g, a) end.

(** The benchmark of one rejection sampler object. The generator state is the number of calls since it
    was seeded; [ev g] are the events (draws, uniforms, clock) of the call made in generator state g. *)
Definition rej_bench (P : rej_params) (target : vec -> Q) (ev : nat -> list rej_round) : bench (nat * core) :=
  object_bench (fun _ => 0%nat) (fun g c => (g, core_reset c))
    (fun n t g c => on_object (S g) (rej_importance_sample P target n t 0 (ev g) (fun i => i) c))
    (fun c => length (samples c)) core_stats (fun _ _ g _ => Ok (g, Fin 0)) "rejection" "target" 1.

(** The same for a Metropolis-Hastings object. *)
Definition mh_bench (P : mh_params) (lp : vec -> fl Q) (ev : nat -> list is_ev) : bench (nat * mh) :=
  object_bench (fun _ => 0%nat) (fun g s => (g, mh_reset s))
    (fun n t g s => on_object (S g) (mh_importance_sample P lp n t (ev g) (fun i => i) s))
    (fun s => length (samples (mh_core s))) (fun s => core_stats (mh_core s)) (fun _ _ g _ => Ok (g, Fin 0))
    "mcmc_mh" "target" 1.

(** ** The rejection sampler that accepts one point and then never again *)
Definition zP : rej_params := mkRej (fun _ => 1) 1 1.
Definition ztarget (x : vec) : Q := if Qeq_bool (nth 0 x 0) 0 then 1 else 0.
Definition zround (x : Q) (clock : Q) : rej_round := mkRound (fun _ => [x]) (fun _ => 1 # 2) clock.
Definition zev (g : nat) : list rej_round := match g with O => [zround 0 1] | _ => [zround 1 700] end.
Definition zB := rej_bench zP ztarget zev.
Definition zC : config := mkConfig 2 1 600 1 0 [] true.
Definition zw : nat * core := (0%nat, core_init).

Definition zInv (s : bstate (nat * core)) : Prop :=
  bs_len s = 1%nat /\ exists g k a b w m d, bs_w s = (S g, mkCore [[0]] [w] (S k) a b m d).

Lemma z_turn : forall s, zInv s -> exists s', bench_turn zB zC (bs_len s + c_batch zC) s = Done s' /\ zInv s'.
Proof.
  intros [w l rows calls] (L & g & k & a & b & wt & m & d & Ew). cbn in L, Ew. subst l w.
  eexists. split.
  - cbv [bench_turn zB rej_bench object_bench zC c_metrics instances each b_pre b_call b_len bs_len c_batch c_time bs_w fst snd
         rej_importance_sample rej_loop zev zP rj_kde]. cbv [b_call]. cbn. reflexivity.
  - split; [reflexivity|]. cbn. eexists _, _, _, _, _, _, _. rewrite Nat.add_comm. reflexivity.
Qed.

Lemma z_forever : forall fuel, exists s', evaluate_method fuel zB zC (mkB zw 0 [] []) = Running s' /\
  length (ghost_calls s') = fuel /\ Forall (fun c => snd (fst c) = 600) (ghost_calls s').
Proof.
  intros [|f].
  - eexists. split; [vm_compute; reflexivity|]. split; [reflexivity | constructor].
  - unfold evaluate_method. cbv zeta. change (0 <=? c_seedv zC)%Z with true. cbv iota.
    cbn [c_reps zC bench_reps]. unfold bench_rep. cbv zeta. cbn [c_metrics zC instances each].
    match goal with |- context [bench_loop (S f) zB ?C ?n ?x] => set (s0 := x); set (n0 := n) end.
    cbn [bench_loop]. change (bs_len s0 <? c_max zC)%nat with true. cbv iota.
    set (t1 := bench_turn zB _ n0 s0).
    assert (E : exists s1, t1 = Done s1 /\ zInv s1 /\ ghost_calls s1 = [(1%nat, 600, 1%nat)]).
    { eexists. split; [vm_compute; reflexivity|]. split; [|reflexivity].
      split; [reflexivity|]. eexists _, _, _, _, _, _, _. reflexivity. }
    destruct E as (s1 & E & I1 & K1). rewrite E. change (Qltb (c_time zC) 0) with false. cbv iota.
    destruct (loop_forever zB zC zInv) with (fuel := f) (s := s1) as (s' & R & I' & L); try assumption.
    + discriminate.
    + intros s (H & _). rewrite H. cbn. lia.
    + exact z_turn.
    + rewrite R. exists s'. split; [reflexivity|]. split; [rewrite L, K1; reflexivity|].
      assert (A : forall fuel n s s', Forall (fun c => snd (fst c) = 600) (ghost_calls s) ->
                  bench_loop fuel zB zC n s = Running s' -> Forall (fun c => snd (fst c) = 600) (ghost_calls s')).
      { clear. induction fuel as [|f IH]; intros n s s' F H; cbn [bench_loop] in H.
        - destruct (bs_len s <? c_max zC)%nat; [|discriminate]. injection H as <-. exact F.
        - destruct (bs_len s <? c_max zC)%nat; [|discriminate]. destruct (bench_turn zB zC n s) as [s1|s1|e s1] eqn:E; try discriminate.
          + destruct (turn_done _ _ _ _ _ E) as (K & _). change (Qltb (c_time zC) 0) with false in H. cbv iota in H.
            apply (IH _ _ _) with (2 := H). rewrite K. apply Forall_app. split; [exact F|]. constructor; [reflexivity|constructor].
          + injection H as <-. unfold bench_turn in E. cbv zeta in E.
            destruct (b_call zB n (c_time zC) _) as [w2|w2|e w2]; try discriminate.
            * destruct (compute_all zB 0 _ _ []) as [[w4 d]|e]; [|discriminate].
              destruct (c_file zC); [|discriminate]. destruct (make_row zB d (b_len zB w2) w4); discriminate.
            * injection E as <-. exact F. }
      refine (A _ _ _ _ _ R). rewrite K1. constructor; [reflexivity|constructor].
Qed.

(** ** The rejection sampler with events that accept everything *)
Definition yev (g : nat) : list rej_round := [zround 0 1].
Definition yB := rej_bench zP ztarget yev.
Definition yC : config := mkConfig 2 1 600 2 3 ["JSD"; "T"]%string true.

Lemma rej_bench_ok : forall P target ev, (forall x, 0 <= rj_q P x * rj_scaling P) ->
  metrics_keep (rej_bench P target ev) /\ reset_empties (rej_bench P target ev) /\
  forall t, calls_satisfy (rej_bench P target ev) t keeps.
Proof.
  intros P target ev Hq. split; [|split].
  - repeat split. cbn. intros i k [g c] w' v H. now injection H as <- _.
  - intros [g c]. reflexivity.
  - intros t n [g c] [g' c'] H. cbn in *. unfold keeps.
    destruct (rej_importance_sample P target n t 0 (ev g) (fun i => i) c) as [c1|c1|e c1] eqn:E; try discriminate.
    injection H as _ <-. unfold rej_importance_sample in E.
    destruct (rej_loop P target n t (ev g) 0 c) as [c2|c2|e c2] eqn:E2; try discriminate.
    destruct (rej_loop_spec P target n t (ev g) 0 c c2 Hq E2) as (used & rest & _ & _ & L & _).
    unfold rej_finish in E. destruct (update_model _ _ _); [|discriminate]. injection E as <-. cbn. lia.
Qed.

Lemma y_delivers : calls_satisfy yB 600 delivers /\ calls_satisfy yB 600 gains /\ never_hangs yB 600.
Proof.
  assert (A : forall k, rej_accepted zP ztarget (zround 0 1) k = repeat [0] k).
  { intros k. unfold rej_accepted. cbn [rr_draw zround rr_u].
    assert (F : forall l : list nat, filter (fun _ => fgtQ (rej_ratio zP ztarget [0]) (1 # 2)) l = l).
    { induction l as [|x l IH]; [reflexivity|]. cbn [filter]. rewrite IH. reflexivity. }
    rewrite F. rewrite map_const_repeat, seq_length. reflexivity. }
  assert (Z : forall n (c : core), exists c', rej_loop zP ztarget n 600 (yev 0) 0 c = Done c' /\
     length (samples c') = Nat.max n (length (samples c))).
  { intros n c. cbn [rej_loop yev]. change (Qltb 0 600) with true. change (Qltb (rr_clock (zround 0 1)) 600) with true.
    cbn [andb]. destruct (length (samples c) <? n)%nat eqn:G.
    - apply Nat.ltb_lt in G.
      assert (L : length (samples (rej_iter zP ztarget n c (zround 0 1))) = n).
      { unfold rej_iter. cbn [samples]. rewrite app_length, A, repeat_length. lia. }
      rewrite L, Nat.ltb_irrefl. eexists. split; [reflexivity|]. rewrite L. lia.
    - apply Nat.ltb_ge in G. exists c. split; [reflexivity|]. lia. }
  assert (D : calls_satisfy yB 600 delivers).
  { intros n [g c] [g' c'] H.
    change (on_object (S g) (rej_importance_sample zP ztarget n 600 0 (yev 0) (fun i => i) c) = Done (g', c')) in H.
    change (length (samples c') = Nat.max n (length (samples c))).
    unfold rej_importance_sample in H. destruct (Z n c) as (c1 & E & L). rewrite E in H.
    unfold rej_finish in H. destruct (update_model _ _ _); [|discriminate]. injection H as _ <-. exact L. }
  split; [exact D|]. split.
  - intros n w w' H. specialize (D n w w' H). unfold delivers in D. unfold gains. lia.
  - intros n [g c] [g' c'] H.
    change (on_object (S g) (rej_importance_sample zP ztarget n 600 0 (yev 0) (fun i => i) c) = Running (g', c')) in H.
    unfold rej_importance_sample in H. destruct (Z n c) as (c1 & E & L). rewrite E in H.
    unfold rej_finish in H. destruct (update_model _ _ _); discriminate.
Qed.

(** ** Metropolis-Hastings: two evaluations with the same seed *)
Definition xP : mh_params := mkMH [-10] [10] 1 0 1 (fun _ => Fin 0).
Definition xlp (x : vec) : fl Q :=
  let v := nth 0 x 0 in if Qeq_bool v 0 then Fin 0 else if Qeq_bool v 1 then Fin 1 else Fin (-2).
Definition xev (g : nat) : list is_ev :=
  [mkIs [mkStep 0 [mkAttempt [1] (Fin (-1)) 0; mkAttempt [-1] (Fin (-2)) 0]] 0].
Definition xB := mh_bench xP xlp xev.
Definition xC : config := mkConfig 1 1 600 1 7 [] true.
Definition xw : nat * mh := (0%nat, mh_new [0]).

Lemma x_differs : exists s1 s2, evaluate_method 1 xB xC (mkB xw 0 [] []) = Done s1 /\
  evaluate_method 1 xB xC (mkB (bs_w s1) 0 [] []) = Done s2 /\ map r_pi (bs_rows s1) = [2%nat] /\ map r_pi (bs_rows s2) = [4%nat].
Proof.
  eexists _, _. split; [vm_compute; reflexivity|]. split; [vm_compute; reflexivity|]. split; reflexivity.
Qed.

(** ** Runs whose table does not match its header *)
Definition vround : rej_round :=
  mkRound (fun k => match k with O => [0] | S O => [1] | _ => [2001 # 1000] end) (fun _ => 1 # 2) 1.
Definition vB (mname : string) : bench (nat * core) :=
  object_bench (fun _ => 0%nat) (fun g c => (g, core_reset c))
    (fun n t g c => on_object (S g) (rej_importance_sample zP (fun _ => 1) n t 0 [vround] (fun i => i) c))
    (fun c => length (samples c)) core_stats (fun _ _ g _ => Ok (g, Fin (1 # 4))) mname "gmm" 1.
Definition vjob (mname : string) (n : nat) : job (nat * core) := mkJob (fun w => w) (vB mname) n n.
Definition vrun (ms : list string) (mname : string) (n : nat) := run 1 ms 600 1 0 [vjob mname n] zw.
