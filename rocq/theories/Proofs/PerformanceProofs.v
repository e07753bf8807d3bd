(** Lemmas about the time and memory metrics. *)
From Coq Require Import List Bool Arith Lia QArith Lqa.
Import ListNotations.
From Verif Require Import Prelude.Py Prelude.QBase Prelude.QFacts Model.Performance Spec.BracketSpec.
Open Scope Q_scope.

Lemma et_run_app m a b : et_run m (a ++ b) = et_run (et_run m a) b.
Proof. unfold et_run. apply fold_left_app. Qed.
Lemma mem_run_app m a b : mem_run m (a ++ b) = mem_run (mem_run m a) b.
Proof. unfold mem_run. apply fold_left_app. Qed.

Lemma et_overhead os : forall m, e_overhead (et_run m os) = e_overhead m.
Proof. induction os as [|o os IH]; intros m; auto. simpl. rewrite IH. destruct o; reflexivity. Qed.

Lemma et_computes m k : et_run m (repeat MCompute k) = m.
Proof. induction k; simpl; auto. Qed.
Lemma mem_computes m k : mem_run m (repeat MCompute k) = m.
Proof. induction k; simpl; auto. Qed.

Definition total (o : Q) (ps : list (Q * Q)) : Q := Qsum (map (fun ab => snd ab - fst ab - o) ps).

Lemma et_bracketed ops ps : bracketed ops ps -> forall m,
  e_value (et_run m ops) == e_value m + total (e_overhead m) ps.
Proof.
  unfold total. induction 1 as [|ops ps H IH|a b k ops ps H IH]; intros m; cbn [map Qsum].
  - simpl. lra.
  - simpl. apply IH.
  - change (MPre a :: repeat MCompute k ++ MPost b :: ops) with ([MPre a] ++ repeat MCompute k ++ [MPost b] ++ ops).
    rewrite !et_run_app, et_computes, IH. cbn [et_run fold_left et_step e_value e_ini e_overhead fst snd].
    lra.
Qed.

Lemma elapsed_total m h ops ps : bracketed ops ps ->
  et_compute (et_run m (h ++ MReset :: ops)) == Qsum (map (fun ab => snd ab - fst ab - e_overhead m) ps).
Proof.
  intros H. change (MReset :: ops) with ([MReset] ++ ops). rewrite !et_run_app.
  unfold et_compute. rewrite (et_bracketed ops ps H). cbn [et_run fold_left et_step e_value e_overhead].
  change (fold_left et_step h m) with (et_run m h). rewrite et_overhead. unfold total. lra.
Qed.

Lemma et_cal abs : forall m, e_overhead m = 0 -> e_value m = 0 ->
  e_value (fst (et_cal_loop m abs)) = 0 /\
  length (snd (et_cal_loop m abs)) = length abs /\
  Qsum (snd (et_cal_loop m abs)) == Qsum (map (fun ab => snd ab - fst ab) abs).
Proof.
  induction abs as [|[a b] abs IH]; intros m H0 H1; cbn [et_cal_loop].
  - simpl. repeat split; auto; lra.
  - unfold et_calibrate.
    set (m1 := et_step (et_step (et_step m (MPre (fst (a, b)))) (MPost (snd (a, b)))) MReset).
    assert (E0 : e_overhead m1 = 0) by (unfold m1; simpl; auto).
    assert (E1 : e_value m1 = 0) by reflexivity.
    specialize (IH m1 E0 E1). destruct (et_cal_loop m1 abs) as [m2 vs]. cbn [fst snd] in *.
    destruct IH as (I1 & I2 & I3). split; auto. split; [simpl; auto|].
    cbn [Qsum map fst snd]. rewrite I3. unfold et_compute. simpl. rewrite H0, H1. lra.
Qed.

Lemma elapsed_new abs delta : abs <> [] ->
  et_compute (et_new abs delta) == 0 /\
  e_overhead (et_new abs delta) == Qsum (map (fun ab => snd ab - fst ab) abs) / Qnat (length abs) - delta.
Proof.
  intros N. unfold et_new. pose proof (et_cal abs (mkE 0 0 0 0) eq_refl eq_refl) as (I1 & I2 & I3).
  destruct (et_cal_loop (mkE 0 0 0 0) abs) as [m vs]. cbn [fst snd] in *. unfold et_compute. cbn [e_value e_overhead].
  rewrite I1, I2, I3. split; reflexivity.
Qed.

Lemma mem_bracketed ops ps : bracketed ops ps -> forall m,
  m_cum (mem_run m ops) == m_cum m + total 0 ps /\
  (ps <> [] -> m_value (mem_run m ops) == (m_cum m + total 0 ps) / 1000000) /\
  (ps = [] -> m_value (mem_run m ops) = m_value m).
Proof.
  unfold total. induction 1 as [|ops ps H IH|a b k ops ps H IH]; intros m; cbn [map Qsum].
  - simpl. split; [lra|]. split; [congruence|auto].
  - simpl. apply IH.
  - change (MPre a :: repeat MCompute k ++ MPost b :: ops) with ([MPre a] ++ repeat MCompute k ++ [MPost b] ++ ops).
    rewrite !mem_run_app, mem_computes.
    set (m1 := mem_run (mem_run m [MPre a]) [MPost b]).
    assert (C : m_cum m1 = m_cum m + (b - a)) by reflexivity.
    assert (V : m_value m1 = (m_cum m + (b - a)) / 1000000) by reflexivity.
    destruct (IH m1) as (I1 & I2 & I3). rewrite I1, C. cbn [fst snd]. split; [lra|]. split; [|discriminate].
    intros _. destruct ps as [|p ps].
    + rewrite (I3 eq_refl), V. simpl. field.
    + rewrite I2 by discriminate. rewrite C. field.
Qed.

Lemma memory_total m h ops ps : bracketed ops ps -> ps <> [] ->
  mem_compute (mem_run m (h ++ MReset :: ops)) == Qsum (map (fun ab => snd ab - fst ab) ps) / 1000000.
Proof.
  intros H N. change (MReset :: ops) with ([MReset] ++ ops). rewrite !mem_run_app.
  unfold mem_compute. destruct (mem_bracketed ops ps H (mem_run (mem_run m h) [MReset])) as (_ & I & _).
  rewrite I by auto. cbn [mem_run fold_left mem_step m_cum]. unfold total.
  assert (E : Qsum (map (fun ab => snd ab - fst ab - 0) ps) == Qsum (map (fun ab => snd ab - fst ab) ps)).
  { clear. induction ps; simpl; lra. }
  rewrite E. field.
Qed.

Lemma memory_reset_refuted :
  exists h1 h2, ~ mem_compute (mem_run mem_new (h1 ++ [MReset])) == mem_compute (mem_run mem_new (h2 ++ [MReset])).
Proof. exists [MPre 0; MPost 1000000], []. vm_compute. discriminate. Qed.

Lemma bracketed_example : bracketed [MCompute; MPre 3; MCompute; MPost 5; MPre 7; MPost 8; MCompute] [(3, 5); (7, 8)].
Proof.
  constructor. apply (br_pair 3 5 1). apply (br_pair 7 8 0). constructor. constructor.
Qed.
