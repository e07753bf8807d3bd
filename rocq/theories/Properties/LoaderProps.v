(** C83, C84: loading benchmarks and methods, and the boxes methods are built with. *)
From Coq Require Import String.
From Coq Require Import List Bool Arith Lia QArith Qabs Lqa.
Import ListNotations.
From Verif Require Import Prelude.Py Prelude.QBase Prelude.QFacts Model.Loader Spec.LoaderSpec.
Open Scope Q_scope.

(** The benchmark object after any history of calls, failed ones included. *)
Definition bench_after (text : vec -> vec) (ops : list bop) : bench := fold_left (bdo text) ops bench_new.

(** The entries of the benchmark file read last (none if it could not be read). *)
Definition last_entries (ops : list bop) : list tentry :=
  fold_left (fun es o => match o with
    | OpBenchmark f | OpRun f _ => match f with Ok es' => es' | Raise _ => [] end
    | OpMethods _ _ _ _ => es end) ops [].

(** An entry that has everything. *)
Definition complete (e : tentry) (t : tdist) (nm : string) (n v s : nat) : Prop :=
  te_nsamples e = Some n /\ te_eval e = Some v /\ te_batch e = Some s /\ te_dist e = Some (Ok t) /\ te_name e = Some nm.

(** Target number i of the object goes with entry number i and has that entry's numbers beside it. *)
Definition aligned (es : list tentry) (b : bench) : Prop :=
  (length (b_targets b) <= length es)%nat /\
  length (b_ndims b) = length (b_targets b) /\
  (length (b_targets b) <= length (b_batch b) <= length (b_eval b))%nat /\
  (length (b_eval b) <= length (b_nsamples b) <= S (length (b_targets b)))%nat /\
  forall i t nm, nth_error (b_targets b) i = Some (t, nm) -> exists e n v s, nth_error es i = Some e /\ complete e t nm n v s /\
    nth_error (b_ndims b) i = Some (td_dims t) /\ nth_error (b_nsamples b) i = Some n /\ nth_error (b_eval b) i = Some v /\
    nth_error (b_batch b) i = Some s.

(** Everything of the entries was loaded. *)
Definition loaded (es : list tentry) (b : bench) : Prop :=
  aligned es b /\ length (b_targets b) = length es /\ length (b_nsamples b) = length es.

Lemma nth_app_some {A} (l m : list A) i x : nth_error l i = Some x -> nth_error (l ++ m) i = Some x.
Proof. intros H. rewrite nth_error_app1; [exact H|]. apply nth_error_Some. congruence. Qed.

Lemma add_target_spec pre e b : loaded pre b ->
  match add_target e b with
  | Done b' => loaded (pre ++ [e]) b' /\ (exists t nm n v s, complete e t nm n v s) /\ b_methods b' = b_methods b
  | Failed x b' => aligned pre b' /\ (x = KeyError \/ x = ValueError) /\ (forall t nm n v s, ~ complete e t nm n v s) /\ b_methods b' = b_methods b
  | Running _ => False
  end.
Proof.
  intros [(L & N & B & E & A) [LT LN]]. unfold add_target, complete.
  assert (AL : forall n1 v1 s1, (length s1 <= length v1 <= length n1)%nat -> (length n1 <= 1)%nat ->
    aligned pre (mkBench (b_targets b) (b_ndims b) (b_nsamples b ++ n1) (b_eval b ++ v1) (b_batch b ++ s1) (b_methods b))).
  { intros n1 v1 s1 L1 L2. unfold aligned. cbn [b_targets b_ndims b_nsamples b_eval b_batch]. rewrite !app_length.
    split; [exact L|]. split; [exact N|]. split; [lia|]. split; [lia|].
    intros i t nm H. destruct (A i t nm H) as (e' & n & v & s & H1 & H2 & H3 & H4 & H5 & H6).
    exists e', n, v, s. split; [exact H1|]. split; [exact H2|]. split; [exact H3|]. split; [now apply nth_app_some|]. split; now apply nth_app_some. }
  destruct (te_nsamples e) as [n|] eqn:En.
  2:{ split; [|split; [now left|split; [intros; intros [H _]; discriminate|reflexivity]]].
      specialize (AL [] [] []). rewrite !app_nil_r in AL. destruct b; apply AL; simpl; lia. }
  destruct (te_eval e) as [v|] eqn:Ev.
  2:{ split; [|split; [now left|split; [intros; intros (_ & H & _); discriminate|reflexivity]]].
      specialize (AL [n] [] []). rewrite !app_nil_r in AL. apply AL; simpl; lia. }
  destruct (te_batch e) as [s|] eqn:Es.
  2:{ split; [|split; [now left|split; [intros; intros (_ & _ & H & _); discriminate|reflexivity]]].
      specialize (AL [n] [v] []). rewrite !app_nil_r in AL. apply AL; simpl; lia. }
  cbn [b_targets b_ndims b_nsamples b_eval b_batch b_methods].
  destruct (te_dist e) as [[t|x]|] eqn:Ed.
  - destruct (te_name e) as [nm|] eqn:Em.
    + split; [|split; [exists t, nm, n, v, s; auto|reflexivity]].
      split; [|cbn [b_targets b_nsamples]; rewrite !app_length; simpl; lia].
      unfold aligned. cbn [b_targets b_ndims b_nsamples b_eval b_batch]. rewrite !app_length. simpl.
      split; [lia|]. split; [lia|]. split; [lia|]. split; [lia|].
      intros i t' nm' H. destruct (Nat.lt_ge_cases i (length (b_targets b))) as [I|I].
      * rewrite nth_error_app1 in H by exact I. destruct (A i t' nm' H) as (e' & n' & v' & s' & H1 & H2 & H3 & H4 & H5 & H6).
        exists e', n', v', s'. split; [now apply nth_app_some|]. split; [exact H2|].
        split; [now apply nth_app_some|]. split; [now apply nth_app_some|]. split; now apply nth_app_some.
      * rewrite nth_error_app2 in H by exact I. destruct (i - length (b_targets b))%nat as [|k] eqn:K; [|destruct k; discriminate].
        simpl in H. inversion H; subst t' nm'. assert (i = length (b_targets b)) by lia. subst i.
        assert (X : forall (Z : Type) (l : list Z) z, length l = length (b_targets b) -> nth_error (l ++ [z]) (length (b_targets b)) = Some z).
        { intros Z l z E'. rewrite <- E', nth_error_app2 by lia. now rewrite Nat.sub_diag. }
        exists e, n, v, s. split; [apply X; lia|]. split; [unfold complete; auto|]. split; [now apply X|]. split; [apply X; lia|]. split; apply X; lia.
    + split; [|split; [now left|split; [intros; intros (_ & _ & _ & _ & H); discriminate|reflexivity]]]. apply (AL [n] [v] [s]); simpl; lia.
  - split; [|split; [now right|split; [intros; intros (_ & _ & _ & H & _); discriminate|reflexivity]]]. apply (AL [n] [v] [s]); simpl; lia.
  - split; [|split; [now left|split; [intros; intros (_ & _ & _ & H & _); discriminate|reflexivity]]]. apply (AL [n] [v] [s]); simpl; lia.
Qed.

Lemma aligned_more pre es b : aligned pre b -> aligned (pre ++ es) b.
Proof.
  intros (L & N & B & E & A). unfold aligned. rewrite app_length. split; [lia|]. split; [exact N|]. split; [exact B|]. split; [exact E|].
  intros i t nm H. destruct (A i t nm H) as (e & n & v & s & H1 & H2). exists e, n, v, s. split; [now apply nth_app_some|exact H2].
Qed.

Lemma add_targets_spec es : forall pre b, loaded pre b ->
  match add_targets es b with
  | Done b' => loaded (pre ++ es) b' /\ Forall (fun e => exists t nm n v s, complete e t nm n v s) es /\ b_methods b' = b_methods b
  | Failed x b' => aligned (pre ++ es) b' /\ (x = KeyError \/ x = ValueError) /\
      (exists e, In e es /\ forall t nm n v s, ~ complete e t nm n v s) /\ b_methods b' = b_methods b
  | Running _ => False
  end.
Proof.
  induction es as [|e es IH]; intros pre b H; simpl.
  - rewrite app_nil_r. split; [exact H|]. split; [constructor|reflexivity].
  - pose proof (add_target_spec pre e b H) as S1. destruct (add_target e b) as [b1|b1|x b1]; [|contradiction|].
    + destruct S1 as (L1 & C1 & M1). specialize (IH _ _ L1). rewrite <- app_assoc in IH. simpl in IH.
      destruct (add_targets es b1) as [b2|b2|x b2]; [|contradiction|].
      * destruct IH as (L2 & C2 & M2). split; [exact L2|]. split; [now constructor|congruence].
      * destruct IH as (L2 & X2 & (e' & I & N) & M2). split; [exact L2|]. split; [exact X2|]. split; [exists e'; split; [now right|exact N]|congruence].
    + destruct S1 as (A1 & X1 & N1 & M1). split; [now apply aligned_more|]. split; [exact X1|]. split; [exists e; split; [now left|exact N1]|exact M1].
Qed.

Lemma loaded_nil ms : loaded [] (mkBench [] [] [] [] [] ms).
Proof.
  split; [|split; reflexivity]. unfold aligned. simpl. repeat (split; [lia|]). intros i t nm H. destruct i; discriminate.
Qed.

Lemma load_benchmark_spec f b :
  match load_benchmark f b with
  | Done b' => exists es, f = Ok es /\ loaded es b' /\ Forall (fun e => exists t nm n v s, complete e t nm n v s) es
  | Failed x b' => aligned (match f with Ok es => es | Raise _ => [] end) b' /\
      (f = Raise x \/ exists es, f = Ok es /\ (x = KeyError \/ x = ValueError) /\ exists e, In e es /\ forall t nm n v s, ~ complete e t nm n v s)
  | Running _ => False
  end.
Proof.
  unfold load_benchmark. destruct f as [es|x].
  - pose proof (add_targets_spec es [] _ (loaded_nil (b_methods b))) as H. simpl in H.
    destruct (add_targets es _) as [b'|b'|x b']; [|exact H|].
    + destruct H as (L & C & _). eauto.
    + destruct H as (A & X & E & _). split; [exact A|]. right. eauto.
  - split; [|now left]. apply (loaded_nil (b_methods b)).
Qed.

(** load_methods touches the methods only. *)
Definition same_targets (a b : bench) : Prop :=
  b_targets a = b_targets b /\ b_ndims a = b_ndims b /\ b_nsamples a = b_nsamples b /\ b_eval a = b_eval b /\ b_batch a = b_batch b.

(** A method entry that gives an object for a box and a dimension. *)
Definition buildable (text : vec -> vec) (lo hi : vec) (d : nat) (m : mentry) (o : meth) : Prop :=
  exists build nm dbg, mn_build m = Some build /\ build (text lo) (text hi) d = None /\ mn_name m = Some nm /\ mn_debug m = Some dbg /\
    o = mkMeth (mn_id m) (text lo) (text hi) d nm dbg.

Lemma add_methods_spec text lo hi d ms : forall b,
  match add_methods text lo hi d ms b with
  | Done b' => same_targets b' b /\ exists os, Forall2 (buildable text lo hi d) ms os /\ b_methods b' = b_methods b ++ os
  | Failed x b' => same_targets b' b /\ exists m, In m ms /\ forall o, ~ buildable text lo hi d m o
  | Running _ => False
  end.
Proof.
  induction ms as [|m ms IH]; intros b; simpl.
  - split; [repeat split|]. exists []. rewrite app_nil_r. auto.
  - unfold add_method. destruct (mn_build m) as [bd|] eqn:Eb.
    2:{ split; [repeat split|]. exists m. split; [now left|]. intros o (x & nm & dbg & H & _). congruence. }
    destruct (bd (text lo) (text hi) d) as [x|] eqn:Ex.
    1:{ split; [repeat split|]. exists m. split; [now left|]. intros o (y & nm & dbg & H & K & _). congruence. }
    destruct (mn_name m) as [nm|] eqn:En.
    2:{ split; [repeat split|]. exists m. split; [now left|]. intros o (y & nm & dbg & H & K & H1 & _). congruence. }
    destruct (mn_debug m) as [dbg|] eqn:Ed.
    2:{ split; [repeat split|]. exists m. split; [now left|]. intros o (y & nm' & dbg & H & K & H1 & H2 & _). congruence. }
    match goal with |- context [add_methods _ _ _ _ _ ?X] => specialize (IH X) end.
    destruct (add_methods text lo hi d ms _) as [b'|b'|x b']; [|exact IH|].
    + destruct IH as (S1 & os & F & M). split; [exact S1|]. exists (mkMeth (mn_id m) (text lo) (text hi) d nm dbg :: os). split.
      * constructor; [|exact F]. exists bd, nm, dbg. auto.
      * rewrite M. cbn [b_methods]. now rewrite <- app_assoc.
    + destruct IH as (S1 & m' & I & N). split; [exact S1|]. exists m'. split; [now right|exact N].
Qed.

Lemma load_methods_spec text f lo hi d b :
  match load_methods text f lo hi d b with
  | Done b' => same_targets b' b /\ exists ms, f = Ok ms /\ Forall2 (buildable text lo hi d) ms (b_methods b')
  | Failed x b' => same_targets b' b
  | Running _ => False
  end.
Proof.
  unfold load_methods. destruct f as [ms|x]; [|repeat split].
  match goal with |- context [add_methods _ _ _ _ _ ?X] => pose proof (add_methods_spec text lo hi d ms X) as H end.
  destruct (add_methods text lo hi d ms _) as [b'|b'|x b']; [|exact H|].
  - destruct H as (S1 & os & F & M). simpl in M. split; [exact S1|]. exists ms. split; [reflexivity|]. rewrite M. exact F.
  - apply H.
Qed.

Lemma same_aligned es a b : same_targets a b -> aligned es b -> aligned es a.
Proof. intros (A & B & C & D & E) H. unfold aligned. rewrite A, B, C, D, E. exact H. Qed.
Lemma same_trans a b c : same_targets a b -> same_targets b c -> same_targets a c.
Proof. unfold same_targets. intuition congruence. Qed.

Lemma run_targets_same text mf ts : forall b, same_targets (out_state (snd (run_targets text mf ts b))) b.
Proof.
  induction ts as [|[[[[[t nm] nd] mx] ev] bs] ts IH]; intros b; simpl; [repeat split|].
  pose proof (load_methods_spec text mf (td_lo t) (td_hi t) nd b) as H.
  destruct (load_methods text mf (td_lo t) (td_hi t) nd b) as [b'|b'|x b']; [|contradiction|exact H].
  specialize (IH b'). destruct (run_targets text mf ts b') as [js o]. simpl in *. eapply same_trans; [exact IH|apply H].
Qed.

(** After any history, failed calls included: the targets held are a beginning of the last file, each beside its own
    entry's numbers; nothing of an earlier file is left. *)
Theorem C83_aligned : forall text ops, aligned (last_entries ops) (bench_after text ops).
Proof.
  intros text ops. unfold last_entries, bench_after.
  assert (G : forall ops es b, aligned es b -> aligned (fold_left (fun es o => match o with
    | OpBenchmark f | OpRun f _ => match f with Ok es' => es' | Raise _ => [] end
    | OpMethods _ _ _ _ => es end) ops es) (fold_left (bdo text) ops b)).
  { clear. induction ops as [|o ops IH]; intros es b H; [exact H|]. simpl. apply IH. destruct o as [f|f lo hi d|bf mf]; simpl.
    - pose proof (load_benchmark_spec f b) as S1. destruct (load_benchmark f b) as [b'|b'|x b']; [|contradiction|apply S1].
      destruct S1 as (es' & -> & L & _). apply L.
    - pose proof (load_methods_spec text f lo hi d b) as S1. destruct (load_methods text f lo hi d b) as [b'|b'|x b']; [|contradiction|];
        (eapply same_aligned; [apply S1|exact H]).
    - unfold run. pose proof (load_benchmark_spec bf b) as S1. destruct (load_benchmark bf b) as [b'|b'|x b']; [|contradiction|apply S1].
      destruct S1 as (es' & -> & L & _). destruct (_ && _); [|apply L]. eapply same_aligned; [apply run_targets_same|apply L]. }
  apply G. apply (loaded_nil []).
Qed.

(** The methods held after a load_methods that returned are exactly those of the file, built for the box and the
    dimension given, whatever was there before. *)
Theorem C83_methods : forall text ops f lo hi d b', load_methods text f lo hi d (bench_after text ops) = Done b' ->
  exists ms, f = Ok ms /\ Forall2 (buildable text lo hi d) ms (b_methods b').
Proof.
  intros text ops f lo hi d b' H. pose proof (load_methods_spec text f lo hi d (bench_after text ops)) as S1. rewrite H in S1. apply S1.
Qed.

(** The evaluation that a target entry and a method entry ask for. *)
Definition wanted (text : vec -> vec) (e : tentry) (m : mentry) (j : job) : Prop :=
  exists n v s, complete e (j_target j) (j_tname j) n v s /\ j_max j = n /\ j_eval j = v /\ j_batch j = s /\
    j_dims j = td_dims (j_target j) /\ buildable text (td_lo (j_target j)) (td_hi (j_target j)) (td_dims (j_target j)) m (j_method j).

Lemma forall2_len {A B} (R : A -> B -> Prop) l m : Forall2 R l m -> length l = length m.
Proof. induction 1; simpl; congruence. Qed.
Lemma forall2_nth {A B} (R : A -> B -> Prop) l m : Forall2 R l m -> forall i x, nth_error l i = Some x -> exists y, nth_error m i = Some y /\ R x y.
Proof. induction 1; intros [|i] z E; simpl in *; try discriminate; [inversion E; subst; eauto|eauto]. Qed.

Lemma pairs_step text e es ms t nm n v s os js :
  complete e t nm n v s -> Forall2 (buildable text (td_lo t) (td_hi t) (td_dims t)) ms os ->
  all_pairs es ms (wanted text) js ->
  all_pairs (e :: es) ms (wanted text) (map (fun m => mkJob m t nm (td_dims t) n v s) os ++ js).
Proof.
  intros C F [L P]. pose proof (forall2_len _ _ _ F) as LF. split.
  - rewrite app_length, map_length, L. simpl. lia.
  - intros [|i] k e' m E M; simpl in E.
    + inversion E; subst e'. destruct (forall2_nth _ _ _ F k m M) as (o & O & B).
      exists (mkJob o t nm (td_dims t) n v s). split.
      * simpl. apply nth_app_some. now apply map_nth_error with (f := fun m => mkJob m t nm (td_dims t) n v s).
      * exists n, v, s. simpl. split; [exact C|]. do 4 (split; [reflexivity|]). exact B.
    + destruct (P i k e' m E M) as (j & J & W). exists j. split; [|exact W].
      rewrite nth_error_app2 by (rewrite map_length; simpl; lia). rewrite map_length, <- LF.
      replace (S i * length ms + k - length ms)%nat with (i * length ms + k)%nat by (simpl; lia). exact J.
Qed.

(** Rows of the object, entry by entry. *)
Inductive rows : list tentry -> list (tdist * string * nat * nat * nat * nat) -> Prop :=
| rows_nil : rows [] []
| rows_cons e es t nm n v s ts : complete e t nm n v s -> rows es ts -> rows (e :: es) ((t, nm, td_dims t, n, v, s) :: ts).

Lemma loaded_rows es b : loaded es b -> rows es (zip5 (b_targets b) (b_ndims b) (b_nsamples b) (b_eval b) (b_batch b)).
Proof.
  intros [(L & N & B & E & A) [LT LN]].
  assert (LE : length (b_eval b) = length es) by lia. assert (LB : length (b_batch b) = length es) by lia. clear B E L.
  revert N LN LE LB LT A. generalize (b_ndims b) (b_nsamples b) (b_eval b) (b_batch b). generalize (b_targets b). clear b.
  induction es as [|e es IH]; intros [|[t nm] ts] [|d ds] [|n ns] [|v vs] [|s ss] N LN LE LB LT A; simpl in *; try lia; [constructor|].
  destruct (A 0%nat t nm eq_refl) as (e' & n' & v' & s' & H1 & H2 & H3 & H4 & H5 & H6). simpl in *. inversion H1; inversion H3; inversion H4; inversion H5; inversion H6; subst.
  constructor; [exact H2|]. apply IH; try lia. intros i t' nm' H. exact (A (S i) t' nm' H).
Qed.

Lemma run_rows text ms es ts : rows es ts -> forall b js o, run_targets text (Ok ms) ts b = (js, o) ->
  (forall b', o = Done b' -> all_pairs es ms (wanted text) js) /\
  (forall x b', o = Failed x b' -> exists i e m, nth_error es i = Some e /\ In m ms /\ (forall j, ~ wanted text e m j) /\
     all_pairs (firstn i es) ms (wanted text) js) /\
  (forall b', o <> Running b').
Proof.
  assert (NIL : all_pairs [] ms (wanted text) []) by (split; [reflexivity|]; intros [|i] k t m H; discriminate).
  induction 1 as [|e es t nm n v s ts C R IH]; intros b js o H; simpl in H.
  - inversion H; subst. split; [intros; exact NIL|]. split; discriminate.
  - unfold load_methods in H.
    match goal with H : context [add_methods _ _ _ _ _ ?X] |- _ => pose proof (add_methods_spec text (td_lo t) (td_hi t) (td_dims t) ms X) as S1 end.
    destruct (add_methods text (td_lo t) (td_hi t) (td_dims t) ms _) as [b1|b1|x b1]; [|contradiction|].
    + destruct S1 as (_ & os & F & M). simpl in M. rewrite M in H.
      destruct (run_targets text (Ok ms) ts b1) as [js' o'] eqn:E. inversion H; subst. destruct (IH _ _ _ E) as (D1 & D2 & D3).
      split; [|split; [|exact D3]].
      * intros b' ->. eapply pairs_step; eauto.
      * intros x b' ->. destruct (D2 _ _ eq_refl) as (i & e' & m & I & M' & W & P). exists (S i), e', m.
        split; [exact I|]. split; [exact M'|]. split; [exact W|]. simpl. eapply pairs_step; eauto.
    + inversion H; subst. split; [discriminate|]. split; [|discriminate]. intros x' b' _. destruct S1 as (_ & m & I & NB).
      exists 0%nat, e, m. split; [reflexivity|]. split; [exact I|]. split; [|exact NIL].
      intros j (n' & v' & s' & C' & _ & _ & _ & _ & B'). apply (NB (j_method j)). destruct C as (_ & _ & _ & C & _). destruct C' as (_ & _ & _ & C' & _).
      rewrite C in C'. inversion C'; subst. exact B'.
Qed.

(** A run that returns has evaluated exactly the pairs of the two files, in order, each with its own entry's numbers and
    with the method built afresh for that target, whatever the object was used for before. If it raises, it has done so
    for a reason in the files and has evaluated the pairs of the targets before. *)
Theorem C83_run : forall text ops bf mf js o, run text bf mf (bench_after text ops) = (js, o) ->
  (forall b', o = Done b' -> exists es ms, bf = Ok es /\ mf = Ok ms /\ es <> [] /\ all_pairs es ms (wanted text) js) /\
  (forall x b', o = Failed x b' ->
     (exists e, bf = Raise e /\ js = []) \/
     (exists es, bf = Ok es /\ js = [] /\ (es = [] \/ (exists e, mf = Raise e) \/ exists e, In e es /\ forall t nm n v s, ~ complete e t nm n v s)) \/
     (exists es ms i e m, bf = Ok es /\ mf = Ok ms /\ nth_error es i = Some e /\ In m ms /\ (forall j, ~ wanted text e m j) /\
        all_pairs (firstn i es) ms (wanted text) js)) /\
  (forall b', o <> Running b').
Proof.
  intros text ops bf mf js o H. unfold run in H. pose proof (load_benchmark_spec bf (bench_after text ops)) as S1.
  destruct (load_benchmark bf (bench_after text ops)) as [b1|b1|x b1]; [|contradiction|].
  - destruct S1 as (es & -> & L & CS). destruct L as [A [LT LN]]. pose proof (loaded_rows es b1 (conj A (conj LT LN))) as R.
    assert (LD : length (b_ndims b1) = length es) by (destruct A as (_ & N & _); lia).
    rewrite LT, LD, LN, !Nat.eqb_refl, !andb_true_r in H.
    destruct (Nat.ltb_spec 0 (length es)) as [P|P].
    + destruct mf as [ms|x].
      * destruct (run_rows text ms es _ R _ _ _ H) as (D1 & D2 & D3). split; [|split; [|exact D3]].
        -- intros b' E. exists es, ms. split; [reflexivity|]. split; [reflexivity|]. split; [destruct es; [simpl in P; lia|discriminate]|eauto].
        -- intros x b' E. right. right. destruct (D2 _ _ E) as (i & e & m & Q1). exists es, ms, i, e, m. split; [reflexivity|]. split; [reflexivity|exact Q1].
      * inversion R; subst; [simpl in P; lia|]. match goal with K : _ = zip5 _ _ _ _ _ |- _ => rewrite <- K in H end.
        simpl in H. inversion H; subst. split; [discriminate|]. split; [|discriminate]. intros y b' _. right. left.
        eexists. split; [reflexivity|]. split; [reflexivity|]. right. left. eauto.
    + inversion H; subst. split; [discriminate|]. split; [|discriminate]. intros y b' _. right. left. exists es.
      split; [reflexivity|]. split; [reflexivity|]. left. destruct es; [reflexivity|simpl in P; lia].
  - inversion H; subst. split; [discriminate|]. split; [|discriminate]. intros y b' _. destruct S1 as [_ [->|(es & -> & _ & E)]].
    + left. eauto.
    + right. left. exists es. split; [reflexivity|]. split; [reflexivity|]. right. right. exact E.
Qed.

Definition ex_target (i d : nat) : tentry := mkTentry (Some (10 * i)%nat) (Some 7%nat) (Some (2 + i)%nat)
  (Some (Ok (mkTdist i d (repeat 0 d) (repeat 1 d)))) (Some "t"%string).
Definition ex_method (i : nat) : mentry := mkMentry i (Some (fun _ _ _ => None)) (Some "m"%string) (Some false).
Definition ex_bad : tentry := mkTentry (Some 3%nat) (Some 7%nat) None (Some (Raise TypeError)) None.

Example C83_example : let id := fun v : vec => v in
  let ops := [OpBenchmark (Ok [ex_target 5 1; ex_bad; ex_target 6 1]); OpMethods (Ok [ex_method 9]) [0] [1] 1] in
  length (b_targets (bench_after id ops)) = 1%nat /\ length (b_nsamples (bench_after id ops)) = 2%nat /\
  (exists b', load_methods id (Ok [ex_method 4]) [0] [1] 1 (bench_after id ops) = Done b') /\
  exists js b', run id (Ok [ex_target 1 2; ex_target 2 1]) (Ok [ex_method 1; ex_method 2]) (bench_after id ops) = (js, Done b') /\
    map (fun j => (td_id (j_target j), me_id (j_method j), j_dims j, j_max j, length (me_lo (j_method j)))) js =
      [(1, 1, 2, 10, 2); (1, 2, 2, 10, 2); (2, 1, 1, 20, 1); (2, 2, 1, 20, 1)]%nat.
Proof.
  cbn zeta. split; [reflexivity|]. split; [reflexivity|]. split; [eexists; vm_compute; reflexivity|]. do 2 eexists. split; [vm_compute; reflexivity|vm_compute; reflexivity].
Qed.

Print Assumptions C83_aligned.
Print Assumptions C83_methods.
Print Assumptions C83_run.

(** C84. Every evaluation a run starts uses a method built for the text of its target's support. *)
Lemma pairs_all {T M J : Type} (ts : list T) (ms : list M) (job : T -> M -> J -> Prop) js : all_pairs ts ms job js ->
  forall j, In j js -> exists t m, In t ts /\ job t m j.
Proof.
  intros [L P] j I. apply In_nth_error in I. destruct I as [q E].
  assert (Lq : (q < length js)%nat) by (apply nth_error_Some; congruence). rewrite L in Lq.
  assert (NZ : length ms <> 0%nat) by (intros Z; rewrite Z in Lq; lia).
  pose proof (Nat.mod_upper_bound q (length ms) NZ) as K. pose proof (Nat.div_mod q (length ms) NZ) as DM.
  assert (I : (q / length ms < length ts)%nat) by (apply Nat.div_lt_upper_bound; lia).
  destruct (nth_error ts (q / length ms)) as [t|] eqn:Et; [|apply nth_error_None in Et; lia].
  destruct (nth_error ms (q mod length ms)) as [m|] eqn:Em; [|apply nth_error_None in Em; lia].
  destruct (P _ _ _ _ Et Em) as (j' & E' & W). replace (q / length ms * length ms + q mod length ms)%nat with q in E' by lia.
  rewrite E in E'. inversion E'; subst. exists t, m. split; [eapply nth_error_In; eauto|exact W].
Qed.
Lemma run_box text ops bf mf js o j : run text bf mf (bench_after text ops) = (js, o) -> In j js ->
  me_lo (j_method j) = text (td_lo (j_target j)) /\ me_hi (j_method j) = text (td_hi (j_target j)) /\
  me_dims (j_method j) = td_dims (j_target j).
Proof.
  intros H I. destruct (C83_run text ops bf mf js o H) as (D & F & N).
  assert (W : exists e m, wanted text e m j).
  { destruct o as [b'|b'|x b']; [|destruct (N b' eq_refl)|].
    - destruct (D b' eq_refl) as (es & ms & _ & _ & _ & P). destruct (pairs_all _ _ _ _ P j I) as (t & m & _ & W). eauto.
    - destruct (F x b' eq_refl) as [(e & _ & ->)|[(es & _ & -> & _)|(es & ms & i & e & m & _ & _ & _ & _ & _ & P)]]; try contradiction.
      destruct (pairs_all _ _ _ _ P j I) as (t & m' & _ & W). eauto. }
  destruct W as (e & m & n & v & s & _ & _ & _ & _ & _ & (bd & nm & dbg & _ & _ & _ & _ & E)). rewrite E. auto.
Qed.

(** The part that holds: the box of every method agrees with the support up to half a unit of the eighth digit (after
    the point, or of the mantissa for entries above one) ... *)
Definition near (x w : Q) : Prop := Qabs (x - w) <= (1 # 200000000) * qmax 1 (Qabs x).
Lemma printed_near v w : printed v w -> Forall2 near v w.
Proof.
  intros [[_ H]|[_ H]]; induction H as [|x y v w P _ IH]; constructor; try exact IH; unfold near, qmax.
  - destruct P as [[X Y]|(p & z & _ & A & _ & E & _)].
    + assert (K : x - y == 0) by lra. rewrite K. change (Qabs 0) with 0. pose proof (Qabs_nonneg x).
      destruct (Qle_bool 1 (Qabs x)); lra.
    + destruct (Qle_bool 1 (Qabs x)) eqn:Q1; [lra|]. assert (~ 1 <= Qabs x) by (rewrite <- Qle_bool_iff; congruence). lra.
  - destruct P as [E _]. destruct (Qle_bool 1 (Qabs x)) eqn:Q1; [apply Qle_bool_iff in Q1|]; lra.
Qed.
Theorem C84_box_near_partial : forall text ops bf mf js o j, run text bf mf (bench_after text ops) = (js, o) -> In j js ->
  let t := j_target j in printed (td_lo t) (text (td_lo t)) -> printed (td_hi t) (text (td_hi t)) ->
  Forall2 near (td_lo t) (me_lo (j_method j)) /\ Forall2 near (td_hi t) (me_hi (j_method j)) /\ me_dims (j_method j) = td_dims t.
Proof.
  intros text ops bf mf js o j H I t A B. destruct (run_box _ _ _ _ _ _ _ H I) as (L & U & D). rewrite L, U. fold t.
  split; [now apply printed_near|]. split; [now apply printed_near|exact D].
Qed.

(** ... and exactly where the entries have at most eight digits after the point and no scientific notation is needed. *)
Theorem C84_box_exact_partial : forall text ops bf mf js o j, run text bf mf (bench_after text ops) = (js, o) -> In j js ->
  let t := j_target j in printed (td_lo t) (text (td_lo t)) -> printed (td_hi t) (text (td_hi t)) ->
  ~ sci_needed (td_lo t) -> ~ sci_needed (td_hi t) ->
  Forall (fun x => exists z : Z, x == (z # 100000000)) (td_lo t ++ td_hi t) ->
  Forall2 Qeq (td_lo t) (me_lo (j_method j)) /\ Forall2 Qeq (td_hi t) (me_hi (j_method j)).
Proof.
  intros text ops bf mf js o j H I t A B SA SB F. destruct (run_box _ _ _ _ _ _ _ H I) as (L & U & D). rewrite L, U. fold t.
  assert (G : forall v w, ~ sci_needed v -> printed v w -> Forall (fun x => exists z : Z, x == (z # 100000000)) v -> Forall2 Qeq v w).
  { intros v w S1 [[S2 _]|[_ P]] FV; [contradiction|]. clear S1. induction P as [|x y v w (E & z & Z1) _ IH]; constructor.
    - inversion FV as [|? ? (z' & Z2) _]; subst. rewrite Z2, Z1 in *.
      assert (K : (z' # 100000000) - (z # 100000000) == (z' - z # 100000000)) by (unfold Qeq, Qminus, Qplus, Qopp; simpl; ring).
      rewrite K in E. unfold Qabs, Qle in E. simpl in E. assert (z' = z) by lia. subst. reflexivity.
    - apply IH. now inversion FV. }
  apply Forall_app in F. destruct F as [FL FH]. split; apply G; assumption.
Qed.

(** C84 (full statement: every method is built for exactly the support of its target) is false however numpy breaks
    ties: with the support [0, 1 + 2^-10] the method's box is too small. *)
Definition ex_hi : Q := 1025 # 1024.
Lemma Zfrac z p : (z # p) == inject_Z z * (1 # p).
Proof. unfold Qeq. cbn [Qnum Qden Qmult inject_Z]. rewrite Pos.mul_1_l. ring. Qed.
Lemma not_sci : ~ sci_needed [ex_hi].
Proof.
  intros [(x & [<-|[]] & H)|[(x & [<-|[]] & _ & H)|(x & y & [<-|[]] & [<-|[]] & _ & H)]]; vm_compute in H; congruence.
Qed.
Theorem C84_box_refuted : exists es ms, forall text, printed [ex_hi] (text [ex_hi]) ->
  exists j b', run text (Ok es) (Ok ms) bench_new = ([j], Done b') /\ td_lo (j_target j) = [0] /\ td_hi (j_target j) = [ex_hi] /\
    exists w, me_hi (j_method j) = [w] /\ w < ex_hi.
Proof.
  exists [mkTentry (Some 1%nat) (Some 1%nat) (Some 1%nat) (Some (Ok (mkTdist 0 1 [0] [ex_hi]))) (Some "t"%string)], [ex_method 0].
  intros text H. do 2 eexists. split; [reflexivity|]. split; [reflexivity|]. split; [reflexivity|]. cbn [j_method me_hi td_hi].
  destruct H as [[S1 _]|[_ F]]; [exfalso; exact (not_sci S1)|].
  inversion F as [|x w v ws (A & z & Z1) F1 E1 E2]; subst. inversion F1; subst. exists w. split; [reflexivity|].
  rewrite Zfrac in Z1. apply Qabs_Qle_condition in A. unfold ex_hi in *. destruct (Z.le_gt_cases z 100097656) as [L|L].
  - rewrite Zle_Qle in L. change (inject_Z 100097656) with 100097656 in L. lra.
  - exfalso. assert (L' : (100097657 <= z)%Z) by lia. rewrite Zle_Qle in L'. change (inject_Z 100097657) with 100097657 in L'. lra.
Qed.

Example C84_example : let text := fun v : vec => map (fun x => if Qeq_bool x ex_hi then 100097656 # 100000000 else x) v in
  printed [ex_hi] (text [ex_hi]) /\ printed [0] (text [0]) /\ printed [-(5); 1 # 2] (text [-(5); 1 # 2]) /\
  ~ sci_needed [-(5); 1 # 2] /\ Forall (fun x => exists z : Z, x == (z # 100000000)) [-(5); 1 # 2].
Proof.
  assert (S1 : ~ sci_needed [-(5); 1 # 2]).
  { intros [(x & [<-|[<-|[]]] & H)|[(x & [<-|[<-|[]]] & _ & H)|(x & y & [<-|[<-|[]]] & [<-|[<-|[]]] & _ & H)]]; vm_compute in H; congruence. }
  assert (M : forall x z, Qeq_bool x (z # 100000000) = true -> printed_fixed x x).
  { intros x z H. apply Qeq_bool_iff in H. split; [setoid_replace (x - x) with 0 by ring; vm_compute; discriminate|eauto]. }
  cbn zeta. split; [|split; [|split; [|split]]].
  - right. split; [exact not_sci|]. constructor; [|constructor]. split; [vm_compute; discriminate|]. exists 100097656%Z. reflexivity.
  - right. split; [|constructor; [apply (M 0 0%Z); reflexivity|constructor]].
    intros [(x & [<-|[]] & H)|[(x & [<-|[]] & H & _)|(x & y & [<-|[]] & [<-|[]] & H & _)]]; [vm_compute in H; congruence| |]; apply H; reflexivity.
  - right. split; [exact S1|]. constructor; [apply (M _ (-500000000)%Z); reflexivity|]. constructor; [apply (M _ 50000000%Z); reflexivity|constructor].
  - exact S1.
  - constructor; [exists (-500000000)%Z; reflexivity|]. constructor; [exists 50000000%Z; reflexivity|constructor].
Qed.

Print Assumptions C84_box_near_partial.
Print Assumptions C84_box_exact_partial.
Print Assumptions C84_box_refuted.
