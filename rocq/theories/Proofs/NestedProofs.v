(** Proofs about nested and multi-nested sampling. *)
From Coq Require Import List Bool Arith Lia QArith Lqa.
Import ListNotations.
From Verif Require Import Prelude.Py Prelude.QBase Prelude.QFacts Prelude.ListFacts Model.Base Model.Nested Spec.Box.
Open Scope Q_scope.

Lemma nth_map_in {A B} (f : A -> B) l i d d' : (i < length l)%nat -> nth i (map f l) d = f (nth i l d').
Proof. revert i. induction l as [|x l IH]; intros [|i] H; simpl in *; try lia; auto. apply IH. lia. Qed.

Lemma map_upd {A B} (f : A -> B) l k y : map f (upd l k y) = upd (map f l) k (f y).
Proof. revert k. induction l as [|x l IH]; intros [|k]; simpl; auto. now rewrite IH. Qed.

Definition fits (lmin timeout : Q) (pi : vec -> Q) (y : vec) := lmin <= pi y.

Lemma search_done pi f value timeout big : forall tape cur el y seen,
  ns_search pi f value timeout big tape cur el = (Some y, seen) ->
  ((y = cur /\ seen = []) \/ (big = true /\ pi cur < value /\ exists dt, In dt tape /\ y = f (fst dt))) /\
  (el < timeout -> Forall (fun dt => snd dt < timeout) tape -> big = true -> value <= pi y).
Proof.
  induction tape as [|(d, t) r IH]; intros cur el y seen; cbn [ns_search].
  - destruct (Qltb_spec (pi cur) value) as [A|A]; cbn [andb]; [destruct (Qltb_spec el timeout) as [B|B]; cbn [andb]; [destruct big|]|];
      intros E; inversion E; subst; (split; [now left|]); intros; try discriminate; lra.
  - destruct (Qltb_spec (pi cur) value) as [A|A]; cbn [andb]; [destruct (Qltb_spec el timeout) as [B|B]; cbn [andb]; [destruct big|]|];
      try (intros E; inversion E; subst; (split; [now left|]); intros; try discriminate; lra).
    destruct (ns_search pi f value timeout true r (f d) t) as [o s] eqn:E. intros H. inversion H; subst; clear H.
    destruct (IH _ _ _ _ E) as [C D]. split.
    + right. repeat split; auto. destruct C as [(-> & _)|(_ & _ & dt & I & ->)]; [exists (d, t); simpl; auto|exists dt; simpl; auto].
    + intros _ F _. inversion F; subst. apply D; auto.
Qed.

(** What one turn of the loop does. *)
Record step_facts (P : ns_params) (pi : vec -> Q) (timeout : Q) (g : list nat) (f : vec -> vec) (big : bool)
       (ev : repl) (s s' : nst) (k : nat) (y : vec) (seen : list vec) : Prop := {
  sf_in : In k g;
  sf_min : forall i, In i g -> pi (nth k (ns_live s) []) <= pi (nth i (ns_live s) []);
  sf_live : ns_live s' = upd (ns_live s) k y;
  sf_L : ns_L s' = ns_L s ++ [pi (nth k (ns_live s) [])];
  sf_first : ns_samples s = [] -> ns_view s' = Some k /\ ns_samples s' = [y];
  sf_later : ns_samples s <> [] -> ns_view s' = None /\ ns_samples s' = ns_samples s ++ [nth k (ns_live s) []];
  sf_q : ns_q_samples s' = (ns_q_samples s + length seen)%nat;
  sf_pi : ns_pi_evals s' = (ns_pi_evals s + length seen)%nat;
  sf_seen : ns_seen s' = ns_seen s ++ seen;
  sf_drawn : (1 <= length seen)%nat;
  sf_model : ns_model s' = ns_model s;
  sf_point : y = vclip (f (rp_first ev)) (ns_lo P) (ns_hi P) \/
             (big = true /\ pi (vclip (f (rp_first ev)) (ns_lo P) (ns_hi P)) < pi (nth k (ns_live s) []) /\
              exists dt, In dt (rp_redraws ev) /\ y = f (fst dt));
  sf_fits : 0 < timeout -> Forall (fun dt => snd dt < timeout) (rp_redraws ev) -> big = true ->
            pi (nth k (ns_live s) []) <= pi y }.

Lemma iter_done P pi timeout g cand big ev s s' values v' :
  g <> [] -> Forall (fun i => (i < length (ns_live s))%nat) g -> values = map pi (ns_live s) ->
  ns_iter P pi timeout g cand big ev s values = (Done s', v') ->
  v' = map pi (ns_live s') /\
  exists k y seen, step_facts P pi timeout g (cand s ev) big ev s s' k y seen.
Proof.
  intros G F V. unfold ns_iter. destruct g as [|g0 gr] eqn:GE; [congruence|]. rewrite <- GE in *. clear G.
  set (gv := map (fun i => nth i values 0) g).
  assert (LG : (argminQ gv < length g)%nat).
  { assert (gv <> []) by (unfold gv; rewrite GE; discriminate). pose proof (argminQ_lt gv H).
    unfold gv in *. now rewrite map_length in *. }
  set (k := nth (argminQ gv) g 0%nat).
  assert (KG : In k g) by (apply nth_In; exact LG).
  assert (LK : (k < length (ns_live s))%nat) by (rewrite Forall_forall in F; auto).
  assert (GV : forall j, (j < length g)%nat -> nth j gv 0 = pi (nth (nth j g 0%nat) (ns_live s) [])).
  { intros j Hj. unfold gv. rewrite (nth_map_in _ g j 0 0%nat) by auto. subst values.
    apply nth_map_in. rewrite Forall_forall in F. apply F. now apply nth_In. }
  assert (LM : nth (argminQ gv) gv 0 = pi (nth k (ns_live s) [])) by (apply GV; auto).
  rewrite LM. set (lmin := pi (nth k (ns_live s) [])) in *.
  set (first := vclip (cand s ev (rp_first ev)) (ns_lo P) (ns_hi P)).
  destruct (ns_search pi (cand s ev) lmin timeout big (rp_redraws ev) first 0) as [[y|] seen] eqn:E; [|discriminate].
  intros H. inversion H; subst s' v'; clear H.
  destruct (search_done _ _ _ _ _ _ _ _ _ _ E) as [PT FT].
  assert (LIVE : ns_live (ns_append k lmin s) = ns_live s) by (unfold ns_append; destruct (ns_samples s); reflexivity).
  split.
  - cbn [ns_live ns_count]. rewrite LIVE, map_upd. now subst values.
  - exists k, y, (first :: seen). constructor.
    + exact KG.
    + intros i Hi. apply In_nth with (d := 0%nat) in Hi. destruct Hi as (j & Lj & <-).
      fold lmin. rewrite <- GV by auto. rewrite <- LM. apply argminQ_min. unfold gv. now rewrite map_length.
    + cbn [ns_live ns_count]. now rewrite LIVE.
    + cbn [ns_L ns_count]. unfold ns_append. now destruct (ns_samples s).
    + intros N. unfold ns_append. rewrite N. cbn. split; [reflexivity|]. unfold ns_samples. cbn.
      rewrite upd_nth_eq by auto. reflexivity.
    + intros N. unfold ns_append. destruct (ns_samples s) eqn:SS; [congruence|]. cbn. split; reflexivity.
    + cbn [ns_q_samples ns_count]. unfold ns_append. now destruct (ns_samples s).
    + cbn [ns_pi_evals ns_count]. unfold ns_append. now destruct (ns_samples s).
    + cbn [ns_seen ns_count]. unfold ns_append. now destruct (ns_samples s).
    + simpl. lia.
    + cbn [ns_model ns_count]. unfold ns_append. now destruct (ns_samples s).
    + fold first. destruct PT as [(-> & _)|(A & B & C)]; [now left|right; auto].
    + intros T W B. apply FT; auto.
Qed.

(** m turns with events of [tape]. *)
Definition one (P : ns_params) (pi : vec -> Q) (timeout : Q) (tape : list repl) (G : list nat -> bool -> (nst -> repl -> vec -> vec) -> Prop)
           (s s' : nst) : Prop :=
  exists ev g cand big k y seen, In ev tape /\ G g big cand /\ Forall (fun i => (i < length (ns_live s))%nat) g /\
    step_facts P pi timeout g (cand s ev) big ev s s' k y seen.
Inductive many (R : nst -> nst -> Prop) : nat -> nst -> nst -> Prop :=
| many_0 s : many R 0 s s
| many_S n s t u : R s t -> many R n t u -> many R (S n) s u.

Lemma many_app R n m s t u : many R n s t -> many R m t u -> many R (n + m) s u.
Proof. induction 1; simpl; auto. intros. econstructor; eauto. Qed.
Lemma many_mono (R R' : nst -> nst -> Prop) n s t : (forall a b, R a b -> R' a b) -> many R n s t -> many R' n s t.
Proof. induction 2; econstructor; eauto. Qed.
Lemma many_inv (R : nst -> nst -> Prop) (I : nst -> Prop) : (forall a b, I a -> R a b -> I b) ->
  forall n s t, many R n s t -> I s -> I t.
Proof. intros H n s t M. induction M; eauto. Qed.

Lemma for_done P pi timeout g cand big : g <> [] -> forall m tape s values s' v' t',
  Forall (fun i => (i < length (ns_live s))%nat) g -> values = map pi (ns_live s) ->
  ns_for P pi timeout g cand big m tape s values = (Done s', v', t') ->
  v' = map pi (ns_live s') /\ length (ns_live s') = length (ns_live s) /\
  (exists used, tape = used ++ t') /\
  many (one P pi timeout tape (fun g' b c => g' = g /\ b = big /\ c = cand)) m s s'.
Proof.
  intros G. induction m as [|m IH]; intros tape s values s' v' t' F V; cbn [ns_for].
  - intros H. inversion H; subst. repeat split; auto. { now exists []. } constructor.
  - destruct tape as [|ev t]; [discriminate|].
    destruct (ns_iter P pi timeout g cand big ev s values) as [[s1|s1|e s1] v1] eqn:E; try discriminate.
    intros H. destruct (iter_done _ _ _ _ _ _ _ _ _ _ _ G F V E) as (V1 & k & y & seen & SF).
    assert (LL : length (ns_live s1) = length (ns_live s)) by (rewrite (sf_live _ _ _ _ _ _ _ _ _ _ _ _ SF); apply upd_length).
    destruct (IH t s1 v1 s' v' t') as (V2 & LL2 & (used & U) & M); auto; [now rewrite LL|].
    split; [exact V2|]. split; [congruence|]. split; [exists (ev :: used); simpl; congruence|].
    apply many_S with s1.
    + exists ev, g, cand, big, k, y, seen. split; [now left|]. split; [auto|]. split; [exact F|exact SF].
    + eapply many_mono; [|exact M]. intros a b (ev' & g' & c' & b' & k' & y' & se' & I & R). exists ev', g', c', b', k', y', se'.
      split; [now right|exact R].
Qed.

(** the call of nested sampling *)
Definition all_live (s : nst) := seq 0 (length (ns_live s)).

Lemma all_live_ok s : Forall (fun i => (i < length (ns_live (ns_begin s)))%nat) (all_live s).
Proof. apply Forall_forall. intros i H. apply in_seq in H. simpl in *. lia. Qed.

Lemma begin_samples s : ns_samples (ns_begin s) = ns_samples s.
Proof. reflexivity. Qed.

Lemma finish_cases P pick s o : ns_finish P pick s = o ->
  (exists e, o = Failed e s) \/
  (exists m, o = Done (mkNst (ns_live s) (ns_view s) (ns_rows s) (ns_L s) (ns_q_samples s) (ns_pi_evals s) (Some m) (ns_seen s)) /\
             ns_samples s <> [] /\ update_model (ns_kde P) pick (ns_samples s) = Ok m).
Proof.
  unfold ns_finish. destruct (ns_samples s) as [|a l] eqn:E; intros <-; [left; eauto|].
  destruct (update_model (ns_kde P) pick (a :: l)) eqn:U; [right|left]; eauto. exists a0. repeat split; congruence.
Qed.

(** same contents except for model *)
Definition same_data (a b : nst) : Prop :=
  ns_live b = ns_live a /\ ns_view b = ns_view a /\ ns_rows b = ns_rows a /\ ns_L b = ns_L a /\
  ns_pi_evals b = ns_pi_evals a /\ ns_seen b = ns_seen a /\ ns_q_samples b = ns_q_samples a.

Lemma same_samples a b : same_data a b -> ns_samples b = ns_samples a.
Proof. intros (A & B & C & _). unfold ns_samples. now rewrite A, B, C. Qed.

Lemma nested_call_done P pi n timeout tape pick s o : ns_live s <> [] ->
  nested_call P pi n timeout tape pick s = o -> (forall s', o <> Running s') ->
  exists s1, many (one P pi timeout tape (fun g b c => g = all_live s /\ b = true /\ c = nested_cand))
                  (n - length (ns_samples s)) (ns_begin s) s1 /\
             same_data s1 (out_state o) /\ length (ns_live s1) = length (ns_live s) /\
             ((exists e, o = Failed e s1) \/ ns_samples s1 <> []) /\
             ns_finish P pick s1 = o.
Proof.
  intros LV. unfold nested_call.
  assert (G : all_live s <> []) by (unfold all_live; destruct (ns_live s); [congruence|discriminate]).
  destruct (ns_for P pi timeout (seq 0 (length (ns_live s))) nested_cand true (n - length (ns_samples s)) tape (ns_begin s) (map pi (ns_live s)))
    as [[[s1|s1|e s1] v1] t1] eqn:E; intros <- NR.
  - destruct (for_done P pi timeout (all_live s) nested_cand true G _ _ _ _ _ _ _ (all_live_ok s) eq_refl E)
      as (_ & LL & _ & M).
    exists s1. split; [exact M|].
    destruct (finish_cases P pick s1 _ eq_refl) as [(e & ->)|(m & E1 & NE & U)].
    + repeat split; auto. left. eauto.
    + rewrite E1. repeat split; auto.
  - exfalso. now apply (NR s1).
  - exfalso. clear NR. revert E. generalize (ns_begin s) (map pi (ns_live s)) tape. unfold all_live in G.
    generalize (n - length (ns_samples s))%nat. intros m. induction m as [|m IH]; intros st vs tp; cbn [ns_for]; [discriminate|].
    destruct tp as [|ev t]; [discriminate|]. unfold ns_iter. destruct (seq 0 (length (ns_live s))) as [|g0 gr] eqn:GE; [congruence|].
    destruct (ns_search _ _ _ _ _ _ _ _) as [[y|] seen]; [apply IH|discriminate].
Qed.

(** effects that do not depend on the group *)
Section Effects.
Context {P : ns_params} {pi : vec -> Q} {timeout : Q} {tape : list repl}
        {G : list nat -> bool -> (nst -> repl -> vec -> vec) -> Prop}.
Notation R := (one P pi timeout tape G).

Lemma one_samples s s' : R s s' -> exists x, ns_samples s' = ns_samples s ++ [x].
Proof.
  intros (ev & g & c & b & k & y & seen & _ & _ & _ & SF). destruct (ns_samples s) as [|a l] eqn:E.
  - exists y. apply (sf_first _ _ _ _ _ _ _ _ _ _ _ _ SF E).
  - eexists. rewrite <- E. apply (sf_later _ _ _ _ _ _ _ _ _ _ _ _ SF). congruence.
Qed.
Lemma many_samples n s s' : many R n s s' -> exists added, ns_samples s' = ns_samples s ++ added /\ length added = n.
Proof.
  induction 1 as [s|n s t u H M (a & E & L)]; [exists []; now rewrite app_nil_r|].
  destruct (one_samples _ _ H) as (x & X). exists (x :: a). rewrite E, X, <- app_assoc. simpl. auto.
Qed.
Lemma one_live s s' : R s s' -> length (ns_live s') = length (ns_live s).
Proof.
  intros (ev & g & c & b & k & y & seen & _ & _ & _ & SF). rewrite (sf_live _ _ _ _ _ _ _ _ _ _ _ _ SF). apply upd_length.
Qed.
Lemma one_L s s' : R s s' -> length (ns_L s') = S (length (ns_L s)).
Proof.
  intros (ev & g & c & b & k & y & seen & _ & _ & _ & SF). rewrite (sf_L _ _ _ _ _ _ _ _ _ _ _ _ SF), app_length. simpl. lia.
Qed.

(** bookkeeping invariant *)
Definition booked (s : nst) : Prop :=
  length (ns_L s) = length (ns_samples s) /\ ns_pi_evals s = length (ns_seen s) /\ (forall k, ns_view s = Some k -> (k < length (ns_live s))%nat).

Lemma one_booked s s' : booked s -> R s s' -> booked s'.
Proof.
  intros (A & B & C) H. pose proof (one_samples _ _ H) as (x & X). pose proof (one_L _ _ H) as L.
  split; [rewrite X, app_length; simpl; lia|].
  destruct H as (ev & g & c & b & k & y & seen & _ & _ & F & SF). split.
  - rewrite (sf_pi _ _ _ _ _ _ _ _ _ _ _ _ SF), (sf_seen _ _ _ _ _ _ _ _ _ _ _ _ SF), app_length. lia.
  - intros k' E. rewrite (sf_live _ _ _ _ _ _ _ _ _ _ _ _ SF), upd_length.
    destruct (ns_samples s) as [|a l] eqn:SS.
    + destruct (sf_first _ _ _ _ _ _ _ _ _ _ _ _ SF SS) as (V & _). rewrite V in E. inversion E; subst.
      rewrite Forall_forall in F. apply F. apply (sf_in _ _ _ _ _ _ _ _ _ _ _ _ SF).
    + destruct (sf_later _ _ _ _ _ _ _ _ _ _ _ _ SF) as (V & _); congruence.
Qed.
End Effects.

Lemma booked_same a b : same_data a b -> booked a -> booked b.
Proof.
  intros H (A & B & C). pose proof (same_samples _ _ H) as S1. destruct H as (E1 & E2 & E3 & E4 & E5 & E6 & _).
  unfold booked. rewrite S1, E4, E5, E6, E2, E1. auto.
Qed.
Lemma booked_begin s : booked s -> booked (ns_begin s).
Proof. intros (A & B & C). split; [exact A|]. split; [simpl; rewrite app_length; lia|exact C]. Qed.

(** sampling and queries change only the model and the sample counter *)
Lemma sample_same P pick m s : exists s', out_state (ns_sample P pick m s) = s' /\ ns_live s' = ns_live s /\ ns_view s' = ns_view s /\ ns_rows s' = ns_rows s /\ ns_L s' = ns_L s /\ ns_pi_evals s' = ns_pi_evals s /\ ns_seen s' = ns_seen s.
Proof.
  eexists. split; [reflexivity|]. unfold ns_sample. destruct (ns_model s); cbn; [tauto|].
  destruct (update_model _ _ _); cbn; tauto.
Qed.
Lemma query_same P pick s : exists s', out_state (ns_query P pick s) = s' /\ ns_live s' = ns_live s /\ ns_view s' = ns_view s /\ ns_rows s' = ns_rows s /\ ns_L s' = ns_L s /\ ns_pi_evals s' = ns_pi_evals s /\ ns_seen s' = ns_seen s.
Proof.
  eexists. split; [reflexivity|]. unfold ns_query. destruct (ns_model s); cbn; [tauto|].
  destruct (update_model _ _ _); cbn; tauto.
Qed.

(** unit rows *)
Definition unit_row (d : nat) (u : vec) : Prop := length u = d /\ Forall (fun a => 0 <= a /\ a <= 1) u.
Lemma scale_in_box : forall lo hi u, is_box lo hi -> unit_row (length lo) u -> in_box lo hi (scale_to_box lo hi u).
Proof.
  unfold scale_to_box, vadd, vsub. induction lo as [|l lo IH]; intros [|h hi] [|a u] B (L & F); simpl in *; try easy.
  destruct B as (LH & B). inversion F as [|? ? (A1 & A2) F']; subst. split; [nra|]. split; [nra|].
  apply IH; auto. split; auto.
Qed.
