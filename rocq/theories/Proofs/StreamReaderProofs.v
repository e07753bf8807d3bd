(** Lemmas about the stream reader. *)
From Coq Require Import List Bool Arith Lia.
Import ListNotations.
From Verif Require Import Model.StreamReader Spec.StreamSpec.

Section S.
Variable line : Type.
Implicit Types r : rst line.

(** the lines handed to the consumer *)
Definition ret_line (x : ret line) : list line :=
  match x with RRead v => opt_list v | RLast v => opt_list v end.
Definition returned (l : list (ret line)) : list line := flat_map ret_line l.

Lemma sub_app_r (l m n : list line) : subsequence l m -> subsequence l (m ++ n).
Proof. induction 1; simpl; constructor; auto. Qed.
Lemma sub_refl (l : list line) : subsequence l l.
Proof. induction l; constructor; auto. Qed.
Lemma sub_app (l m l' m' : list line) : subsequence l m -> subsequence l' m' -> subsequence (l ++ l') (m ++ m').
Proof.
  intros H G. induction H; simpl; try (constructor; auto; fail).
  induction m; simpl; auto. constructor. auto.
Qed.
Lemma sub_snoc (l m : list line) a : subsequence l m -> subsequence (l ++ [a]) (m ++ [a]).
Proof. intros H. apply sub_app; auto. apply sub_refl. Qed.

Lemma returned_snoc l x : returned (l ++ [x]) = returned l ++ ret_line x.
Proof. unfold returned. rewrite flat_map_app. simpl. now rewrite app_nil_r. Qed.

(** ** Never blocked *)
Definition unblocked r : Prop := match pc r with CGet _ _ => queue r <> [] | _ => True end.

Lemma step_unblocked c r : unblocked r -> exists r', reader_step c r = Some r' /\ unblocked r'.
Proof.
  unfold unblocked. destruct r as [s h q p lg tk]; simpl.
  destruct c as [| |keep|]; simpl.
  - unfold step_thread; simpl. intros U. destruct h as [l|].
    + eexists; split; [reflexivity|]. simpl. destruct p; auto. destruct q; discriminate.
    + destruct s; eexists; (split; [reflexivity|]); simpl; auto.
  - destruct p; intros U; try (eexists; split; [reflexivity|]; simpl; auto; fail).
    unfold step_read; simpl. destruct q; eexists; (split; [reflexivity|]); simpl; auto.
  - destruct p; intros U; eexists; (split; [reflexivity|]); simpl; auto.
  - unfold step_last; simpl. destruct p as [|k v|k v|v]; intros U.
    + eexists; split; [reflexivity|]; simpl; auto.
    + destruct q as [|x q]; [|eexists; split; [reflexivity|]; simpl; discriminate].
      destruct v as [v|]; [destruct k|]; eexists; (split; [reflexivity|]); simpl; auto.
    + destruct q as [|x q]; [congruence|]. eexists; split; [reflexivity|]. simpl; auto.
    + eexists; split; [reflexivity|]. simpl; auto.
Qed.

Lemma run_unblocked cs r : unblocked r -> exists r', reader_run cs r = Some r' /\ unblocked r'.
Proof.
  revert r; induction cs as [|c cs IH]; intros r U; simpl; eauto.
  destruct (step_unblocked c r U) as (r1 & -> & U1). eauto.
Qed.

(** ** Termination of read_last_and_clear *)
Definition pc_rank (p : cpc line) : nat := match p with CIdle => 0 | CTest _ _ => 2 | CGet _ _ => 1 | CPut _ => 1 end.
Definition pending r : nat := length (queue r) + length (opt_list (held r)) + length (src r).
Definition mu r : nat := match pc r with CIdle => 0 | _ => 2 * pending r + pc_rank (pc r) end.
Definition is_go (c : choice) : bool := match c with ChGo => true | _ => false end.
Definition go_or_thread (c : choice) : Prop := c = ChGo \/ c = ChThread.

Lemma thread_mu r : mu (step_thread line r) = mu r /\ pc (step_thread line r) = pc r.
Proof.
  destruct r as [s h q p lg tk]. unfold step_thread, mu, pending; simpl.
  destruct h; simpl; [rewrite app_length; simpl; destruct p; split; auto; lia|].
  destruct s; simpl; split; auto. destruct p; auto; simpl; lia.
Qed.

Lemma go_mu r r' : step_last line r = Some r' -> mu r' <= mu r - 1 /\ (pc r = CIdle -> r' = r).
Proof.
  destruct r as [s h q p lg tk]. unfold step_last, mu, pending; simpl. intros H.
  destruct p as [|k v|k v|v]; simpl in *.
  - inversion H; subst; simpl. split; auto.
  - split; [|discriminate]. destruct q as [|x q]; [|inversion H; subst; simpl; lia].
    destruct v as [v|]; [destruct k|]; inversion H; subst; simpl; lia.
  - split; [|discriminate]. destruct q as [|x q]; inversion H; subst; simpl; lia.
  - split; [|discriminate]. inversion H; subst; simpl; lia.
Qed.

Lemma run_mu cs r r' : Forall go_or_thread cs -> reader_run cs r = Some r' ->
  mu r' <= mu r - length (filter is_go cs).
Proof.
  revert r; induction cs as [|c cs IH]; intros r F H; simpl in *.
  - inversion H; subst. lia.
  - inversion F as [|? ? F1 F2]; subst. destruct F1 as [-> | ->]; simpl in *.
    + destruct (step_last line r) as [r1|] eqn:E; [|discriminate].
      apply go_mu in E. apply IH in H; auto. destruct E. lia.
    + apply IH in H; auto. destruct (thread_mu r) as [T _]. lia.
Qed.

Lemma mu_idle r : mu r = 0 -> pc r = CIdle.
Proof. unfold mu. destruct (pc r); simpl; auto; lia. Qed.

Lemma mu_bound r : mu r <= 2 * pending r + 2.
Proof. unfold mu. destruct (pc r); simpl; lia. Qed.

(** ** Order and loss *)
Definition rest r : list line := queue r ++ opt_list (held r) ++ src r.

Lemma thread_rest r : rest (step_thread line r) = rest r.
Proof.
  destruct r as [s h q p lg tk]. unfold rest, step_thread; simpl.
  destruct h; simpl; [now rewrite <- app_assoc|]. destruct s; reflexivity.
Qed.

(** only read() and the thread *)
Definition reads_only (c : choice) : Prop := c = ChRead \/ c = ChThread.

Lemma reads_step stream c r r' : reads_only c -> pc r = CIdle ->
  returned (log r) ++ rest r = stream -> reader_step c r = Some r' ->
  pc r' = CIdle /\ returned (log r') ++ rest r' = stream.
Proof.
  intros [-> | ->] P H E; simpl in E.
  - rewrite P in E. inversion E; subst r'. clear E. destruct r as [s h q p lg tk]; unfold step_read, rest in *; simpl in *.
    destruct q as [|l q]; simpl; rewrite returned_snoc; simpl.
    + rewrite app_nil_r. auto.
    + rewrite <- app_assoc. auto.
  - inversion E; subst r'. rewrite thread_rest. destruct (thread_mu r) as [_ ->]. split; auto.
    replace (log (step_thread line r)) with (log r); auto.
    destruct r as [s h q p lg tk]; unfold step_thread; simpl. destruct h; auto. destruct s; auto.
Qed.

Lemma reads_run stream cs : forall r r', Forall reads_only cs -> pc r = CIdle ->
  returned (log r) ++ rest r = stream -> reader_run cs r = Some r' ->
  returned (log r') ++ rest r' = stream.
Proof.
  induction cs as [|c cs IH]; intros r r' F P H E; simpl in E.
  - inversion E; subst; auto.
  - inversion F; subst. destruct (reader_step c r) as [r1|] eqn:E1; [|discriminate].
    destruct (reads_step _ _ _ _ H2 P eq_refl E1) as [P1 H1]. eapply IH; eauto.
Qed.

(** schedules in which read_last_and_clear is not asked to put the value back *)
Definition no_keep (c : choice) : Prop := c <> ChLast true.

(** what has been taken out of the queue in the call in progress *)
Definition pc_inv (p : cpc line) (lg : list (ret line)) (tk : list line) : Prop :=
  match p with
  | CIdle => subsequence (returned lg) tk
  | CTest keep v | CGet keep v =>
      keep = false /\
      match v with
      | None => subsequence (returned lg) tk
      | Some x => exists t, tk = t ++ [x] /\ subsequence (returned lg) t
      end
  | CPut _ => False
  end.

Lemma pc_inv_weak p lg tk : pc_inv p lg tk -> p = CIdle \/ (exists k v, p = CTest k v) \/ (exists k v, p = CGet k v).
Proof. destruct p; simpl; eauto; tauto. Qed.

Lemma nokeep_step stream c r r' : no_keep c ->
  taken r ++ rest r = stream -> pc_inv (pc r) (log r) (taken r) ->
  reader_step c r = Some r' ->
  taken r' ++ rest r' = stream /\ pc_inv (pc r') (log r') (taken r').
Proof.
  intros N H I E. destruct r as [s h q p lg tk]. unfold rest in *; simpl in *.
  destruct c as [| |keep|]; simpl in E.
  - inversion E; subst r'. unfold step_thread; simpl. destruct h as [l|]; simpl in *.
    + split; auto. now rewrite <- !app_assoc in *.
    + destruct s; simpl; auto.
  - destruct p; inversion E; subst r'; auto. unfold step_read; simpl in *.
    destruct q as [|l q]; simpl; rewrite returned_snoc; simpl.
    + rewrite app_nil_r. auto.
    + split; [rewrite <- !app_assoc; auto|]. now apply sub_snoc.
  - destruct p; inversion E; subst r'; simpl in *; auto. split; auto. split; auto.
    destruct keep; auto. exfalso; apply N; reflexivity.
  - unfold step_last in E; simpl in E. destruct p as [|k v|k v|v]; simpl in *.
    + inversion E; subst; simpl; auto.
    + destruct I as [-> I]. destruct q as [|x q].
      * destruct v as [v|]; inversion E; subst; simpl; rewrite returned_snoc; simpl.
        -- split; auto. destruct I as (t & -> & I). now apply sub_snoc.
        -- rewrite app_nil_r. auto.
      * inversion E; subst; simpl. auto.
    + destruct I as [-> I]. destruct q as [|x q]; [discriminate|]. inversion E; subst; simpl.
      split; [rewrite <- !app_assoc; auto|]. split; auto. exists tk. split; auto.
      destruct v as [v|]; auto. destruct I as (t & -> & I). now apply sub_app_r.
    + contradiction.
Qed.

Lemma nokeep_run stream cs : forall r r', Forall no_keep cs ->
  taken r ++ rest r = stream -> pc_inv (pc r) (log r) (taken r) ->
  reader_run cs r = Some r' ->
  taken r' ++ rest r' = stream /\ pc_inv (pc r') (log r') (taken r').
Proof.
  induction cs as [|c cs IH]; intros r r' F H I E; simpl in E.
  - inversion E; subst; auto.
  - inversion F; subst. destruct (reader_step c r) as [r1|] eqn:E1; [|discriminate].
    destruct (nokeep_step (taken r ++ rest r) _ _ _ H2 eq_refl I E1) as [P1 P2]. eapply IH; eauto.
Qed.

Lemma pc_inv_sub p lg tk : pc_inv p lg tk -> subsequence (returned lg) tk.
Proof.
  destruct p as [|k [v|]|k [v|]|v]; simpl; try tauto; intros [_ (t & -> & H)]; now apply sub_app_r.
Qed.

(** ** With put-back: fine as long as the thread adds nothing between the last test and the put *)
Fixpoint quiet_window (cs : list choice) r : Prop :=
  match cs with
  | [] => True
  | c :: t => (c = ChThread -> match pc r with CPut _ => held r = None | _ => True end) /\
              match reader_step c r with Some r' => quiet_window t r' | None => True end
  end.

Definition keep_inv stream r : Prop :=
  exists t, t ++ rest r = stream /\
    match pc r with
    | CTest _ (Some x) | CGet _ (Some x) => exists u, t = u ++ [x]
    | CPut x => queue r = [] /\ exists u, t = u ++ [x]
    | _ => True
    end.

Lemma keep_step stream c r r' : keep_inv stream r ->
  (c = ChThread -> match pc r with CPut _ => held r = None | _ => True end) ->
  reader_step c r = Some r' -> keep_inv stream r'.
Proof.
  intros (t & H & I) W E. destruct r as [s h q p lg tk]. unfold keep_inv, rest in *; simpl in *.
  destruct c as [| |keep|]; simpl in E.
  - specialize (W eq_refl). inversion E; subst r'. unfold step_thread; simpl. destruct h as [l|]; simpl in *.
    + exists t. split; [now rewrite <- !app_assoc in *|]. destruct p as [|k [v|]|k [v|]|v]; auto. discriminate.
    + destruct s; simpl; exists t; split; auto.
  - destruct p; inversion E; subst r'; try (exists t; split; auto; fail). unfold step_read; simpl in *.
    destruct q as [|l q]; simpl; [exists t; auto|]. exists (t ++ [l]). split; auto. now rewrite <- app_assoc.
  - destruct p; inversion E; subst r'; exists t; split; auto; simpl in *.
  - unfold step_last in E; simpl in E. destruct p as [|k v|k v|v]; simpl in *.
    + inversion E; subst; simpl. exists t; auto.
    + destruct q as [|x q].
      * destruct v as [v|]; [destruct k|]; inversion E; subst; simpl; exists t; auto.
      * inversion E; subst; simpl. exists t; auto.
    + destruct q as [|x q]; [discriminate|]. inversion E; subst; simpl. exists (t ++ [x]).
      split; [now rewrite <- app_assoc|eauto].
    + inversion E; subst; simpl. destruct I as [-> (u & ->)]. exists u. split; auto. simpl. now rewrite <- app_assoc.
Qed.

Lemma keep_run stream cs : forall r r', keep_inv stream r -> quiet_window cs r -> reader_run cs r = Some r' ->
  keep_inv stream r'.
Proof.
  induction cs as [|c cs IH]; intros r r' I W E; simpl in *.
  - inversion E; subst; auto.
  - destruct W as [W1 W2]. destruct (reader_step c r) as [r1|] eqn:E1; [|discriminate].
    apply (IH r1); auto. apply (keep_step _ c r); auto.
Qed.

Lemma keep_last stream c r r' v : keep_inv stream r ->
  (c = ChThread -> match pc r with CPut _ => held r = None | _ => True end) ->
  reader_step c r = Some r' -> log r' = log r ++ [RLast (Some v)] ->
  exists t, stream = t ++ [v] ++ opt_list (held r') ++ src r'.
Proof.
  intros (t & H & I) W E L. destruct r as [s h q p lg tk]. unfold rest in *; simpl in *.
  assert (NL : forall l (x : ret line), l = l ++ [x] -> False).
  { intros l x B. apply (f_equal (@length _)) in B. rewrite app_length in B. simpl in B. lia. }
  destruct c as [| |keep|]; simpl in E.
  - inversion E; subst r'. exfalso. unfold step_thread in L; simpl in L. destruct h; simpl in L; eauto.
    destruct s; simpl in L; eauto.
  - destruct p; inversion E; subst r'; simpl in L; try (exfalso; eauto; fail).
    exfalso. unfold step_read in L; simpl in L. destruct q; simpl in L; apply app_inv_head in L; discriminate.
  - exfalso. destruct p; inversion E; subst r'; simpl in L; eauto.
  - unfold step_last in E; simpl in E. destruct p as [|k w|k w|w]; simpl in *.
    + inversion E; subst; simpl in L. exfalso; eauto.
    + destruct q as [|x q]; [|inversion E; subst; simpl in L; exfalso; eauto].
      destruct w as [w|]; [destruct k|]; inversion E; subst; simpl in *.
      * exfalso; eauto.
      * apply app_inv_head in L. inversion L; subst. destruct I as (u & ->). exists u. now rewrite <- app_assoc.
      * apply app_inv_head in L. discriminate.
    + destruct q as [|x q]; [discriminate|]. inversion E; subst; simpl in L. exfalso; eauto.
    + inversion E; subst; simpl in *. apply app_inv_head in L. inversion L; subst.
      destruct I as [-> (u & ->)]. exists u. now rewrite <- app_assoc.
Qed.

Lemma nokeep_quiet cs : forall r, Forall no_keep cs ->
  pc_inv (pc r) (log r) (taken r) -> quiet_window cs r.
Proof.
  induction cs as [|c cs IH]; intros r F I; simpl; auto.
  inversion F; subst. split.
  - intros _. destruct (pc r); simpl in I; tauto.
  - destruct (reader_step c r) as [r1|] eqn:E1; auto. apply IH; auto.
    destruct (nokeep_step _ _ _ _ H1 eq_refl I E1); auto.
Qed.
End S.
Arguments returned {line}.
Arguments quiet_window {line}.
