(** C122: parameters of the sampling methods. *)
From Coq Require Import String.
From Coq Require Import List Bool Arith QArith Lqa Lia.
Import ListNotations.
From Verif Require Import Prelude.Py Prelude.QBase Prelude.QFacts Model.Construct Spec.ConstructSpec.
Open Scope string_scope.

Definition kind_of (m : method) : kind :=
  match m with
  | SRejection => Rejection | SMetropolis => Metropolis | SNested => NestedS | SMultiNested => MultiNested | SDmAis => DmAis
  | SLayeredAis => LayeredAis | SMpmc => Mpmc | STreePyramid => TreePyramid | SHiDaisee => HiDaisee
  end.
Definition given (k : string) (d : pdict) : Prop := get k d <> None.
(** The values that the dictionary gives are meaningful; nothing is said about entries that are missing. *)
Definition sensible (d : pdict) : Prop :=
  (exists n, (get "space_min" d = None \/ get "space_min" d = Some (VArr n)) /\ (get "space_max" d = None \/ get "space_max" d = Some (VArr n)) /\
     (get "dims" d = None \/ get "dims" d = Some (VNum (Qnat n)))) /\
  (forall v, get "proposal" d = Some v -> v = VCode None) /\
  (forall v, get "N" d = Some v -> exists q, v = VNum q /\ (0 < q)%Q) /\
  (forall v, get "method" d = Some v -> exists s, v = VStr s /\ In s ["simple"; "dm"; "mixture"]) /\
  (forall v, get "resampling" d = Some v -> exists s, v = VStr s /\ In s ["leaf"; "none"]) /\
  (forall v, get "kernel" d = Some v -> exists s, v = VStr s /\ In s ["normal"; "haar"]) /\
  (forall v, get "tau" d = Some v -> exists q, v = VNum q /\ (0 < q)%Q) /\
  (forall v, get "n_min" d = Some v -> exists q, v = VNum q /\ (0 < q)%Q) /\
  (forall v, get "target_ess" d = Some v -> exists q, v = VNum q /\ (0 < q < 1)%Q).

Lemma get_put k k' v d : get k (put k' v d) = if String.eqb k k' then Some v else get k d.
Proof.
  induction d as [|(a, w) r IH]; simpl; [destruct (String.eqb k k'); reflexivity|].
  destruct (String.eqb_spec k' a) as [->|N]; simpl.
  - destruct (String.eqb k a); reflexivity.
  - destruct (String.eqb_spec k a) as [->|M]; [|exact IH]. destruct (String.eqb_spec a k') as [E|_]; [congruence|reflexivity].
Qed.
Lemma qltb_true a b : (a < b)%Q -> Qltb a b = true.
Proof. intros H. destruct (Qltb_spec a b); auto. Qed.

Lemma acts_done : forall l d, (exists d', acts_run l d = Done d') \/ exists e d', acts_run l d = Failed e d'.
Proof. induction l as [|a l IH]; intros d; simpl; [eauto|]. destruct (act_error a d); eauto. Qed.

(** C122: the caller's dictionary: at most the entries name and n_samples_kde are written, whether the constructor returns or raises. *)
Lemma frame_acts key : forall l d, (forall k v, In (Write k v) l -> k <> key) -> get key (out_state (acts_run l d)) = get key d.
Proof.
  induction l as [|a l IH]; intros d H; simpl; auto. destruct (act_error a d); simpl; auto. rewrite IH by (intros k v I; apply (H k v); simpl; auto).
  destruct a; simpl; auto. rewrite get_put. destruct (String.eqb_spec key k) as [->|N]; auto. exfalso. apply (H k v); simpl; auto.
Qed.

Definition succeeds (l : list act) (d : pdict) : Prop := exists d', acts_run l d = Done d'.
Lemma succeeds_nil d : succeeds [] d <-> True.
Proof. split; auto. intros _. exists d. reflexivity. Qed.
Lemma succeeds_cons a l d : succeeds (a :: l) d <-> act_error a d = None /\ succeeds l (act_dict a d).
Proof.
  unfold succeeds. simpl. destruct (act_error a d) as [e|]; split.
  - intros (d' & H). discriminate.
  - intros (H & _). discriminate.
  - intros H. split; auto.
  - intros (_ & H). exact H.
Qed.
Lemma read_ok k d : act_error (Read k) d = None <-> given k d.
Proof. unfold given. simpl. destruct (get k d); split; intros H; congruence. Qed.
Lemma write_ok k v d : act_error (Write k v) d = None <-> True.
Proof. simpl. tauto. Qed.
Lemma test_ok k f d : (forall v, get k d = Some v -> f v = None) -> (act_error (Test k f) d = None <-> given k d).
Proof. unfold given. simpl. intros H. destruct (get k d); split; intros E; try congruence. apply H. reflexivity. Qed.
Lemma unless_ok k1 k2 d : act_error (ReadUnless k1 k2) d = None <-> (exists v, get k1 d = Some v /\ v <> VNone) \/ given k2 d.
Proof.
  unfold given. simpl. destruct (get k1 d) as [[]|]; destruct (get k2 d); split; intros E; try (right; congruence); try reflexivity; try congruence;
    try (left; eexists; split; [reflexivity|congruence]); try (destruct E as [(v & E1 & E2)|E]; congruence).
Qed.
Lemma box_ok d :
  (exists n, (get "space_min" d = None \/ get "space_min" d = Some (VArr n)) /\ (get "space_max" d = None \/ get "space_max" d = Some (VArr n)) /\
     (get "dims" d = None \/ get "dims" d = Some (VNum (Qnat n)))) ->
  (act_error Box d = None <-> given "space_min" d /\ given "space_max" d /\ given "dims" d).
Proof.
  intros (n & [A|A] & [B|B] & [C|C]); unfold given; simpl; rewrite A, B, C; simpl; try (split; intros X; [discriminate|exfalso; intuition congruence]).
  rewrite Nat.eqb_refl. assert (Qeq_bool (Qnat n) (Qnat n) = true) as -> by (apply Qeq_bool_iff; apply Qeq_refl). simpl.
  split; auto. intros _. repeat split; discriminate.
Qed.
Lemma given_put k k' v d : given k (put k' v d) <-> (if String.eqb k k' then True else given k d).
Proof. unfold given. rewrite get_put. destruct (String.eqb k k'); split; intros H; auto; discriminate. Qed.
Lemma sensible_put k v d : k = "name" \/ k = "n_samples_kde" -> sensible d -> sensible (put k v d).
Proof. intros [->| ->] H; unfold sensible in *; rewrite ?get_put; exact H. Qed.

Lemma test_proposal d : sensible d -> (act_error (Test "proposal" evaluated_text) d = None <-> given "proposal" d).
Proof. intros (_ & H & _). apply test_ok. intros v E. rewrite (H v E). reflexivity. Qed.
Lemma test_N d : sensible d -> (act_error (Test "N" divisor) d = None <-> given "N" d).
Proof.
  intros (_ & _ & H & _). apply test_ok. intros v E. destruct (H v E) as (q & -> & P). simpl. destruct (Qeq_bool q 0) eqn:Z; auto.
  apply Qeq_bool_iff in Z. exfalso. lra.
Qed.
Lemma one_of_ok l s : In s l -> one_of l (VStr s) = None.
Proof.
  intros I. simpl. assert (existsb (String.eqb s) l = true) as ->; auto. apply existsb_exists. exists s. split; auto. apply String.eqb_refl.
Qed.
Lemma test_method d : sensible d -> (act_error (Test "method" (one_of ["simple"; "dm"; "mixture"])) d = None <-> given "method" d).
Proof. intros (_ & _ & _ & H & _). apply test_ok. intros v E. destruct (H v E) as (q & -> & P). apply one_of_ok; auto. Qed.
Lemma test_resampling d : sensible d -> (act_error (Test "resampling" (one_of ["leaf"; "none"])) d = None <-> given "resampling" d).
Proof. intros (_ & _ & _ & _ & H & _). apply test_ok. intros v E. destruct (H v E) as (q & -> & P). apply one_of_ok; auto. Qed.
Lemma test_kernel d : sensible d -> (act_error (Test "kernel" (one_of ["normal"; "haar"])) d = None <-> given "kernel" d).
Proof. intros (_ & _ & _ & _ & _ & H & _). apply test_ok. intros v E. destruct (H v E) as (q & -> & P). apply one_of_ok; auto. Qed.
Lemma test_tau d : sensible d -> (act_error (Test "tau" (asserted (fun q => Qltb 0 q))) d = None <-> given "tau" d).
Proof. intros (_ & _ & _ & _ & _ & _ & H & _). apply test_ok. intros v E. destruct (H v E) as (q & -> & P). simpl. rewrite qltb_true; auto. Qed.
Lemma test_nmin d : sensible d -> (act_error (Test "n_min" (asserted (fun q => Qltb 0 q))) d = None <-> given "n_min" d).
Proof. intros (_ & _ & _ & _ & _ & _ & _ & H & _). apply test_ok. intros v E. destruct (H v E) as (q & -> & P). simpl. rewrite qltb_true; auto. Qed.
Lemma test_ess d : sensible d -> (act_error (Test "target_ess" (asserted (fun q => Qltb 0 q && Qltb q 1))) d = None <-> given "target_ess" d).
Proof.
  intros (_ & _ & _ & _ & _ & _ & _ & _ & H). apply test_ok. intros v E. destruct (H v E) as (q & -> & P & P'). simpl.
  rewrite !qltb_true; auto.
Qed.

Ltac scr :=
  repeat (rewrite succeeds_cons; cbn [act_dict]);
  rewrite succeeds_nil, ?read_ok, ?write_ok, ?unless_ok;
  repeat first [ rewrite box_ok by (repeat apply sensible_put; auto; match goal with X : sensible _ |- _ => apply X end)
               | rewrite test_proposal by (repeat apply sensible_put; auto) | rewrite test_N by (repeat apply sensible_put; auto)
               | rewrite test_method by (repeat apply sensible_put; auto) | rewrite test_resampling by (repeat apply sensible_put; auto)
               | rewrite test_kernel by (repeat apply sensible_put; auto) | rewrite test_tau by (repeat apply sensible_put; auto)
               | rewrite test_nmin by (repeat apply sensible_put; auto) | rewrite test_ess by (repeat apply sensible_put; auto) ].

(** C122: with meaningful values, the constructor of each method returns exactly when the entries it needs are in the dictionary. *)
Theorem C122_needed_parameters :
  forall m d, sensible d ->
  ((exists d', construct (kind_of m) d = Done d') <->
   (forall k, In k (needed m) -> given k d) /\ (m = SMetropolis -> (exists v, get "proposal_d" d = Some v /\ v <> VNone) \/ given "proposal_sigma" d)).
Proof.
  intros m d H. rewrite <- (Forall_forall (fun k => given k d) (needed m)).
  change ((exists d', construct (kind_of m) d = Done d')) with (succeeds (script (kind_of m)) d).
  destruct m; unfold kind_of, script, is_init, mixture_init; cbn [app]; scr; unfold needed, box_keys; cbn [app]; rewrite ?Forall_cons_iff.
  all: repeat (rewrite given_put; cbn [String.eqb Ascii.eqb Bool.eqb]); rewrite ?get_put; cbn [String.eqb Ascii.eqb Bool.eqb].
  all: split; [intros X; repeat match goal with Y : _ /\ _ |- _ => destruct Y end; split; [repeat match goal with |- _ /\ _ => split end; try apply Forall_nil; assumption|intros Z; first [discriminate Z|assumption]]
    |intros (X & Z); repeat match goal with Y : _ /\ _ |- _ => destruct Y end; try specialize (Z eq_refl); repeat match goal with |- _ /\ _ => split end; first [exact I|assumption]].
Qed.
Print Assumptions C122_needed_parameters.

Definition example_layered : pdict :=
  entry_dict 2 [("K", VNum 3); ("N", VNum 5); ("J", VNum 1000); ("L", VNum 10); ("sigma", VNum (1 # 2)); ("mh_sigma", VNum (1 # 2))].
Lemma example_layered_sensible : sensible example_layered.
Proof.
  unfold sensible. repeat split; try (intros v E; discriminate E).
  - exists 2%nat. auto.
  - intros v E. injection E as <-. exists 5%Q. split; auto. lra.
Qed.
Example C122_needed_parameters_example : sensible example_layered /\ (exists d', construct LayeredAis example_layered = Done d') /\ ~ exists d', construct HiDaisee example_layered = Done d'.
Proof.
  split; [apply example_layered_sensible|]. split; [eexists; reflexivity|]. intros (d' & E). discriminate E.
Qed.

(** C122: the caller's dictionary. A constructor changes at most its entries name and n_samples_kde, whether it returns or raises; the
    importance sampling methods leave None in n_samples_kde whatever it was. *)
Theorem C122_dictionary_of_the_caller :
  (forall k d key, key <> "name" -> key <> "n_samples_kde" -> get key (out_state (construct k d)) = get key d) /\
  (forall k d, In k [DmAis; LayeredAis; Mpmc; TreePyramid; HiDaisee] -> get "n_samples_kde" (out_state (construct k d)) = Some VNone) /\
  (forall k d, In k [Rejection; Metropolis; NestedS; MultiNested] -> get "n_samples_kde" (out_state (construct k d)) = get "n_samples_kde" d).
Proof.
  split; [|split].
  - intros k d key N1 N2. apply frame_acts. intros k' v I. destruct k; cbn in I; intuition (try congruence); try discriminate.
  - intros k d I. assert (forall l d, (forall k v, In (Write k v) l -> k <> "n_samples_kde") -> get "n_samples_kde" (out_state (acts_run (Write "n_samples_kde" VNone :: l) d)) = Some VNone) as G.
    { intros l d0 W. cbn [acts_run act_error act_dict]. rewrite frame_acts by exact W. rewrite get_put. reflexivity. }
    destruct I as [<-|[<-|[<-|[<-|[<-|[]]]]]].
    1, 2, 3, 5: unfold construct, script, is_init; apply G; cbn; intros k v I; intuition discriminate.
    unfold construct, script. cbn [acts_run act_error act_dict]. apply G. cbn. intros k v I. intuition discriminate.
  - intros k d I. apply frame_acts. intros k' v J. destruct I as [<-|[<-|[<-|[<-|[]]]]]; cbn in J; intuition (try congruence); try discriminate.
Qed.
Print Assumptions C122_dictionary_of_the_caller.
Example C122_dictionary_of_the_caller_example :
  get "n_samples_kde" (out_state (construct LayeredAis (("n_samples_kde", VNum 100) :: example_layered))) = Some VNone /\
  get "K" (out_state (construct LayeredAis (("n_samples_kde", VNum 100) :: example_layered))) = Some (VNum 3).
Proof. split; reflexivity. Qed.

(** A key that a constructor reads and never writes has to be in the dictionary. *)
Lemma must_read key : forall l d, (forall k v, In (Write k v) l -> k <> key) -> In (Read key) l \/ (exists f, In (Test key f) l) -> succeeds l d -> given key d.
Proof.
  induction l as [|a l IH]; intros d W R H; [destruct R as [[]|(f & [])]|]. rewrite succeeds_cons in H. destruct H as (H1 & H2).
  assert (given key (act_dict a d) -> given key d) as T.
  { destruct a; simpl; auto. intros G. apply given_put in G. destruct (String.eqb_spec key k) as [->|N]; auto. exfalso. apply (W k v); simpl; auto. }
  assert (a = Read key \/ (exists f, a = Test key f) \/ (In (Read key) l \/ (exists f, In (Test key f) l))) as [->|[(f & ->)|R']].
  { destruct R as [[->|R]|(f & [->|R])]; eauto. }
  - apply read_ok; auto.
  - unfold given. simpl in H1. destruct (get key d); congruence.
  - apply T. apply IH; auto. intros k v I. apply (W k v). simpl; auto.
Qed.

(** C122 (full claim: a dictionary with the documented parameters is enough). It holds for the layered sampler and for M-PMC. *)
Theorem C122_documented_partial :
  forall m docs d, In m [SLayeredAis; SMpmc] -> documented m = Some docs -> sensible d -> (forall k, In k docs -> given k d) ->
  exists d', construct (kind_of m) d = Done d'.
Proof.
  intros m docs d I D H G. apply C122_needed_parameters; auto.
  destruct I as [<-|[<-|[]]]; injection D as <-; (split; [intros k J; apply G; cbn in *; tauto|discriminate]).
Qed.
Print Assumptions C122_documented_partial.
Example C122_documented_partial_example : exists docs, documented SLayeredAis = Some docs /\ sensible example_layered /\ forall k, In k docs -> given k example_layered.
Proof.
  eexists. split; [reflexivity|]. split; [apply example_layered_sensible|]. intros k I. cbn in I. unfold given.
  repeat (destruct I as [<-|I]; [discriminate|]). destruct I.
Qed.

(** C122: for the other five methods with documentation, every dictionary that has documented parameters only makes the constructor fail,
    whatever the values. *)
Theorem C122_documented_refuted :
  exists ms, ms = [SMetropolis; SMultiNested; SDmAis; STreePyramid; SHiDaisee] /\
  forall m, In m ms -> exists docs, documented m = Some docs /\
    forall d, (forall k, given k d -> In k docs) -> exists e d', construct (kind_of m) d = Failed e d'.
Proof.
  eexists. split; [reflexivity|].
  assert (forall key l docs d, (forall k v, In (Write k v) l -> k <> key) -> In (Read key) l -> ~ In key docs -> (forall k, given k d -> In k docs) ->
          exists e d', acts_run l d = Failed e d') as G.
  { intros key l docs d W R N O. destruct (acts_done l d) as [S0|F]; auto. exfalso. apply N, O. apply (must_read key l); auto. }
  intros m [<-|[<-|[<-|[<-|[<-|[]]]]]]; eexists; (split; [reflexivity|]); intros d O; unfold construct; refine (G _ _ _ d _ _ _ O).
  all: cbn [script kind_of mixture_init is_init app].
  2: instantiate (1 := "kde_bw").
  5: instantiate (1 := "inflate_factor").
  8: instantiate (1 := "sigma").
  11: instantiate (1 := "dims").
  14: instantiate (1 := "dims").
  all: try (cbn; tauto).
  all: try (intros k v I; cbn in I; intuition (try discriminate); match goal with Y : Write _ _ = Write _ _ |- _ => injection Y as <- <-; discriminate end).
  all: cbn; intros I; repeat (destruct I as [I|I]; [discriminate I|]); exact I.
Qed.
Print Assumptions C122_documented_refuted.

(** C122: every entry of def_methods.yaml builds its method, in boxes of any dimension. *)
Theorem C122_shipped_entries : forall n k params, In (k, params) shipped_entries -> exists d', construct k (entry_dict n params) = Done d'.
Proof.
  intros n k params I. assert (Qeq_bool (Qnat n) (Qnat n) = true) as E by (apply Qeq_bool_iff; apply Qeq_refl).
  repeat (destruct I as [I|I]; [injection I as <- <-; unfold construct; cbn; rewrite ?Nat.eqb_refl, ?E; cbn; eexists; reflexivity|]).
  destruct I.
Qed.
Print Assumptions C122_shipped_entries.
Example C122_shipped_entries_example : length shipped_entries = 8%nat /\ In TreePyramid (map fst shipped_entries).
Proof. split; [reflexivity|cbn; tauto]. Qed.

(** C122: the Metropolis-Hastings entry of the README raises KeyError in every box, and so do the samplers of the two animations. *)
Theorem C122_readme_refuted : exists params, params = readme_metropolis /\ forall n, exists d, construct Metropolis (entry_dict n params) = Failed KeyError d.
Proof.
  eexists. split; [reflexivity|]. intros n. assert (Qeq_bool (Qnat n) (Qnat n) = true) as E by (apply Qeq_bool_iff; apply Qeq_refl).
  unfold construct. cbn. rewrite ?Nat.eqb_refl, ?E. cbn. eexists. reflexivity.
Qed.
Print Assumptions C122_readme_refuted.
Theorem C122_animations_refuted :
  exists d1 d2, construct Metropolis animation_metropolis = Failed KeyError d1 /\ construct TreePyramid animation_tree = Failed KeyError d2 /\
  (exists d', construct Metropolis (("n_samples_kde", VNum 100) :: animation_metropolis) = Done d') /\
  (exists d', construct TreePyramid (("ess_target", VNum (1 # 2)) :: ("n_min", VNum 5) :: ("parallel_samples", VNum 8) :: animation_tree) = Done d').
Proof. do 2 eexists. split; [reflexivity|]. split; [reflexivity|]. split; eexists; reflexivity. Qed.
Print Assumptions C122_animations_refuted.
