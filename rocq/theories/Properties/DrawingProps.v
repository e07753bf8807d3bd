(** C100: pictures show the latest state of every item (visualization/matplotlib/viz_interface.py). *)
From Coq Require Import List Bool Arith Lia Permutation.
Import ListNotations.
From Verif Require Import Prelude.Py Model.Drawing Spec.DrawingSpec.

Section Proofs.
Context {D : Type}.
Notation item := (item D).
Notation canvas := (canvas D).
Notation entry := (nat * (item * part))%type.

(** The artists of an item whose first handle is s, what draw_item lists of them, and what removing the listed ones leaves. *)
Definition tick_pair (it : item) (s k : nat) : list entry := [(S (s + 2 * k), (it, TickLine k)); (S (S (s + 2 * k)), (it, TickLabel k))].
Definition full (it : item) (s : nat) : list entry :=
  match i_shape it with
  | Axis n => (s, (it, AxisLine)) :: flat_map (tick_pair it s) (seq 0 n)
  | Func => [(s, (it, Curve))]
  | Point => [(s, (it, Dot))]
  | Other => []
  end.
Definition size (it : item) : nat := match i_shape it with Axis n => S (2 * n) | Func => 1 | Point => 1 | Other => 0 end.
Definition listing (it : item) (s : nat) : drawn :=
  match i_shape it with
  | Axis n => Listed (s :: map (fun k => S (S (s + 2 * k))) (seq 0 n) ++ [match n with O => s | S m => S (s + 2 * m) end])
  | Func => Listed [s]
  | Point => Single s
  | Other => Listed []
  end.
Definition left (it : item) (s : nat) : list entry :=
  match i_shape it with
  | Axis n => map (fun k => (S (s + 2 * k), (it, TickLine k))) (seq 0 (n - 1))
  | _ => []
  end.

Lemma full_snd it s : map snd (full it s) = whole it.
Proof.
  unfold full, whole. destruct (i_shape it) as [n| | |]; simpl; auto. f_equal.
  induction (seq 0 n) as [|k l IH]; simpl; auto. now rewrite IH.
Qed.
Lemma full_range it s : Forall (fun a => s <= fst a < s + size it)%nat (full it s).
Proof.
  unfold full, size. destruct (i_shape it) as [n| | |]; repeat constructor; simpl; try lia.
  apply Forall_forall. intros a H. apply in_flat_map in H. destruct H as (k & K & H). apply in_seq in K.
  destruct H as [<-|[<-|[]]]; simpl; lia.
Qed.
Lemma ticks_spec it n : forall k (c : canvas) elems l s, c_next c = S (s + 2 * k) ->
  draw_ticks c it k n elems l =
  (mkCanvas (c_next c + 2 * n) (c_artists c ++ flat_map (tick_pair it s) (seq k n)),
   (elems ++ map (fun j => S (S (s + 2 * j))) (seq k n), match n with O => l | S m => S (s + 2 * (k + m)) end)).
Proof.
  induction n as [|n IH]; intros k c elems l s E; simpl.
  - rewrite !app_nil_r, Nat.add_0_r. destruct c; reflexivity.
  - rewrite (IH (S k) _ _ _ s); simpl; [|lia]. rewrite E. f_equal; [|f_equal].
    + f_equal; [lia|]. rewrite <- !app_assoc. simpl. reflexivity.
    + rewrite <- app_assoc. reflexivity.
    + destruct n; simpl; lia.
Qed.
Lemma draw_spec c it : i_shape it <> Other ->
  draw_item c it = (mkCanvas (c_next c + size it) (c_artists c ++ full it (c_next c)), Ok (listing it (c_next c))).
Proof.
  intros H. unfold draw_item, size, full, listing. destruct (i_shape it) as [n| | |]; simpl; try (now rewrite ?Nat.add_1_r).
  rewrite (ticks_spec it n 0 _ _ _ (c_next c)) by (simpl; lia). simpl. f_equal. f_equal; try lia; now rewrite <- app_assoc.
Qed.

(** Removing distinct artists that are all there. *)
Definition inb (h : nat) (l : list nat) : bool := existsb (Nat.eqb h) l.
Lemma inb_in h l : inb h l = true <-> In h l.
Proof.
  unfold inb. rewrite existsb_exists. split; [intros (x & X & E); apply Nat.eqb_eq in E; now subst|intros; exists h; split; auto; apply Nat.eqb_refl].
Qed.
Lemma filter_filter {A} (f g : A -> bool) l : filter f (filter g l) = filter (fun a => g a && f a) l.
Proof. induction l as [|a l IH]; simpl; auto. destruct (g a); simpl; [destruct (f a)|]; now rewrite IH. Qed.
Lemma filter_keep {A} (f : A -> bool) l : (forall a, In a l -> f a = true) -> filter f l = l.
Proof. induction l as [|a l IH]; intros H; simpl; auto. rewrite (H a) by (left; auto). f_equal. apply IH. intros b B. apply H. now right. Qed.
Lemma remove_spec hs : forall c : canvas, NoDup hs -> (forall h, In h hs -> In h (map fst (c_artists c))) ->
  remove_all c hs = (mkCanvas (c_next c) (filter (fun a => negb (inb (fst a) hs)) (c_artists c)), Ok tt).
Proof.
  induction hs as [|h hs IH]; intros c ND IN; simpl.
  - rewrite filter_keep by reflexivity. now destruct c.
  - unfold remove_artist. assert (X : existsb (fun a => (fst a =? h)%nat) (c_artists c) = true).
    { apply existsb_exists. specialize (IN h (or_introl eq_refl)). apply in_map_iff in IN. destruct IN as (a & E & A).
      exists a. split; [exact A|]. now apply Nat.eqb_eq. }
    rewrite X. inversion ND; subst. rewrite IH; [|assumption|].
    + simpl. rewrite filter_filter. do 2 f_equal. apply filter_ext. intros a. unfold inb. simpl. now rewrite negb_orb.
    + intros g G. simpl. specialize (IN g (or_intror G)). apply in_map_iff in IN. destruct IN as (a & E & A).
      apply in_map_iff. exists a. split; [exact E|]. apply filter_In. split; [exact A|].
      apply negb_true_iff, Nat.eqb_neq. rewrite E. intros ->. contradiction.
Qed.

(** The listed artists of an item can be removed, which leaves [left]. *)
Definition P_ok (s : shape) : Prop := match s with Axis n => (0 < n)%nat | Func => True | _ => False end.
Lemma seq_map_nodup (f : nat -> nat) : (forall a b, f a = f b -> a = b) -> forall n k, NoDup (map f (seq k n)).
Proof. intros I n k. apply FinFun.Injective_map_NoDup; [exact I|apply seq_NoDup]. Qed.
Lemma listing_removable it s : P_ok (i_shape it) -> exists hs, listing it s = Listed hs /\ NoDup hs /\
  (forall h, In h hs -> In h (map fst (full it s))) /\ filter (fun a => negb (inb (fst a) hs)) (full it s) = left it s.
Proof.
  unfold P_ok, listing, full, left. destruct (i_shape it) as [n| | |]; intros P; try contradiction.
  - destruct n as [|m]; [lia|]. eexists. split; [reflexivity|].
    set (labels := map (fun k => S (S (s + 2 * k))) (seq 0 (S m))).
    assert (LB : forall h, In h labels <-> exists k, (k < S m)%nat /\ h = S (S (s + 2 * k))).
    { intros h. unfold labels. rewrite in_map_iff. split; intros (k & A & B); exists k; [|split]; try (apply in_seq in B; split; [lia|auto]).
      - auto. - apply in_seq. lia. }
    split; [|split].
    + constructor.
      * intros H. apply in_app_iff in H. destruct H as [H|[H|[]]]; [apply LB in H; destruct H as (k & _ & H); lia|lia].
      * apply NoDup_app_remove_r || idtac.
        assert (NoDup ([S (s + 2 * m)] ++ labels)) as N.
        { simpl. constructor; [intros H; apply LB in H; destruct H as (k & _ & H); lia|]. apply seq_map_nodup. intros; lia. }
        eapply Permutation_NoDup; [|exact N]. apply Permutation_app_comm.
    + intros h [<-|H]; [left; reflexivity|]. right. rewrite in_map_iff. apply in_app_iff in H. destruct H as [H|[<-|[]]].
      * apply LB in H. destruct H as (k & K & ->). exists (S (S (s + 2 * k)), (it, TickLabel k)). split; [reflexivity|].
        apply in_flat_map. exists k. split; [apply in_seq; lia|]. simpl. auto.
      * exists (S (s + 2 * m), (it, TickLine m)). split; [reflexivity|]. apply in_flat_map. exists m. split; [apply in_seq; lia|]. simpl. auto.
    + set (hs := s :: labels ++ [S (s + 2 * m)]).
      assert (I0 : inb s hs = true) by (apply inb_in; left; reflexivity).
      assert (IL : forall k, (k < S m)%nat -> inb (S (S (s + 2 * k))) hs = true).
      { intros k K. apply inb_in. right. apply in_app_iff. left. apply LB. eauto. }
      assert (IT : inb (S (s + 2 * m)) hs = true) by (apply inb_in; right; apply in_app_iff; right; left; reflexivity).
      assert (IN : forall k, (k < m)%nat -> inb (S (s + 2 * k)) hs = false).
      { intros k K. apply not_true_iff_false. intros H. apply inb_in in H. destruct H as [H|H]; [lia|].
        apply in_app_iff in H. destruct H as [H|[H|[]]]; [apply LB in H; destruct H as (j & _ & H); lia|lia]. }
      cbn [filter fst]. rewrite I0. cbn [negb]. replace (S m - 1)%nat with m by lia.
      rewrite seq_S, flat_map_app, filter_app. cbn [plus flat_map app].
      assert (T : filter (fun a => negb (inb (fst a) hs)) (tick_pair it s m ++ []) = []).
      { unfold tick_pair. rewrite app_nil_r. cbn [filter fst]. rewrite IT, IL by lia. reflexivity. }
      rewrite T, app_nil_r. assert (G : forall n k, (k + n <= m)%nat -> filter (fun a => negb (inb (fst a) hs)) (flat_map (tick_pair it s) (seq k n)) =
        map (fun k => (S (s + 2 * k), (it, TickLine k))) (seq k n)).
      { induction n as [|n IHn]; intros k K; [reflexivity|]. cbn [seq flat_map map]. rewrite filter_app, IHn by lia. unfold tick_pair at 1.
        cbn [filter fst]. rewrite IN, IL by lia. reflexivity. }
      apply G. lia.
  - exists [s]. split; [reflexivity|]. split; [repeat constructor; auto|]. split; [auto|]. simpl. rewrite Nat.eqb_refl. reflexivity.
Qed.

(** Ghost: the items drawn so far, with first handle, and whether they are still the latest with their id. *)
Definition block : Type := (item * nat * bool)%type.
Definition arts (b : block) : list entry := let '(it, s, live) := b in if (live : bool) then full it s else left it s.
Definition is_live (i : nat) (b : block) : bool := let '(it, s, live) := b in (i_id it =? i)%nat && live.
Definition retire (i : nat) (b : block) : block := let '(it, s, live) := b in (it, s, live && negb (i_id it =? i)%nat).
Definition range (b : block) : nat * nat := let '(it, s, _) := b in (s, s + size it)%nat.

Definition before (b1 b2 : block) : Prop := (snd (range b1) <= fst (range b2))%nat.
Definition apart (b1 b2 : block) : Prop := forall i, is_live i b1 = true -> is_live i b2 = true -> False.
Definition pick (b : block) : drawn := let '(it, s, _) := b in listing it s.

Record inv (base : list entry) (n0 : nat) (bs : list block) (c : canvas) (t : table) : Prop := mkInv {
  inv_base : Forall (fun a => fst a < n0)%nat base;
  inv_art : c_artists c = base ++ flat_map arts bs;
  inv_from : Forall (fun b => n0 <= fst (range b) /\ snd (range b) <= c_next c)%nat bs;
  inv_order : ForallOrdPairs before bs;
  inv_n0 : (n0 <= c_next c)%nat;
  inv_one : ForallOrdPairs apart bs;
  inv_tab : forall i, lookup t i = option_map pick (find (is_live i) bs) }.

Lemma fop_snoc {A} (R : A -> A -> Prop) l b : ForallOrdPairs R l -> Forall (fun a => R a b) l -> ForallOrdPairs R (l ++ [b]).
Proof.
  induction 1 as [|a l F O IH]; intros G; simpl; [repeat constructor|]. inversion G; subst. constructor; [|now apply IH].
  apply Forall_app. split; [exact F|]. repeat constructor. assumption.
Qed.
Lemma fop_split {A} (R : A -> A -> Prop) l1 b l2 : ForallOrdPairs R (l1 ++ b :: l2) -> Forall (fun a => R a b) l1 /\ Forall (R b) l2.
Proof.
  induction l1 as [|a l1 IH]; simpl; intros H; inversion H as [|? ? F O]; subst; [split; auto|].
  destruct (IH O) as [I1 I2]. split; [|exact I2]. constructor; [|exact I1]. rewrite Forall_app in F. destruct F as [_ F]. now inversion F.
Qed.
Lemma fop_map {A} (R : A -> A -> Prop) (g : A -> A) l : (forall a b, R a b -> R (g a) (g b)) -> ForallOrdPairs R l -> ForallOrdPairs R (map g l).
Proof.
  intros G. induction 1 as [|a l F O IH]; simpl; constructor; auto. rewrite Forall_map. eapply Forall_impl; [|exact F]. intros; now apply G.
Qed.
Lemma retire_range i b : range (retire i b) = range b.
Proof. now destruct b as [[it s] l]. Qed.
Lemma retire_idle i b : is_live i b = false -> retire i b = b.
Proof. destruct b as [[it s] l]; simpl. destruct (i_id it =? i)%nat; simpl; [intros ->; reflexivity|now rewrite andb_true_r]. Qed.
Lemma retire_live i j b : is_live j (retire i b) = negb (j =? i)%nat && is_live j b.
Proof.
  destruct b as [[it s] l]; simpl. destruct (Nat.eqb_spec (i_id it) j) as [E|]; simpl; [|now rewrite andb_false_r].
  rewrite E. apply andb_comm.
Qed.
Lemma retire_pick i b : pick (retire i b) = pick b.
Proof. now destruct b as [[it s] l]. Qed.
Lemma left_range it s : Forall (fun a => s <= fst a < s + size it)%nat (left it s).
Proof.
  unfold left, size. destruct (i_shape it) as [n| | |]; try constructor. apply Forall_forall. intros a H. apply in_map_iff in H.
  destruct H as (k & <- & K). apply in_seq in K. simpl. lia.
Qed.
Lemma arts_range b : Forall (fun a => fst (range b) <= fst a < snd (range b))%nat (arts b).
Proof. destruct b as [[it s] []]; simpl; [apply full_range|apply left_range]. Qed.
Lemma find_map {A} (f : A -> bool) (g : A -> A) l : find f (map g l) = option_map g (find (fun a => f (g a)) l).
Proof. induction l as [|a l IH]; simpl; auto. destruct (f (g a)); auto. Qed.
Lemma find_app {A} (f : A -> bool) l m : find f (l ++ m) = match find f l with Some a => Some a | None => find f m end.
Proof. induction l as [|a l IH]; simpl; auto. destruct (f a); auto. Qed.
Lemma find_none_false {A} (f : A -> bool) l : (forall a, f a = false) -> find f l = None.
Proof. intros H. induction l as [|a l IH]; simpl; auto. now rewrite H. Qed.
Lemma find_ext {A} (f g : A -> bool) l : (forall a, f a = g a) -> find f l = find g l.
Proof. intros H. induction l as [|a l IH]; simpl; auto. now rewrite H, IH. Qed.
Lemma find_split {A} (f : A -> bool) l a : find f l = Some a -> exists l1 l2, l = l1 ++ a :: l2 /\ Forall (fun b => f b = false) l1 /\ f a = true.
Proof.
  induction l as [|b l IH]; simpl; [discriminate|]. destruct (f b) eqn:F.
  - intros [= ->]. exists [], l. auto.
  - intros H. destruct (IH H) as (l1 & l2 & -> & G & E). exists (b :: l1), l2. auto.
Qed.
Lemma lookup_assign t i d j : lookup (assign t i d) j =
  if (j =? i)%nat then match lookup t i with None => None | Some _ => Some d end else lookup t j.
Proof.
  induction t as [|[k e] t IH]; simpl; [now destruct (j =? i)%nat|].
  destruct (Nat.eqb_spec k i) as [->|K]; simpl.
  - rewrite (Nat.eqb_sym i j). destruct (j =? i)%nat; reflexivity.
  - rewrite IH. destruct (Nat.eqb_spec k j) as [->|]; [|reflexivity]. destruct (Nat.eqb_spec j i); congruence.
Qed.
Lemma lookup_snoc t i d j : lookup (t ++ [(i, d)]) j = match lookup t j with Some e => Some e | None => if (i =? j)%nat then Some d else None end.
Proof. induction t as [|[k e] t IH]; simpl; auto. destruct (k =? j)%nat; auto. Qed.

(** The bookkeeping shared by both branches of a turn. *)
Lemma inv_next base n0 bs c t it c1 t' : inv base n0 bs c t ->
  c_next c1 = c_next c -> c_artists c1 = base ++ flat_map arts (map (retire (i_id it)) bs) ->
  (forall i, lookup t' i = if (i =? i_id it)%nat then Some (listing it (c_next c)) else lookup t i) ->
  inv base n0 (map (retire (i_id it)) bs ++ [(it, c_next c, true)])
      (mkCanvas (c_next c1 + size it) (c_artists c1 ++ full it (c_next c1))) t'.
Proof.
  intros [B A F O N U T] E1 E2 L. constructor; simpl; auto.
  - rewrite E2, E1, <- app_assoc, flat_map_app. simpl. now rewrite app_nil_r.
  - rewrite E1. apply Forall_app. split; [rewrite Forall_map; eapply Forall_impl; [|exact F]; intros b; rewrite retire_range; lia|].
    repeat constructor; simpl; lia.
  - apply fop_snoc.
    + apply fop_map; [|exact O]. unfold before. intros a b. now rewrite !retire_range.
    + rewrite Forall_map. eapply Forall_impl; [|exact F]. unfold before. intros b. rewrite retire_range. simpl. lia.
  - lia.
  - apply fop_snoc.
    + apply fop_map; [|exact U]. unfold apart. intros a b H i. rewrite !retire_live. intros X Y. apply andb_prop in X, Y. apply (H i); tauto.
    + rewrite Forall_map. apply Forall_forall. intros b _ i. rewrite retire_live. simpl. rewrite andb_true_r. intros X Y.
      apply andb_prop in X. destruct X as [X _]. apply Nat.eqb_eq in Y. subst i. now rewrite Nat.eqb_refl in X.
  - intros i. rewrite L, find_app, find_map. rewrite (find_ext _ (fun b => negb (i =? i_id it)%nat && is_live i b)) by (intros; apply retire_live).
    destruct (Nat.eqb_spec i (i_id it)) as [->|I]; simpl.
    + rewrite find_none_false by reflexivity. simpl. now rewrite Nat.eqb_refl.
    + rewrite T. destruct (find (is_live i) bs) as [b|]; simpl; [now rewrite retire_pick|].
      destruct (Nat.eqb_spec (i_id it) i); [congruence|reflexivity].
Qed.

Lemma turn_spec base n0 bs c t it : inv base n0 bs c t -> i_shape it <> Other ->
  (forall b, In b bs -> is_live (i_id it) b = true -> P_ok (i_shape (fst (fst b)))) ->
  exists c' t', draw_turn c t it = (c', Ok t') /\ inv base n0 (map (retire (i_id it)) bs ++ [(it, c_next c, true)]) c' t'.
Proof.
  intros I NO PO. pose proof I as [B A F O N U T]. unfold draw_turn. rewrite T.
  destruct (find (is_live (i_id it)) bs) as [[[old s] lv]|] eqn:FD; simpl.
  - destruct (find_split _ _ _ FD) as (l1 & l2 & E & N1 & LV). pose proof LV as LV'. simpl in LV'. apply andb_prop in LV'. destruct LV' as [ID ->].
    assert (P : P_ok (i_shape old)) by (apply (PO (old, s, true)); [rewrite E; apply in_elt|exact LV]).
    destruct (listing_removable old s P) as (hs & -> & ND & IN & FL).
    rewrite E in U, O, F. destruct (fop_split _ _ _ _ U) as [_ U2]. destruct (fop_split _ _ _ _ O) as [O1 O2].
    assert (N2 : Forall (fun b => is_live (i_id it) b = false) l2).
    { eapply Forall_impl; [|exact U2]. intros b H. apply not_true_iff_false. intros G. exact (H (i_id it) LV G). }
    assert (RB : map (retire (i_id it)) bs = l1 ++ (old, s, false) :: l2).
    { rewrite E, map_app. simpl map. f_equal; [|f_equal].
      - rewrite <- (map_id l1) at 2. apply map_ext_in. intros b H. rewrite Forall_forall in N1. now apply retire_idle, N1.
      - simpl. now rewrite ID.
      - rewrite <- (map_id l2) at 2. apply map_ext_in. intros b H. rewrite Forall_forall in N2. now apply retire_idle, N2. }
    assert (HR : forall h, In h hs -> (s <= h < s + size old)%nat).
    { intros h H. apply IN in H. apply in_map_iff in H. destruct H as (a & <- & H). pose proof (full_range old s) as R.
      rewrite Forall_forall in R. now apply R. }
    assert (OUT : forall h, (h < s \/ s + size old <= h)%nat -> negb (inb h hs) = true).
    { intros h H. apply negb_true_iff, not_true_iff_false. intros G. apply inb_in, HR in G. lia. }
    rewrite remove_spec; [|exact ND|].
    2:{ intros h H. apply IN in H. rewrite A, E, flat_map_app. simpl. rewrite !map_app, !in_app_iff. auto. }
    cbn beta iota. set (c1 := mkCanvas (c_next c) _). rewrite (draw_spec c1 it NO). eexists. eexists. split; [reflexivity|].
    apply (inv_next base n0 bs c t it c1); [exact I|reflexivity| |].
    + unfold c1; cbn [c_artists]. rewrite RB, A, E, !flat_map_app. simpl flat_map. rewrite !filter_app, FL. rewrite Forall_app in F. destruct F as [F1 F2].
      inversion F2 as [|? ? F3 F4]; subst. simpl in F3.
      rewrite (filter_keep _ base), (filter_keep _ (flat_map arts l1)), (filter_keep _ (flat_map arts l2)); [reflexivity| | |].
      * intros a H. apply in_flat_map in H. destruct H as (b & H1 & H2). apply OUT. right. rewrite Forall_forall in O2. specialize (O2 b H1).
        pose proof (arts_range b) as R. rewrite Forall_forall in R. specialize (R a H2). unfold before in O2. simpl in O2. lia.
      * intros a H. apply in_flat_map in H. destruct H as (b & H1 & H2). apply OUT. left. rewrite Forall_forall in O1. specialize (O1 b H1).
        pose proof (arts_range b) as R. rewrite Forall_forall in R. specialize (R a H2). unfold before in O1. simpl in O1. lia.
      * intros a H. apply OUT. left. rewrite Forall_forall in B. specialize (B a H). lia.
    + intros i. rewrite lookup_assign, T, FD. simpl. unfold c1; cbn [c_next]. reflexivity.
  - rewrite (draw_spec c it NO). eexists. eexists. split; [reflexivity|]. apply (inv_next base n0 bs c t it c); [exact I|reflexivity| |].
    + rewrite A. do 2 f_equal. rewrite <- (map_id bs) at 1. apply map_ext_in. intros b H. symmetry. apply retire_idle.
      eapply find_none; eauto.
    + intros i. rewrite lookup_snoc, (Nat.eqb_sym (i_id it) i). destruct (Nat.eqb_spec i (i_id it)) as [->|]; [now rewrite T, FD|].
      now destruct (lookup t i).
Qed.

(** What is left of an item after a later one with its id was drawn. *)
Definition remains (it : item) : list (item * part) :=
  match i_shape it with Axis n => map (fun k => (it, TickLine k)) (seq 0 (n - 1)) | _ => [] end.
Fixpoint shown_list (l : list item) : list (item * part) :=
  match l with [] => [] | it :: r => (if appears (i_id it) r then remains it else whole it) ++ shown_list r end.
Lemma left_snd it s : map snd (left it s) = remains it.
Proof. unfold left, remains. destruct (i_shape it); auto. rewrite map_map. reflexivity. Qed.
Definition seen (l : list item) (b : block) : list (item * part) :=
  let '(it, s, live) := b in if live && negb (appears (i_id it) l) then whole it else remains it.
Lemma seen_nil b : seen [] b = map snd (arts b).
Proof. destruct b as [[it s] []]; simpl; [now rewrite full_snd|now rewrite left_snd]. Qed.
Lemma seen_retire it l b : seen l (retire (i_id it) b) = seen (it :: l) b.
Proof.
  destruct b as [[x s] lv]; simpl. rewrite (Nat.eqb_sym (i_id it)). rewrite negb_orb, andb_assoc. reflexivity.
Qed.

Lemma from_spec base n0 l : forall bs c t, inv base n0 bs c t -> replaceable P_ok l ->
  (forall b, In b bs -> (let '(x, _, live) := b in live = true /\ appears (i_id x) l = true) -> P_ok (i_shape (fst (fst b)))) ->
  exists c', draw_from c t l = (c', Ok tt) /\ visible c' = map snd base ++ flat_map (seen l) bs ++ shown_list l /\ sound c'.
Proof.
  induction l as [|it l IH]; intros bs c t I RP PO.
  - exists c. split; [reflexivity|]. destruct I as [B A F O N U T]. split.
    + unfold visible. rewrite A, map_app, flat_map_concat_map, concat_map, map_map, <- flat_map_concat_map. simpl. rewrite app_nil_r. f_equal.
      apply flat_map_ext. intros b. symmetry. apply seen_nil.
    + unfold sound. rewrite A. apply Forall_app. split; [eapply Forall_impl; [|exact B]; simpl; lia|].
      apply Forall_forall. intros a H. apply in_flat_map in H. destruct H as (b & H1 & H2). rewrite Forall_forall in F. specialize (F b H1).
      pose proof (arts_range b) as R. rewrite Forall_forall in R. specialize (R a H2). simpl in R. lia.
  - destruct RP as (NO & PI & RP). destruct (turn_spec base n0 bs c t it I NO) as (c1 & t1 & E & I1).
    { intros b H LV. apply PO; [exact H|]. destruct b as [[x s] lv]. simpl in LV. apply andb_prop in LV. destruct LV as [LV ->].
      split; [reflexivity|]. simpl. rewrite Nat.eqb_sym, LV. reflexivity. }
    destruct (IH _ _ _ I1 RP) as (c' & E' & V & S).
    { intros b H. apply in_app_iff in H. destruct H as [H|[<-|[]]].
      - apply in_map_iff in H. destruct H as (b0 & <- & H). specialize (PO b0 H). destruct b0 as [[x s] lv]. simpl in *.
        intros [X Y]. apply PO. apply andb_prop in X. split; [tauto|]. rewrite Y. apply orb_true_r.
      - simpl. intros [_ Y]. now apply PI. }
    exists c'. simpl draw_from. rewrite E. split; [exact E'|]. split; [|exact S]. rewrite V, flat_map_app. f_equal. rewrite <- app_assoc. f_equal.
    + rewrite flat_map_concat_map, map_map, <- flat_map_concat_map. apply flat_map_ext. intros b. apply seen_retire.
    + simpl. rewrite app_nil_r. f_equal. now destruct (appears (i_id it) l).
Qed.

Lemma sequence_shown c l : sound c -> replaceable P_ok l ->
  exists c', draw_sequence c l = (c', Ok tt) /\ visible c' = visible c ++ shown_list l /\ sound c'.
Proof.
  intros S R. apply (from_spec (c_artists c) (c_next c) l []); [|exact R|intros b []].
  constructor; simpl; auto; try constructor. now rewrite app_nil_r.
Qed.
End Proofs.

(** Kinds of items that can be replaced without a trace: functions, and axes with one tick. *)
Definition clean (s : shape) : Prop := s = Func \/ s = Axis 1.
Lemma replaceable_impl {D} (P R : shape -> Prop) (l : list (item D)) : (forall s, P s -> R s) -> replaceable P l -> replaceable R l.
Proof. intros H. induction l as [|it l IH]; simpl; auto. intros (A & B & C). auto. Qed.
Lemma shown_clean {D} (l : list (item D)) : replaceable clean l -> shown_list l = picture l.
Proof.
  unfold picture. induction l as [|it l IH]; simpl; auto. intros (_ & P & R). destruct (appears (i_id it) l); simpl; [|now rewrite IH].
  rewrite IH by exact R. unfold remains. destruct (P eq_refl) as [->| ->]; reflexivity.
Qed.

(** draw_sequence: on top of what was on the canvas, exactly the latest item of every id, complete and in drawing order, provided
    that the replaced items are functions or axes with one tick. *)
Theorem C100_picture_partial : forall D (c : canvas D) l, sound c -> replaceable clean l ->
  exists c', draw_sequence c l = (c', Ok tt) /\ visible c' = visible c ++ picture l /\ sound c'.
Proof.
  intros D c l S R. destruct (sequence_shown c l S) as (c' & E & V & S').
  - eapply replaceable_impl; [|exact R]. intros s [-> | ->]; simpl; auto.
  - exists c'. now rewrite <- shown_clean.
Qed.
Print Assumptions C100_picture_partial.

(** draw_frames: at every pause the figure shows the static items and the items of that frame and nothing of other frames. *)
Theorem C100_frames_partial : forall D (frames : list (list (item D))) c static,
  replaceable clean static -> Forall (replaceable clean) frames ->
  exists shown, draw_frames c frames static = (shown, Ok tt) /\ map visible shown = map (fun f => picture static ++ picture f) frames.
Proof.
  intros D frames. induction frames as [|f r IH]; intros c static S F; simpl; [now exists []|]. inversion F as [|? ? F1 F2]; subst.
  destruct (C100_picture_partial D (mkCanvas (c_next c) []) static) as (c1 & E1 & V1 & S1); [constructor|exact S|]. rewrite E1.
  destruct (C100_picture_partial D c1 f S1 F1) as (c2 & E2 & V2 & S2). rewrite E2.
  destruct (IH c2 static S F2) as (sh & E3 & V3). rewrite E3. exists (c2 :: sh). split; [reflexivity|]. simpl. now rewrite V3, V2, V1.
Qed.
Print Assumptions C100_frames_partial.

(** The exact picture with axes of any number of ticks: of a replaced axis all tick lines but the last one stay. *)
Theorem C100_axis_remains : forall D (c : canvas D) n m i d e,
  (0 < n)%nat -> sound c ->
  let old := mkItem i (Axis n) d in let new := mkItem i (Axis m) e in
  exists c', draw_sequence c [old; new] = (c', Ok tt) /\
    visible c' = visible c ++ map (fun k => (old, TickLine k)) (seq 0 (n - 1)) ++ whole new.
Proof.
  intros D c n m i d e N S old new. destruct (sequence_shown c [old; new] S) as (c' & E & V & _).
  - simpl. rewrite Nat.eqb_refl. repeat split; try discriminate. intros _. exact N.
  - exists c'. split; [exact E|]. rewrite V. simpl. rewrite Nat.eqb_refl. simpl. now rewrite app_nil_r.
Qed.
Print Assumptions C100_axis_remains.

(** Replacing does not work for the axes with the default ten ticks: nine tick lines of the old axis stay on the canvas. *)
Theorem C100_axis_refuted : exists (l : list (item nat)) c', Forall (fun it => i_shape it = Axis 10) l /\
  draw_sequence (mkCanvas 0 []) l = (c', Ok tt) /\ visible c' <> picture l /\ length (visible c') = (length (picture l) + 9)%nat.
Proof.
  destruct (C100_axis_remains nat (mkCanvas 0 []) 10 10 5 1 2) as (c' & E & V); [lia|constructor|].
  exists [mkItem 5 (Axis 10) 1; mkItem 5 (Axis 10) 2], c'. split; [repeat constructor|]. split; [exact E|]. rewrite V. split; [|reflexivity].
  intros H. apply (f_equal (@length _)) in H. vm_compute in H. discriminate.
Qed.
Print Assumptions C100_axis_refuted.

(** A point that appears again ends the call with TypeError, and an axis without ticks with NotImplementedError, whatever was drawn
    before and whatever should replace it. *)
Theorem C100_replacing_fails : forall D (c : canvas D) pre (old new : item D) rest,
  sound c -> replaceable clean pre -> appears (i_id old) pre = false -> i_id new = i_id old ->
  (i_shape old = Point -> exists c', draw_sequence c (pre ++ old :: new :: rest) = (c', Raise TypeError)) /\
  (i_shape old = Axis 0 -> exists c', draw_sequence c (pre ++ old :: new :: rest) = (c', Raise NotImplementedError)).
Proof.
  intros D c pre old new rest S RP AP ID.
  (* the state when the old item has been drawn *)
  assert (H : i_shape old <> Other -> exists c1 t1, draw_from c [] (pre ++ old :: new :: rest) = draw_from c1 t1 (new :: rest) /\
     lookup t1 (i_id old) = Some (listing old (c_next c1 - size old)) /\ (size old <= c_next c1)%nat /\
     exists a, c_artists c1 = a ++ full old (c_next c1 - size old)).
  { intros NO.
    assert (K : forall l bs c0 t0, inv (c_artists c) (c_next c) bs c0 t0 -> replaceable P_ok l ->
      (forall b, In b bs -> (let '(x, _, live) := b in live = true /\ appears (i_id x) (l ++ [old]) = true) -> P_ok (i_shape (fst (fst b)))) ->
      appears (i_id old) l = false ->
      exists c1 t1, draw_from c0 t0 (l ++ old :: new :: rest) = draw_from c1 t1 (new :: rest) /\
       lookup t1 (i_id old) = Some (listing old (c_next c1 - size old)) /\ (size old <= c_next c1)%nat /\
       exists a, c_artists c1 = a ++ full old (c_next c1 - size old)).
    { induction l as [|it l IH]; intros bs c0 t0 I R PO AL.
      - destruct (turn_spec _ _ _ _ _ old I NO) as (c1 & t1 & E & I1).
        { intros b H LV. apply PO; [exact H|]. destruct b as [[x s] lv]. simpl in LV. apply andb_prop in LV. destruct LV as [LV ->].
          split; [reflexivity|]. simpl. rewrite Nat.eqb_sym, LV. reflexivity. }
        exists c1, t1. simpl app. cbn [draw_from]. rewrite E. split; [reflexivity|].
        assert (NX : c_next c1 = (c_next c0 + size old)%nat).
        { revert E. unfold draw_turn. destruct (lookup t0 (i_id old)) as [[hs|h]|].
          - assert (RA : forall hs (c : canvas D), c_next (fst (remove_all c hs)) = c_next c).
            { clear. induction hs as [|h hs IH]; intros c; simpl; auto. unfold remove_artist. destruct (existsb _ _); [now rewrite IH|reflexivity]. }
            specialize (RA hs c0). destruct (remove_all c0 hs) as [c2 [u|e]]; [|discriminate]. rewrite (draw_spec c2 old NO). intros [= <- _].
            simpl in *. now rewrite RA.
          - discriminate.
          - rewrite (draw_spec c0 old NO). now intros [= <- _]. }
        rewrite NX. replace (c_next c0 + size old - size old)%nat with (c_next c0) by lia. destruct I1 as [_ A1 _ _ _ _ T1]. split; [|split].
        + rewrite T1, find_app, find_map.
          rewrite (find_ext _ (fun b => negb (i_id old =? i_id old)%nat && is_live (i_id old) b)) by (intros; apply retire_live).
          rewrite Nat.eqb_refl. simpl. rewrite find_none_false by reflexivity. simpl. now rewrite Nat.eqb_refl.
        + lia.
        + rewrite A1, flat_map_app. simpl. rewrite app_nil_r, app_assoc. eexists. reflexivity.
      - destruct R as (NO1 & PI & R). simpl in AL. apply orb_false_iff in AL. destruct AL as [AL1 AL2].
        destruct (turn_spec _ _ _ _ _ it I NO1) as (c1 & t1 & E & I1).
        { intros b H LV. apply PO; [exact H|]. destruct b as [[x s] lv]. simpl in LV. apply andb_prop in LV. destruct LV as [LV ->].
          split; [reflexivity|]. simpl. rewrite Nat.eqb_sym, LV. reflexivity. }
        simpl app. cbn [draw_from]. rewrite E. apply (IH _ _ _ I1 R); [|exact AL2].
        intros b H. apply in_app_iff in H. destruct H as [H|[<-|[]]].
        + apply in_map_iff in H. destruct H as (b0 & <- & H). specialize (PO b0 H). destruct b0 as [[x s] lv]. simpl in *.
          intros [X Y]. apply PO. apply andb_prop in X. split; [tauto|]. rewrite Y. apply orb_true_r.
        + simpl. intros [_ Y]. apply PI. unfold appears in Y |- *. rewrite existsb_app in Y. apply orb_prop in Y. destruct Y as [Y|Y]; [exact Y|].
          simpl in Y. rewrite orb_false_r in Y. apply Nat.eqb_eq in Y. rewrite Y, Nat.eqb_refl in AL1. discriminate. }
    apply (K pre [] c []); auto; [|eapply replaceable_impl; [|exact RP]; intros s [-> | ->]; simpl; auto|intros b []].
    constructor; simpl; auto; try constructor. now rewrite app_nil_r. }
  split; intros SH; destruct H as (c1 & t1 & E & L & SZ & a & A); try (rewrite SH; discriminate);
    unfold draw_sequence; rewrite E; cbn [draw_from]; unfold draw_turn; rewrite ID, L; unfold listing; rewrite SH.
  - eexists. reflexivity.
  - set (s := (c_next c1 - size old)%nat) in *. simpl app. cbn [remove_all]. unfold remove_artist at 1.
    assert (X : existsb (fun q => (fst q =? s)%nat) (c_artists c1) = true).
    { rewrite A. apply existsb_exists. exists (s, (old, AxisLine)). split; [|apply Nat.eqb_refl]. apply in_app_iff. right.
      unfold full. rewrite SH. now left. }
    rewrite X. cbn [remove_all]. unfold remove_artist. cbn [c_artists].
    assert (Y : existsb (fun q => (fst q =? s)%nat) (filter (fun q => negb (fst q =? s)%nat) (c_artists c1)) = false).
    { apply not_true_iff_false. intros H. apply existsb_exists in H. destruct H as (q & Q & H). apply filter_In in Q. destruct Q as [_ Q].
      rewrite H in Q. discriminate. }
    rewrite Y. eexists. reflexivity.
Qed.
Print Assumptions C100_replacing_fails.

(** Moving a point by drawing it again, as the animations do, is therefore impossible. *)
Theorem C100_point_refuted : exists (l : list (item nat)) c', Forall (fun it => i_shape it = Point) l /\
  draw_sequence (mkCanvas 0 []) l = (c', Raise TypeError).
Proof.
  destruct (C100_replacing_fails nat (mkCanvas 0 []) [] (mkItem 3 Point 1) (mkItem 3 Point 2) []) as [H _]; try constructor.
  destruct (H eq_refl) as (c' & E). exists [mkItem 3 Point 1; mkItem 3 Point 2], c'. split; [repeat constructor|exact E].
Qed.
Print Assumptions C100_point_refuted.

(** A curve drawn three times among an axis and a point: the last version of the curve on top of both. *)
Definition scene : list (item nat) := [mkItem 0 (Axis 10) 0; mkItem 2 Func 1; mkItem 2 Func 2; mkItem 3 Point 0; mkItem 2 Func 3].
Lemma scene_ok : replaceable clean scene.
Proof. unfold clean. simpl. intuition discriminate. Qed.
Example C100_picture_example : exists c', draw_sequence (mkCanvas 0 []) scene = (c', Ok tt) /\
  visible c' = whole (mkItem 0 (Axis 10) 0) ++ [(mkItem 3 Point 0, Dot); (mkItem 2 Func 3, Curve)].
Proof.
  destruct (C100_picture_partial nat (mkCanvas 0 []) scene) as (c' & E & V & _); [constructor|exact scene_ok|]. exists c'. split; [exact E|exact V].
Qed.
Example C100_frames_example : exists shown, draw_frames (mkCanvas 7 [(3, (mkItem 1 Func 0, Curve))]) [scene; [mkItem 9 Point 4]] [mkItem 0 (Axis 2) 0] = (shown, Ok tt) /\
  nth_error (map visible shown) 1 = Some (whole (mkItem 0 (Axis 2) 0) ++ [(mkItem 9 Point 4, Dot)]).
Proof.
  destruct (C100_frames_partial nat [scene; [mkItem 9 Point 4]] (mkCanvas 7 [(3, (mkItem 1 Func 0, Curve))]) [mkItem 0 (Axis 2) 0]) as (sh & E & V).
  - simpl. intuition discriminate.
  - repeat constructor; try exact scene_ok; simpl; try discriminate; auto.
  - exists sh. split; [exact E|]. rewrite V. reflexivity.
Qed.
Example C100_axis_remains_example : exists c', draw_sequence (mkCanvas 0 []) [mkItem 1 (Axis 3) 0; mkItem 1 (Axis 0) 1] = (c', Ok tt) /\
  visible c' = [(mkItem 1 (Axis 3) 0, TickLine 0); (mkItem 1 (Axis 3) 0, TickLine 1); (mkItem 1 (Axis 0) 1, AxisLine)].
Proof. apply (C100_axis_remains nat (mkCanvas 0 []) 3 0 1 0 1); [lia|constructor]. Qed.
Example C100_replacing_fails_example : exists c', draw_sequence (mkCanvas 0 []) (scene ++ [mkItem 4 (Axis 0) 0; mkItem 4 Func 1]) = (c', Raise NotImplementedError).
Proof.
  destruct (C100_replacing_fails nat (mkCanvas 0 []) scene (mkItem 4 (Axis 0) 0) (mkItem 4 Func 1) []) as [_ H]; try reflexivity; [constructor|exact scene_ok|].
  now apply H.
Qed.
