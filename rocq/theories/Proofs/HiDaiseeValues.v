(** The sampling values of the HiDaisee tree. *)
From Coq Require Import List Bool Arith Lia QArith Lqa Permutation Sorted.
Import ListNotations.
From Verif Require Import Prelude.Py Prelude.QBase Prelude.QFacts Prelude.ListFacts Model.Uniform Model.HiDaisee Spec.UniformSpec Spec.SplitSpec
  Proofs.UniformProofs Proofs.HiDaiseeBox Proofs.HiDaiseeProofs Proofs.HiDaiseeHistory.
Open Scope Q_scope.

(** Equality of floats up to the representation of rationals. *)
Definition feq (x y : fl Q) : Prop :=
  match x, y with Fin a, Fin b => a == b | PInf, PInf => True | NInf, NInf => True | NaN, NaN => True | _, _ => False end.
Lemma feq_refl x : feq x x.
Proof. destruct x; simpl; auto. reflexivity. Qed.

(** A node whose value is the sum of its children's. *)
Definition summed_by (R : fl Q -> fl Q -> Prop) (nodes : list hnode) (a : nat) : Prop :=
  exists n la lb na nb, nth_error nodes a = Some n /\ h_kids n = Some (la, lb) /\ nth_error nodes la = Some na /\ nth_error nodes lb = Some nb /\
    (a < la)%nat /\ (a < lb)%nat /\ R (h_q n) (faddQ (h_q na) (h_q nb)).
Definition parent (nodes : list hnode) (a : nat) : Prop :=
  exists n la lb, nth_error nodes a = Some n /\ h_kids n = Some (la, lb) /\ (a < la)%nat /\ (a < lb)%nat /\ (la < length nodes)%nat /\ (lb < length nodes)%nat.

Lemma parent_sim a nodes nodes' : sim nodes' nodes -> parent nodes a -> parent nodes' a.
Proof.
  intros S (n & la & lb & E & K & R). destruct (sim_nth _ _ _ _ (sim_sym _ _ S) E) as (m & Em & Hm). destruct (strip_fields _ _ Hm) as (_ & _ & Km & _).
  exists m, la, lb. rewrite (sim_length _ _ S). split; auto. split; [congruence|auto].
Qed.
Lemma refresh_other nodes i j : i <> j -> nth_error (refresh_q nodes i) j = nth_error nodes j.
Proof.
  intros N. unfold refresh_q. destruct (nth_error nodes i) as [n|]; auto. destruct (h_kids n) as [(a, b)|]; auto.
  destruct (nth_error nodes a), (nth_error nodes b); auto. apply upd_nth_error_neq; auto.
Qed.
Lemma refreshes_other l : forall nodes j, ~ In j l -> nth_error (fold_left refresh_q l nodes) j = nth_error nodes j.
Proof. induction l as [|i l IH]; intros nodes j N; simpl; auto. rewrite IH by (intros H; apply N; right; auto). apply refresh_other. intros ->. apply N. left. auto. Qed.
Lemma refresh_sums nodes a : parent nodes a -> summed_by eq (refresh_q nodes a) a.
Proof.
  intros (n & la & lb & E & K & La & Lb & Ta & Tb). destruct (nth_error nodes la) as [na|] eqn:Ea; [|apply nth_error_None in Ea; lia].
  destruct (nth_error nodes lb) as [nb|] eqn:Eb; [|apply nth_error_None in Eb; lia].
  exists (set_q n (faddQ (h_q na) (h_q nb))), la, lb, na, nb. unfold refresh_q. rewrite E, K, Ea, Eb.
  assert (a < length nodes)%nat by (apply nth_error_Some; congruence).
  rewrite upd_nth_error_eq, !upd_nth_error_neq by (auto; lia). csplit; auto.
Qed.
Lemma refresh_keeps nodes a c : (c <= a)%nat -> parent nodes c -> summed_by eq nodes a -> summed_by eq (refresh_q nodes c) a.
Proof.
  intros L Pc (n & la & lb & na & nb & E & K & Ea & Eb & La & Lb & Q). destruct (Nat.eq_dec c a) as [->|N]; [apply refresh_sums; auto|].
  exists n, la, lb, na, nb. rewrite !refresh_other by lia. csplit; auto.
Qed.
Lemma refreshes_keep l : forall nodes a, (forall c, In c l -> (c <= a)%nat /\ parent nodes c) -> summed_by eq nodes a -> summed_by eq (fold_left refresh_q l nodes) a.
Proof.
  induction l as [|c l IH]; intros nodes a H S; simpl; auto. apply IH.
  - intros b Hb. destruct (H b (or_intror Hb)) as (A & B). split; auto. eapply parent_sim; [apply refresh_sim|auto].
  - destruct (H c (or_introl eq_refl)). apply refresh_keeps; auto.
Qed.
Lemma refreshes_sum l : forall nodes, StronglySorted ge l -> (forall c, In c l -> parent nodes c) -> forall a, In a l -> summed_by eq (fold_left refresh_q l nodes) a.
Proof.
  induction l as [|b l IH]; intros nodes St H a Ha; [destruct Ha|]. inversion St as [|? ? St' F]; subst. simpl. rewrite Forall_forall in F.
  assert (H' : forall c, In c l -> parent (refresh_q nodes b) c) by (intros c Hc; eapply parent_sim; [apply refresh_sim|apply H; right; auto]).
  destruct Ha as [<-|Ha]; [|apply IH; auto]. apply refreshes_keep.
  - intros c Hc. split; auto. apply F in Hc. lia.
  - apply refresh_sums, H. left. auto.
Qed.

(** ** The path of a descent *)
Fixpoint chain (t : htree) (i : nat) (path : list nat) (leaf : nat) : Prop :=
  match path with
  | [] => leaf = i
  | a :: p => a = i /\ ~ In a (ht_leaves t) /\ exists n la lb, nth_error (ht_nodes t) a = Some n /\ h_kids n = Some (la, lb) /\ (a < la)%nat /\ (a < lb)%nat /\
      (la < length (ht_nodes t))%nat /\ (lb < length (ht_nodes t))%nat /\ (chain t la p leaf \/ chain t lb p leaf)
  end.
Lemma descend_chain d w pis t pick : hinv d w pis t -> forall i, rooted t i -> forall fuel j path leaf, descend fuel t pick j i = Some (path, leaf) -> chain t i path leaf.
Proof.
  intros I i R. induction R as [i H|i n a b N E K La Lb Ra IHa Rb IHb]; intros fuel j path leaf D.
  - assert (existsb (Nat.eqb i) (ht_leaves t) = true) as X by (apply existsb_exists; exists i; split; auto; apply Nat.eqb_refl).
    destruct fuel; simpl in D; rewrite X in D; inversion D; subst; reflexivity.
  - assert (existsb (Nat.eqb i) (ht_leaves t) = false) as X.
    { apply not_true_iff_false. intros X. apply existsb_exists in X. destruct X as (y & Hy & X). apply Nat.eqb_eq in X. subst. auto. }
    destruct fuel as [|fuel]; cbn [descend] in D; rewrite X in D; [discriminate|]. rewrite E, K in D.
    destruct (nth_error (ht_nodes t) a) as [na|] eqn:Ea; [|discriminate]. destruct (nth_error (ht_nodes t) b) as [nb|] eqn:Eb; [|discriminate]. cbv zeta in D.
    pose proof (rooted_lt d w pis t a I Ra). pose proof (rooted_lt d w pis t b I Rb).
    destruct (fltQ _ _).
    + destruct (descend fuel t pick (S j) a) as [(p, l)|] eqn:D'; [|discriminate]. inversion D; subst. simpl. split; auto. split; auto.
      exists n, a, b. csplit; auto. left. eapply IHa; eauto.
    + destruct (descend fuel t pick (S j) b) as [(p, l)|] eqn:D'; [|discriminate]. inversion D; subst. simpl. split; auto. split; auto.
      exists n, a, b. csplit; auto. right. eapply IHb; eauto.
Qed.
Lemma chain_sorted t path : forall i leaf, chain t i path leaf -> StronglySorted lt path /\ (forall a, In a path -> (i <= a)%nat /\ (a < leaf)%nat /\ parent (ht_nodes t) a /\ ~ In a (ht_leaves t)) /\ (i <= leaf)%nat.
Proof.
  induction path as [|b p IH]; intros i leaf H; simpl in H.
  - subst. csplit; auto; [constructor|intros a []].
  - destruct H as (-> & N & n & la & lb & E & K & La & Lb & Ta & Tb & H). assert (Pb : parent (ht_nodes t) i) by (exists n, la, lb; csplit; auto).
    assert (X : exists k, (i < k)%nat /\ chain t k p leaf) by (destruct H; eauto). destruct X as (k & Lk & Hk). apply IH in Hk. destruct Hk as (S & B & L).
    split; [|split; [|lia]].
    + constructor; auto. apply Forall_forall. intros x Hx. destruct (B x Hx). lia.
    + intros a [<-|Ha]; [csplit; auto; lia|]. destruct (B a Ha) as (B1 & B2 & B3 & B4). csplit; auto. lia.
Qed.
Lemma sorted_rev l : StronglySorted lt l -> StronglySorted ge (rev l).
Proof.
  induction 1 as [|a l S IH F]; simpl; [constructor|]. rewrite Forall_forall in F.
  assert (X : forall x, In x (rev l) -> (x >= a)%nat) by (intros x Hx; apply in_rev in Hx; apply F in Hx; lia).
  clear - IH X. induction IH as [|b m Sm IHm Fm]; simpl; [repeat constructor|]. constructor.
  - apply IHm. intros x Hx. apply X. right. auto.
  - apply Forall_app. split; auto. constructor; [apply X; left; auto|constructor].
Qed.
Lemma sorted_app_l (l m : list nat) : StronglySorted lt (l ++ m) -> StronglySorted lt l.
Proof.
  induction l as [|a l IH]; simpl; intros H; [constructor|]. inversion H as [|? ? H1 H2]; subst. constructor; auto.
  apply Forall_app in H2. tauto.
Qed.

(** ** Values after a turn *)
Lemma split_values pi i k t t' ok n : nth_error (ht_nodes t) i = Some n -> split pi i k t = (t', ok) ->
  (forall j m, j <> i -> nth_error (ht_nodes t) j = Some m -> nth_error (ht_nodes t') j = Some m) /\
  (exists n', nth_error (ht_nodes t') i = Some n' /\ h_q n' = h_q n) /\
  (ht_leaves t' = if ok then remove1 i (ht_leaves t) ++ [length (ht_nodes t); S (length (ht_nodes t))] else ht_leaves t) /\
  summed_by feq (ht_nodes t') i.
Proof.
  intros E H. unfold split in H. rewrite E in H. cbv zeta in H. assert (L : (i < length (ht_nodes t))%nat) by (apply nth_error_Some; congruence).
  set (l0 := hnode_new (shift_center (h_center n) (h_radius n) k (-1)) (half_radius (h_radius n) k) (fdivflQ (h_q n) (Fin 2))) in H.
  set (r0 := hnode_new (shift_center (h_center n) (h_radius n) k 1) (half_radius (h_radius n) k) (fdivflQ (h_q n) (Fin 2))) in H.
  destruct (push pi k (h_rows n) l0 r0) as [[l r] ok'] eqn:Ep.
  assert (Q : h_q l = fdivflQ (h_q n) (Fin 2) /\ h_q r = fdivflQ (h_q n) (Fin 2)).
  { assert (X : forall rows a b a' b' o, push pi k rows a b = (a', b', o) -> h_q a' = h_q a /\ h_q b' = h_q b).
    { induction rows as [|(x, w) rows IH]; intros a b a' b' o Y; simpl in Y; [inversion Y; auto|].
      destruct (Qltb _ _); (destruct (Qle_bool _ 0); [inversion Y; auto|]); apply IH in Y; auto. }
    apply (X _ _ _ _ _ _ Ep). }
  injection H as <- <-. simpl.
  split; [|split; [|split; [auto|]]].
  - intros j m N Ej. rewrite nth_error_app1; [rewrite upd_nth_error_neq; auto|]. rewrite upd_length. apply nth_error_Some. congruence.
  - eexists. rewrite nth_error_app1 by (rewrite upd_length; auto). rewrite upd_nth_error_eq by auto. split; [reflexivity|]. reflexivity.
  - eexists _, (length (ht_nodes t)), (S (length (ht_nodes t))), l, r. rewrite nth_error_app1 by (rewrite upd_length; auto). rewrite upd_nth_error_eq by auto.
    rewrite !nth_error_app2 by (rewrite upd_length; lia). rewrite !upd_length, Nat.sub_diag. replace (S (length (ht_nodes t)) - length (ht_nodes t))%nat with 1%nat by lia.
    csplit; try reflexivity; try lia. destruct Q as (-> & ->). simpl h_q. destruct (h_q n); simpl; auto. unfold fdivQ. simpl. field.
Qed.

Lemma turn_values d w pis P pi t rd s path i n : hinv d w pis (hs_tree s) -> (hr_dim rd < d)%nat -> pis pi ->
  descend (length (ht_nodes (hs_tree s))) (hs_tree s) (hr_pick rd) 0 0 = Some (path, i) -> nth_error (ht_nodes (hs_tree s)) i = Some n ->
  inside (nbox n) (node_draw n (hr_draw rd)) ->
  let s' := out_state (hd_turn P pi t rd s) in
  (forall a, In a (removelast path) \/ a = 0%nat /\ path <> [] -> summed_by eq (ht_nodes (hs_tree s')) a) /\
  (forall l a, path = l ++ [a] -> l <> [] -> nth_error (ht_nodes (hs_tree s')) a = nth_error (ht_nodes (hs_tree s)) a) /\
  (path = [] -> i = 0%nat /\ (In 0%nat (ht_leaves (hs_tree s')) \/ summed_by feq (ht_nodes (hs_tree s')) 0)) /\
  (forall j m, ~ In j path -> j <> i -> nth_error (ht_nodes (hs_tree s)) j = Some m -> nth_error (ht_nodes (hs_tree s')) j = Some m) /\
  exists n', nth_error (ht_nodes (hs_tree s')) i = Some n' /\
    h_q n' = (let x := node_draw n (hr_draw rd) in let n1 := add_row n x (pi x / node_prob n x) in
              fdivflQ (faddQ (mean_weight n1) (boost P t (length (h_rows n1)))) (total_ev P t (mkHT (upd (ht_nodes (hs_tree s)) i n1) (ht_leaves (hs_tree s))))).
Proof.
  intros I Hk Hpi Ed En Hin. set (tr := hs_tree s) in *. pose proof (descend_chain d w pis tr (hr_pick rd) I 0 (hi_root _ _ _ _ I) _ _ _ _ Ed) as Ch.
  destruct (chain_sorted tr path 0 i Ch) as (Srt & Par & _).
  destruct (hi_node _ _ _ _ I i n En) as (Dn & Rn). set (x := node_draw n (hr_draw rd)) in *. destruct (node_prob_inside n x Rn Hin) as (Pp & _).
  unfold hd_turn. fold tr. rewrite Ed, En. cbv zeta. fold x. destruct (Qle_bool_spec (node_prob n x) 0) as [X|_]; [lra|].
  set (n1 := add_row n x (pi x / node_prob n x)). cbn [ht_nodes]. set (v := fdivflQ _ _). set (n2 := set_q n1 v).
  assert (Li : (i < length (ht_nodes tr))%nat) by (apply nth_error_Some; congruence).
  set (base := upd (upd (ht_nodes tr) i n1) i n2).
  assert (Sb : sim base (upd (ht_nodes tr) i n1)) by (unfold base; eapply sim_upd; [apply upd_nth_error_eq; auto|reflexivity]).
  assert (Nb : forall j, j <> i -> nth_error base j = nth_error (ht_nodes tr) j) by (intros j N; unfold base; rewrite !upd_nth_error_neq by auto; auto).
  assert (Lb : length base = length (ht_nodes tr)) by (unfold base; rewrite !upd_length; auto).
  assert (Ni : nth_error base i = Some n2) by (unfold base; apply upd_nth_error_eq; rewrite upd_length; auto).
  assert (Pb : forall a, In a path -> parent base a).
  { intros a Ha. destruct (Par a Ha) as (_ & La & (m & la & lb & E & K & R) & _). exists m, la, lb. rewrite Lb, Nb by lia. auto. }
  set (rp := refreshed_path path). set (nodes2 := fold_left refresh_q rp base).
  assert (Rp : (path = [] /\ rp = []) \/ exists l a, path = l ++ [a] /\ rp = rev l ++ [0%nat]).
  { unfold rp, refreshed_path. destruct path as [|a0 p]; [left; auto|right]. destruct (@exists_last _ (a0 :: p) ltac:(discriminate)) as (l & a & El).
    exists l, a. split; auto. rewrite El. replace (removelast (0%nat :: l ++ [a])) with (0%nat :: l); [reflexivity|]. rewrite app_comm_cons, removelast_last. auto. }
  assert (Zero : path <> [] -> In 0%nat path).
  { intros N. destruct path as [|a0 p]; [congruence|]. destruct Ch as (-> & _). left. auto. }
  assert (Inrp : forall a, In a rp -> In a path).
  { intros a Ha. destruct Rp as [(_ & ->)|(l & b & El & ->)]; [destruct Ha|]. apply in_app_or in Ha. destruct Ha as [Ha|[<-|[]]].
    - rewrite El. apply in_or_app. left. apply in_rev. auto.
    - apply Zero. rewrite El. destruct l; discriminate. }
  assert (Sum : forall a, In a rp -> summed_by eq nodes2 a).
  { apply refreshes_sum; [|intros c Hc; apply Pb, Inrp; auto]. destruct Rp as [(_ & ->)|(l & b & El & ->)]; [constructor|].
    assert (Sl : StronglySorted lt l) by (rewrite El in Srt; apply sorted_app_l in Srt; auto). apply sorted_rev in Sl.
    clear - Sl. induction Sl as [|c m Sm IH F]; simpl; [repeat constructor|]. constructor; auto. apply Forall_app. split; auto. constructor; [lia|constructor]. }
  assert (Keep : forall j, ~ In j rp -> nth_error nodes2 j = nth_error base j) by (intros j Hj; apply refreshes_other; auto).
  assert (Nrp : ~ In i path) by (intros H; destruct (Par i H); lia).
  assert (N2i : nth_error nodes2 i = Some n2) by (rewrite Keep; auto).
  assert (A1 : forall a, In a (removelast path) \/ a = 0%nat /\ path <> [] -> summed_by eq nodes2 a /\ a <> i).
  { intros a Ha. assert (In a rp).
    { destruct Rp as [(-> & ->)|(l & b & El & ->)]; [destruct Ha as [[]|(_ & N)]; congruence|]. rewrite El, removelast_last in Ha. apply in_or_app.
      destruct Ha as [Ha|(-> & _)]; [left; apply -> in_rev; auto|right; left; auto]. }
    split; [apply Sum; auto|]. intros ->. auto. }
  assert (A2 : forall l a, path = l ++ [a] -> l <> [] -> nth_error nodes2 a = nth_error (ht_nodes tr) a /\ a <> i).
  { intros l a El Nl. assert (Ha : In a path) by (rewrite El; apply in_or_app; right; left; auto). assert (a <> i) by (intros ->; auto). split; auto.
    rewrite Keep, Nb; auto. intros H1. destruct Rp as [(E0 & _)|(l' & b & El' & Er)]; [rewrite E0 in El; destruct l; discriminate|].
    assert (l' = l /\ b = a) as (-> & ->) by (rewrite El in El'; apply app_inj_tail in El'; intuition congruence).
    rewrite Er in H1. rewrite El in Srt, Ch. assert (Z : List.hd 0%nat l = 0%nat) by (destruct l; [congruence|]; simpl in Ch; destruct Ch as (-> & _); auto).
    assert (B : forall c, In c l -> (c < a)%nat).
    { clear - Srt. induction l as [|e l IH]; intros c Hc; [destruct Hc|]. simpl in Srt. inversion Srt as [|? ? S1 S2]; subst. rewrite Forall_forall in S2.
      destruct Hc as [<-|Hc]; [apply S2, in_or_app; right; left; auto|apply IH; auto]. }
    apply in_app_or in H1. destruct H1 as [H1|[H1|[]]]; [apply in_rev in H1; apply B in H1; lia|]. subst a.
    destruct l as [|e l]; [congruence|]. simpl in Z. specialize (B e (or_introl eq_refl)). lia. }
  assert (A4 : forall j m, ~ In j path -> j <> i -> nth_error (ht_nodes tr) j = Some m -> nth_error nodes2 j = Some m).
  { intros j m Hj N E. rewrite Keep, Nb; auto. }
  destruct (_ && _).
  - destruct (split pi i (hr_dim rd) (mkHT nodes2 (ht_leaves tr))) as (tr3, ok) eqn:Es.
    destruct (split_values pi i (hr_dim rd) (mkHT nodes2 (ht_leaves tr)) tr3 ok n2 N2i Es) as (V1 & (n' & V2 & V2q) & V3 & V4). simpl in V1, V3.
    assert (T3 : hs_tree (out_state (if ok then Done (mkHD tr3 (hs_samples s) (S (hs_pi s) + length (h_rows n2)) (S (hs_q s) + length (h_rows n2)) (S (hs_draws s)) (hs_model s))
         else Failed ValueError (mkHD tr3 (hs_samples s) (S (hs_pi s) + length (h_rows n2)) (S (hs_q s) + length (h_rows n2)) (S (hs_draws s)) (hs_model s)))) = tr3) by (destruct ok; auto).
    rewrite T3. csplit.
    + intros a Ha. destruct (A1 a Ha) as ((m & la & lb & na & nb & E & K & Ea & Eb & La & Lb' & Q) & Na).
      assert (X : forall j mj, nth_error nodes2 j = Some mj -> exists mj', nth_error (ht_nodes tr3) j = Some mj' /\ h_q mj' = h_q mj).
      { intros j mj Ej. destruct (Nat.eq_dec j i) as [->|N]; [|exists mj; split; auto]. exists n'. split; auto. rewrite V2q. congruence. }
      destruct (X la na Ea) as (na' & Ea' & Qa). destruct (X lb nb Eb) as (nb' & Eb' & Qb). exists m, la, lb, na', nb'. rewrite Qa, Qb. csplit; auto.
    + intros l a El Nl. destruct (A2 l a El Nl) as (E & N). destruct (nth_error (ht_nodes tr) a) as [m|] eqn:Em; [apply V1; auto|].
      assert (Ha : In a path) by (rewrite El; apply in_or_app; right; left; auto). destruct (Par a Ha) as (_ & _ & (m & la & lb & Y & _) & _). congruence.
    + intros ->. simpl in Ch. split; auto. subst i. auto.
    + intros j m Hj N E. apply V1; auto.
    + exists n'. split; auto. 
  - csplit; cbn [hs_tree ht_nodes ht_leaves out_state].
    + intros a Ha. apply A1; auto.
    + intros l a El Nl. apply (A2 l a El Nl).
    + intros ->. simpl in Ch. split; auto. left. subst i.
      destruct (descend_spec d w pis tr (hr_pick rd) I 0%nat (hi_root _ _ _ _ I) (length (ht_nodes tr)) 0 ltac:(lia)) as (p' & i' & E' & Hi' & _).
      rewrite Ed in E'. inversion E'; subst. auto.
    + auto.
    + exists n2. split; auto.
Qed.

(** The root, in every history. *)
Lemma reach_root P : corners (hp_lo P) (hp_hi P) -> forall ops s, hd_reachable P ops s -> dims_ok (length (hp_lo P)) ops ->
  In 0%nat (ht_leaves (hs_tree s)) \/ summed_by feq (ht_nodes (hs_tree s)) 0.
Proof.
  intros C. set (d := length (hp_lo P)). set (w := (hp_lo P, hp_hi P)). set (pis := fun _ : vec -> Q => True). set (J := fun s => In 0%nat (ht_leaves (hs_tree s)) \/ summed_by feq (ht_nodes (hs_tree s)) 0).
  assert (T : forall pi rds, dim_ok d rds -> forall k t s, hinv d w pis (hs_tree s) -> J s -> J (out_state (hd_turns P pi rds t k s))).
  { intros pi rds Hd. induction k as [|k IH]; intros t s I Hs; simpl; auto.
    destruct (turn_spec d w pis P pi t (rds t) s I (Hd t) Logic.I) as (path & i & n & Ed & Hi & En & [(_ & s1 & E & Tr & _)|(Hin & s1 & I1 & _ & _ & _ & E)]).
    - rewrite E. simpl. unfold J. rewrite Tr. auto.
    - pose proof (turn_values d w pis P pi t (rds t) s path i n I (Hd t) Logic.I Ed En Hin) as V. cbv zeta in V.
      assert (J1 : J s1).
      { assert (Es : out_state (hd_turn P pi t (rds t) s) = s1) by (destruct E as [(E & _)|(E & _)]; rewrite E; auto). rewrite Es in V. destruct V as (V1 & _ & V3 & _).
        destruct path as [|a p]; [apply V3; auto|right]. destruct (V1 0%nat) as (m & la & lb & na & nb & Y); [right; split; auto; discriminate|].
        exists m, la, lb, na, nb. destruct Y as (Y1 & Y2 & Y3 & Y4 & Y5 & Y6 & ->). csplit; auto. apply feq_refl. }
      destruct E as [(E & _)|(E & _)]; rewrite E; auto. }
  assert (Cl : forall pi n rds s, dim_ok d rds -> hinv d w pis (hs_tree s) -> J s -> J (out_state (hd_call P pi n rds s))).
  { intros pi n rds s0 Hd I Hs. unfold hd_call. specialize (T pi rds Hd (n - length (hs_samples s0))%nat (length (hs_samples s0)) s0 I Hs).
    destruct (hd_turns _ _ _ _ _ _); auto. }
  intros ops0 s0 R0. induction R0 as [|ops s pi n rds s' R IH E|ops s pi n rds e s' R IH E|ops s n R IH|ops s R IH]; intros D; try (left; left; reflexivity).
  - assert (D' : dims_ok d ops) by (intros ? ? ? ? H; eapply D; right; eauto). specialize (Cl pi n rds s (D _ _ _ _ (or_introl eq_refl))). rewrite E in Cl. apply Cl; [|apply IH; auto].
    eapply hinv_weaken; [|apply (reach_inv P C ops s R D')]. intros; exact Logic.I.
  - assert (D' : dims_ok d ops) by (intros ? ? ? ? H; eapply D; right; eauto). specialize (Cl pi n rds s (D _ _ _ _ (or_introl eq_refl))). rewrite E in Cl. apply Cl; [|apply IH; auto].
    eapply hinv_weaken; [|apply (reach_inv P C ops s R D')]. intros; exact Logic.I.
  - apply IH. intros ? ? ? ? H; eapply D; right; eauto.
Qed.
