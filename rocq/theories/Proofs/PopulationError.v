(** Mean square error of the weighted totals of the population samplers, whatever the adaptation. *)
From Coq Require Import List Bool Arith Lia QArith Qabs Lqa.
Import ListNotations.
From Verif Require Import Prelude.Py Prelude.QBase Prelude.QFacts Prelude.ListFacts Model.Base Model.Mixture Model.Population Model.PopulationLaw
  Spec.Box Spec.PopulationSpec Spec.UnbiasedSpec Spec.DrawSpec Proofs.PopulationProofs Proofs.PopulationHistory Proofs.PopulationUnbiased.
From Verif Require Proofs.IndepLaw.
Import IndepLaw.
Notation sum_each := IndepLaw.total.
Notation total := PopulationUnbiased.total.
Open Scope Q_scope.

Lemma var1_le {X} (l : list (Q * X)) g : mass l == 1 -> var1 l g <= mean1 l (fun x => sq (g x)).
Proof.
  intros M. pose proof (mean_square l g 0 M) as E. pose proof (sq_nonneg (mean1 l g - 0)) as S.
  assert (F : mean1 l (fun x => sq (g x)) == mean1 l (fun x => sq (g x - 0))) by (apply mean1_ext; intros; unfold sq; ring).
  rewrite F. lra.
Qed.
Lemma vars_le {X} (laws : list (list (Q * X))) g : (forall l, In l laws -> mass l == 1) ->
  vars laws (repeat g (length laws)) <= Qsum (map (fun l => mean1 l (fun x => sq (g x))) laws).
Proof.
  induction laws as [|l r IH]; intros M; cbn [length repeat vars map Qsum fold_right]; [apply Qle_refl|].
  pose proof (var1_le l g (M l (or_introl eq_refl))). specialize (IH (fun l' I => M l' (or_intror I))). unfold Qsum in *. lra.
Qed.
Lemma means_sum {X} (laws : list (list (Q * X))) g : means laws (repeat g (length laws)) == Qsum (map (fun l => mean1 l g) laws).
Proof. induction laws as [|l r IH]; cbn [length repeat means map]; [reflexivity|]. rewrite IH. reflexivity. Qed.
Lemma Qsum_le {A} (f g : A -> Q) l : (forall x, In x l -> f x <= g x) -> Qsum (map f l) <= Qsum (map g l).
Proof.
  induction l as [|x l IH]; simpl; intros H; [apply Qle_refl|]. pose proof (H x (or_introl eq_refl)). specialize (IH (fun y I => H y (or_intror I))). lra.
Qed.
Lemma drawn_in {X} (laws : list (list (Q * X))) : forall xs, drawn laws xs -> forall x, In x xs -> exists l m, In l laws /\ In (m, x) l.
Proof.
  induction laws as [|l r IH]; intros [|y xs] D x I; simpl in D; try tauto.
  destruct D as [(m & M) D]. destruct I as [<-|I]; [exists l, m; simpl; auto|]. destruct (IH xs D x I) as (l' & m' & A & B). exists l', m'. simpl. auto.
Qed.
Lemma drawn_len {X} (laws : list (list (Q * X))) : forall xs, drawn laws xs -> length xs = length laws.
Proof. induction laws as [|l r IH]; intros [|y xs] D; simpl in *; try tauto. destruct D as [_ D]. f_equal. auto. Qed.
Lemma laws_ok P v pts s : comp_pos P -> 0 <= v -> (forall m, In m (pop_means s) -> integral v pts (pp_comp P m) == 1) ->
  forall l, In l (proposal_laws P v pts s) -> law_ok l.
Proof.
  intros C V H l I. split; [now apply (laws_mass P v pts s H)|]. apply In_each in I. apply in_map_iff in I. destruct I as (m & <- & I).
  intros q x J. unfold cell_law in J. apply in_map_iff in J. destruct J as (y & E & _). injection E as <- <-.
  pose proof (C m y). apply Qmult_le_0_compat; lra.
Qed.
Lemma laws_points P v pts s xs : drawn (proposal_laws P v pts s) xs -> forall x, In x xs -> In x pts.
Proof.
  intros D x I. destruct (drawn_in _ xs D x I) as (l & m & A & B). apply In_each in A. apply in_map_iff in A. destruct A as (mm & <- & _).
  unfold cell_law in B. apply in_map_iff in B. destruct B as (y & E & J). injection E as _ <-. exact J.
Qed.
Lemma weight_bound P pi means W x : comp_pos P -> means <> [] -> (forall m, In m means -> pi x <= W * pp_comp P m x) ->
  pi x / pop_prob P means x <= W.
Proof.
  intros C M H. pose proof (pop_prob_pos P means x C M) as Pp. apply Qle_shift_div_r; [exact Pp|].
  assert (N : 0 < Qnat (length means)) by (apply Qnat_pos; destruct means; simpl; [congruence|lia]).
  unfold pop_prob. rewrite Qsum_scal.
  assert (S : Qnat (length means) * pi x <= W * Qsum (map (fun m => pp_comp P m x) means)).
  { rewrite <- Qsum_scal, <- (Qsum_const (pi x) means). apply Qsum_le. exact H. }
  apply Qmult_le_l with (z := Qnat (length means)); [exact N|].
  assert (E : Qnat (length means) * (W * (1 / Qnat (length means) * Qsum (map (fun m => pp_comp P m x) means))) == W * Qsum (map (fun m => pp_comp P m x) means)) by (field; lra).
  rewrite E. exact S.
Qed.

Lemma batch_square P pi f v pts W s k : comp_pos P -> 0 <= v -> pop_means s <> [] -> (forall x, 0 <= pi x) ->
  (forall m, In m (pop_means s) -> integral v pts (pp_comp P m) == 1) ->
  (forall m x, In m (pop_means s) -> In x pts -> pi x <= W * pp_comp P m x) ->
  let c := Qnat (length (pop_means s) * pp_K P) in let I := integral v pts (fun x => pi x * f x) in
  expect_each (proposal_laws P v pts s) (fun xs => sq (k + Qsum (map (fun x => pi x / pop_prob P (pop_means s) x * f x) xs) - c * I))
  <= sq k + c * (W * integral v pts (fun x => pi x * sq (f x))).
Proof.
  intros C V M Pi I1 Wb c I. set (w := fun x => pi x / pop_prob P (pop_means s) x). set (g := fun x => w x * f x).
  set (laws := proposal_laws P v pts s). assert (Ms : forall l, In l laws -> mass l == 1) by now apply laws_mass.
  assert (E : expect_each laws (fun xs => sq (k + Qsum (map g xs) - c * I)) == vars laws (repeat g (length laws)) + sq k).
  { rewrite (expect_ext laws _ (fun xs => sq (sum_each (repeat g (length laws)) xs - (c * I - k)))).
    - rewrite expect_square by (auto; apply repeat_length). rewrite means_sum.
      assert (B : Qsum (map (fun l => mean1 l g) laws) == c * I) by (apply (batch_value P pi f v pts s C M)).
      rewrite B. unfold sq. ring.
    - intros xs L. rewrite (total_repeat g xs (length laws) L). unfold sq. ring. }
  apply Qle_trans with (vars laws (repeat g (length laws)) + sq k); [apply Qle_lteq; right; exact E|]. pose proof (vars_le laws g Ms) as Vl.
  assert (B : Qsum (map (fun l => mean1 l (fun x => sq (g x))) laws) == c * integral v pts (fun x => pi x * (w x * sq (f x)))).
  { eapply Qeq_trans; [|apply (batch_value P pi (fun x => w x * sq (f x)) v pts s C M)]. apply Qsum_ext. intros l _. unfold mean1.
    apply Qsum_ext. intros mx _. unfold g, sq, w. ring. }
  assert (Ib : integral v pts (fun x => pi x * (w x * sq (f x))) <= W * integral v pts (fun x => pi x * sq (f x))).
  { unfold integral. rewrite <- Qsum_scal. apply Qsum_le. intros x X.
    assert (Wx : w x <= W) by (apply weight_bound; auto). specialize (Pi x). pose proof (sq_nonneg (f x)).
    assert (0 <= (pi x * sq (f x)) * v) by (apply Qmult_le_0_compat; [apply Qmult_le_0_compat|]; auto).
    assert (A1 : pi x * (w x * sq (f x)) * v == w x * (pi x * sq (f x) * v)) by ring. rewrite A1. apply Qmult_le_compat_r; auto. }
  assert (0 <= c) by apply Qnat_nonneg.
  assert (c * integral v pts (fun x => pi x * (w x * sq (f x))) <= c * (W * integral v pts (fun x => pi x * sq (f x)))).
  { rewrite !(Qmult_comm c). apply Qmult_le_compat_r; auto. }
  lra.
Qed.

Section Call.
Variable k : pop_kind.
Variable P : pop_params.
Variable pi f : vec -> Q.
Variables v W : Q.
Variable pts : list vec.
Variable rest : nat -> list vec -> pop_round.
Variable ok : pop -> Prop.
Hypothesis C : comp_pos P.
Hypothesis K : (0 < pp_K P)%nat.
Hypothesis V : 0 <= v.
Hypothesis Pi : forall x, 0 <= pi x.
Hypothesis Live : k = LAIS \/ forall x, 0 < pi x.
Hypothesis I1 : forall m, integral v pts (pp_comp P m) == 1.
Hypothesis R : forall i xs j l, (j < pp_N P)%nat -> (l < pp_K P)%nat -> pr_draw (rest i xs) j l = nth (j * pp_K P + l) xs [].
Hypothesis Okb : forall s, ok s -> forall m x, In m (pop_means s) -> In x pts -> pi x <= W * pp_comp P m x.
Hypothesis Oks : forall s i xs, ok s -> regular P s -> pop_draws P (pop_means s) (rest i xs) = xs -> (forall x, In x xs -> In x pts) ->
  ok (out_state (pop_iter k P pi (rest i xs) s)).

Notation ET := (expect_turns k P pi v pts rest).
Lemma turns_le t : forall s G H, (forall tape, length tape = t -> G tape <= H tape) -> ET t s G <= ET t s H.
Proof.
  induction t as [|t IH]; intros s G H E; simpl; [apply E; auto|].
  apply expect_le; [apply laws_ok; auto|]. intros xs _. apply IH. intros tape L. apply E. simpl. auto.
Qed.
Lemma turns_plus t : forall s G H, ET t s (fun tape => G tape + H tape) == ET t s G + ET t s H.
Proof.
  induction t as [|t IH]; intros s G H; simpl; [reflexivity|]. rewrite <- expect_plus. apply expect_ext. intros xs _. apply IH.
Qed.
Lemma turns_scal t : forall s c G, ET t s (fun tape => c * G tape) == c * ET t s G.
Proof.
  induction t as [|t IH]; intros s c G; simpl; [reflexivity|]. rewrite <- expect_scal. apply expect_ext. intros xs _. apply IH.
Qed.

Let I := integral v pts (fun x => pi x * f x).
Let D := W * integral v pts (fun x => pi x * sq (f x)).

Lemma call_square n timeout t : forall s e a, regular P s -> ok s -> e < timeout -> (forall i xs, pr_clock (rest i xs) < timeout) ->
  let c := (pp_N P * pp_K P)%nat in let b := ((n - length (pop_samples s) + c - 1) / c)%nat in (b <= t)%nat ->
  ET t s (fun tape => sq (a + (total f (out_state (pop_loop k P pi n timeout tape e s)) - total f s) - Qnat (b * c) * I)) <= sq a + Qnat (b * c) * D.
Proof.
  induction t as [|t IH]; intros s e a Rs Os He Cl c b Hb.
  - destruct Rs as (A & B & _).
    assert (Hc : (0 < c)%nat) by (unfold c; rewrite <- A; destruct (pop_means s); [congruence|simpl; nia]).
    assert (n - length (pop_samples s) = 0)%nat as N0.
    { destruct (n - length (pop_samples s))%nat eqn:Q; auto. exfalso. unfold b in Hb. rewrite ceil_step in Hb by lia. lia. }
    assert (B0 : b = 0%nat) by lia. rewrite B0. simpl.
    assert ((length (pop_samples s) <? n)%nat = false) as -> by (apply Nat.ltb_ge; lia). simpl. unfold Qnat, sq. simpl.
    apply Qle_lteq. right. ring.
  - assert (Rs' := Rs). destruct Rs' as (A & B & Ln).
    assert (Hc : (0 < c)%nat) by (unfold c; rewrite <- A; destruct (pop_means s); [congruence|simpl; nia]).
    destruct (Nat.ltb_spec (length (pop_samples s)) n) as [L|L].
    + assert (Eb : b = S ((n - (length (pop_samples s) + c) + c - 1) / c)).
      { unfold b. rewrite ceil_step by lia. f_equal. f_equal. lia. }
      assert (Qb : Qnat (b * c) == Qnat c + Qnat ((b - 1) * c)).
      { replace (b * c)%nat with (c + (b - 1) * c)%nat by nia. unfold Qnat. rewrite Nat2Z.inj_add, inject_Z_plus. reflexivity. }
      simpl expect_turns.
      set (S0 := fun xs : list vec => Qsum (map (fun x => pi x / pop_prob P (pop_means s) x * f x) xs)).
      apply Qle_trans with (expect_each (proposal_laws P v pts s) (fun xs => sq (a + S0 xs - Qnat c * I) + Qnat ((b - 1) * c) * D)).
      * apply expect_le; [apply laws_ok; auto|]. intros xs Dx. pose proof (drawn_len _ _ Dx) as Lx. rewrite laws_length in Lx.
        assert (Ed : pop_draws P (pop_means s) (rest t xs) = xs) by (apply draws_eq; auto; intros j i J Ii; apply R; [lia|auto]).
        destruct (iter_live k P pi C K Pi Live (rest t xs) s B) as (s' & E).
        assert (Rn := regular_iter k P pi C K Pi Live (rest t xs) s Rs).
        assert (On := Oks s t xs Os Rs Ed (laws_points P v pts s xs Dx)).
        assert (Tt := iter_total k P pi f (rest t xs) s C B K Pi Ln). rewrite Ed in Tt. fold (S0 xs) in Tt.
        rewrite E in Rn, On, Tt |- *. simpl out_state in Rn, On, Tt |- *.
        apply done_len in E as Ed'. destruct Ed' as (E1 & E2 & E3).
        assert (Q : ((n - length (pop_samples s') + c - 1) / c = b - 1)%nat) by (rewrite E1, A; fold c; lia).
        rewrite (turns_ext k P pi v pts rest t s' _ (fun tape => sq ((a + S0 xs - Qnat c * I) + (total f (out_state (pop_loop k P pi n timeout tape (pr_clock (rest t xs)) s')) - total f s') - Qnat ((b - 1) * c) * I))).
        -- pose proof (IH s' (pr_clock (rest t xs)) (a + S0 xs - Qnat c * I) Rn On (Cl t xs) Cl) as H. cbv zeta in H. fold c in H. rewrite Q in H. apply H. lia.
        -- intros tape _. cbn [pop_loop]. apply Nat.ltb_lt in L. rewrite L. unfold Qltb.
           destruct (Qle_bool timeout e) eqn:Z; [apply Qle_bool_iff in Z; lra|]. cbn [negb andb]. apply sq_ext. rewrite Qb, Tt. ring.
      * rewrite (expect_plus _ (fun xs => sq (a + S0 xs - Qnat c * I)) (fun _ => Qnat ((b - 1) * c) * D)), expect_const by (apply laws_mass; auto).
        pose proof (batch_square P pi f v pts W s a C V B Pi (fun m _ => I1 m) (Okb s Os)) as Bs. cbv zeta in Bs. rewrite A in Bs. fold c I D in Bs.
        fold S0 in Bs. rewrite Qb. change (expect_each (proposal_laws P v pts s) (fun xs => sq (a + S0 xs - Qnat c * I)) <= sq a + Qnat c * D) in Bs.
        lra.
    + assert (b = 0)%nat as -> by (unfold b; apply Nat.div_small; lia).
      rewrite (turns_ext k P pi v pts rest _ _ _ (fun _ => sq a)).
      * rewrite turns_const by auto. change (Qnat (0 * c)) with 0. lra.
      * intros tape _. apply sq_ext. unfold Qnat. simpl.
        destruct tape; simpl; apply Nat.ltb_ge in L; rewrite L; simpl; ring.
Qed.
End Call.

(** Self-normalised estimates. *)
Lemma total_one ws : forall xs : list vec, length xs = length ws -> weighted_total (fun _ => 1) xs (map Fin ws) == Qsum ws.
Proof. induction ws as [|w ws IH]; intros [|x xs] L; simpl in *; try discriminate; [reflexivity|]. rewrite IH by lia. ring. Qed.
Lemma total_shift f m ws : forall xs : list vec, length xs = length ws ->
  weighted_total (fun x => f x - m) xs (map Fin ws) == weighted_total f xs (map Fin ws) - m * Qsum ws.
Proof. induction ws as [|w ws IH]; intros [|x xs] L; simpl in *; try discriminate; [ring|]. rewrite IH by lia. ring. Qed.
Lemma total_div f c ws : forall xs : list vec, length xs = length ws -> ~ c == 0 ->
  weighted_total f xs (map Fin (map (fun w => w / c) ws)) == weighted_total f xs (map Fin ws) / c.
Proof.
  induction ws as [|w ws IH]; intros [|x xs] L Z; simpl in *; try discriminate; [field; auto|]. rewrite IH by (auto; lia). field. auto.
Qed.
Lemma forallb_fin (ws : list Q) : forallb (fun w => match w with Fin _ => true | _ => false end) (map Fin ws) = true.
Proof. induction ws; auto. Qed.
Lemma sq_half a b : 0 < b -> b <= a -> sq b <= sq a.
Proof. intros A B. unfold sq. apply Qmult_le_compat_nonneg; split; lra. Qed.
Lemma one_le_div a b : 0 < b -> b <= a -> 1 <= a / b.
Proof. intros B A. apply Qle_shift_div_l; lra. Qed.

Lemma miss_bound f m eps ws (xs : list vec) (T : Q) : 0 < T -> 0 < eps -> length xs = length ws -> Forall (fun w => 0 <= w) ws ->
  missed f m eps xs (normalise (map Fin ws)) <=
  4 / sq T * sq (weighted_total (fun _ => 1) xs (map Fin ws) - T) + 4 / sq (eps * T) * sq (weighted_total (fun x => f x - m) xs (map Fin ws)).
Proof.
  intros HT He L F. rewrite total_one, total_shift by auto. set (S := Qsum ws). set (A := weighted_total f xs (map Fin ws)).
  assert (T2 : 0 < sq T) by (unfold sq; nra). assert (E2 : 0 < eps * T) by nra. assert (ET2 : 0 < sq (eps * T)) by (unfold sq; nra).
  assert (N1 : 0 <= 4 / sq T * sq (S - T)).
  { apply Qmult_le_0_compat; [apply Qle_shift_div_l; lra|apply sq_nonneg]. }
  assert (N2 : 0 <= 4 / sq (eps * T) * sq (A - m * S)).
  { apply Qmult_le_0_compat; [apply Qle_shift_div_l; lra|apply sq_nonneg]. }
  assert (Le1 : missed f m eps xs (normalise (map Fin ws)) <= 1) by (unfold missed; destruct (_ && _); lra).
  destruct (Qlt_le_dec S (T / 2)) as [Sm|Sb].
  - apply Qle_trans with (1 := Le1).
    assert (sq (T / 2) <= sq (S - T)).
    { assert (E : sq (S - T) == sq (T - S)) by (unfold sq; ring). rewrite E. apply sq_half.
      - apply Qlt_shift_div_l; lra.
      - assert (T / 2 == T * (1 # 2)) by field. lra. }
    assert (1 <= 4 / sq T * sq (S - T)).
    { assert (E : 4 / sq T * sq (S - T) == 4 * sq (S - T) / sq T) by (field; lra). rewrite E. apply one_le_div; auto.
      assert (E' : sq (T / 2) == sq T * (1 # 4)) by (unfold sq; field). lra. }
    lra.
  - assert (Sp : 0 < S). { assert (0 < T / 2) by (apply Qlt_shift_div_l; lra). lra. }
    unfold missed. fold S in Sp. rewrite (normalise_fin ws Sp). fold S. rewrite forallb_fin.
    destruct (Qle_bool (Qabs (weighted_total f xs (map Fin (map (fun w => w / S) ws)) - m)) eps) eqn:Q; cbn [andb]; [lra|].
    assert (Far : eps < Qabs (weighted_total f xs (map Fin (map (fun w => w / S) ws)) - m)).
    { apply Qnot_le_lt. intros C. apply Qle_bool_iff in C. congruence. }
    rewrite total_div in Far by (auto; lra). fold A in Far.
    set (d := A / S - m) in *. assert (Ed : A - m * S == d * S) by (unfold d; field; lra).
    assert (D2 : sq eps <= sq d).
    { destruct (Qlt_le_dec d 0) as [Dn|Dp].
      - rewrite Qabs_neg in Far by lra. assert (E : sq d == sq (- d)) by (unfold sq; ring). rewrite E. apply sq_half; lra.
      - rewrite Qabs_pos in Far by lra. apply sq_half; lra. }
    assert (S2 : sq (T / 2) <= sq S).
    { apply sq_half; [|exact Sb]. apply Qlt_shift_div_l; lra. }
    assert (1 <= 4 / sq (eps * T) * sq (A - m * S)).
    { rewrite Ed. assert (E : 4 / sq (eps * T) * sq (d * S) == 4 * (sq d * sq S) / sq (eps * T)) by (unfold sq; field; lra). rewrite E. apply one_le_div; auto.
      assert (E' : sq (eps * T) == 4 * (sq eps * sq (T / 2))) by (unfold sq; field). rewrite E'.
      assert (sq eps * sq (T / 2) <= sq d * sq S).
      { apply Qmult_le_compat_nonneg; split; auto using sq_nonneg. }
      lra. }
    lra.
Qed.

Section Estimate.
Variable k : pop_kind.
Variable P : pop_params.
Variable pi f : vec -> Q.
Variables v W : Q.
Variable pts : list vec.
Variable rest : nat -> list vec -> pop_round.
Variable ok : pop -> Prop.
Hypothesis PO : pop_params_ok P.
Hypothesis V : 0 <= v.
Hypothesis Pi : forall x, 0 <= pi x.
Hypothesis Live : k = LAIS \/ forall x, 0 < pi x.
Hypothesis I1 : forall m, integral v pts (pp_comp P m) == 1.
Hypothesis R : forall i xs j l, (j < pp_N P)%nat -> (l < pp_K P)%nat -> pr_draw (rest i xs) j l = nth (j * pp_K P + l) xs [].
Hypothesis Okb : forall s, ok s -> forall m x, In m (pop_means s) -> In x pts -> pi x <= W * pp_comp P m x.
Hypothesis Oks : forall s i xs, ok s -> regular P s -> pop_draws P (pop_means s) (rest i xs) = xs -> (forall x, In x xs -> In x pts) ->
  ok (out_state (pop_iter k P pi (rest i xs) s)).
Notation ET := (expect_turns k P pi v pts rest).

Lemma call_error n timeout t s : regular P s -> ok s -> 0 < timeout -> (forall i xs, pr_clock (rest i xs) < timeout) ->
  let c := (pp_N P * pp_K P)%nat in let turns := ((n - length (pop_samples s) + c - 1) / c)%nat in (turns <= t)%nat -> (0 < turns)%nat ->
  let T := Qnat (turns * c) in
  ET t s (fun tape => sq ((total f (out_state (pop_call k P pi n timeout tape s)) - total f s) / T - integral v pts (fun x => pi x * f x)))
  <= W * integral v pts (fun x => pi x * sq (f x)) / T.
Proof.
  intros Rs Os Ht Cl c turns Hb Hp T. destruct PO as (_ & N & K & C).
  assert (Tp : 0 < T) by (apply Qnat_pos; unfold c; nia).
  pose proof (call_square k P pi f v W pts rest ok C K V Pi Live I1 R Okb Oks n timeout t s 0 0 Rs Os Ht Cl Hb) as Q. cbv zeta in Q. fold c turns T in Q.
  set (I := integral v pts (fun x => pi x * f x)) in *. set (D := W * integral v pts (fun x => pi x * sq (f x))) in *.
  rewrite (turns_ext k P pi v pts rest t s _ (fun tape => 1 / sq T * sq (0 + (total f (out_state (pop_loop k P pi n timeout tape 0 s)) - total f s) - T * I))).
  2:{ intros tape _. unfold pop_call, sq. field. lra. }
  rewrite turns_scal. apply Qle_shift_div_l; [exact Tp|].
  assert (T2 : 0 < sq T) by (unfold sq; nra).
  set (X := ET t s _) in *. assert (E : 1 / sq T * X * T == X / T) by (unfold sq; field; lra). rewrite E.
  apply Qle_shift_div_r; [exact Tp|]. assert (sq 0 == 0) by reflexivity. lra.
Qed.

Lemma call_estimate n timeout t s eps : regular P s -> good_weights P s -> ok s -> pop_samples s = [] -> 0 < timeout -> (forall i xs, pr_clock (rest i xs) < timeout) ->
  0 < eps -> (0 < n)%nat ->
  let c := (pp_N P * pp_K P)%nat in let turns := ((n + c - 1) / c)%nat in (turns <= t)%nat ->
  let T := Qnat (turns * c) in let Z := integral v pts pi in let m := integral v pts (fun x => pi x * f x) / Z in 0 < Z ->
  ET t s (fun tape => let s' := out_state (pop_call k P pi n timeout tape s) in missed f m eps (pop_samples s') (pop_returned s'))
  <= 4 * W / (T * Z) * (1 + integral v pts (fun x => pi x * sq (f x - m)) / Z / sq eps).
Proof.
  intros Rs Gs Os Em Ht Cl He Hn c turns Hb T Z m Hz. assert (PO' := PO). destruct PO' as (_ & N & K & C).
  assert (Hc : (0 < c)%nat) by (unfold c; nia).
  assert (Hp : (0 < turns)%nat) by (unfold turns; rewrite ceil_step by lia; lia).
  assert (Tp : 0 < T) by (apply Qnat_pos; nia).
  assert (Lb : ((n - length (pop_samples s) + c - 1) / c)%nat = turns) by (rewrite Em; simpl; rewrite Nat.sub_0_r; reflexivity).
  set (after := fun tape => out_state (pop_loop k P pi n timeout tape 0 s)).
  assert (W0 : forall g, total g s == 0) by (intros g; unfold total; rewrite Em; reflexivity).
  pose proof (call_square k P pi (fun _ => 1) v W pts rest ok C K V Pi Live I1 R Okb Oks n timeout t s 0 0 Rs Os Ht Cl) as Q1. cbv zeta in Q1. fold c in Q1. rewrite Lb in Q1.
  specialize (Q1 Hb). fold T in Q1.
  pose proof (call_square k P pi (fun x => f x - m) v W pts rest ok C K V Pi Live I1 R Okb Oks n timeout t s 0 0 Rs Os Ht Cl) as Q2. cbv zeta in Q2. fold c in Q2. rewrite Lb in Q2.
  specialize (Q2 Hb). fold T in Q2.
  set (VV := integral v pts (fun x => pi x * sq (f x - m))) in *.
  assert (Z1 : integral v pts (fun x => pi x * 1) == Z) by (apply Qsum_ext; intros; ring).
  assert (Z2 : integral v pts (fun x => pi x * sq 1) == Z) by (apply Qsum_ext; intros; unfold sq; ring).
  assert (Z3 : integral v pts (fun x => pi x * (f x - m)) == 0).
  { assert (E : integral v pts (fun x => pi x * (f x - m)) == integral v pts (fun x => pi x * f x) - m * Z).
    { unfold Z, integral. rewrite <- Qsum_scal. assert (E : forall a b, a - b == a + (-1) * b) by (intros; ring). rewrite E, <- Qsum_scal, <- Qsum_plus. apply Qsum_ext. intros; ring. }
    rewrite E. unfold m. field. lra. }
  rewrite (turns_ext k P pi v pts rest t s _ (fun tape => sq (total (fun _ => 1) (after tape) - T * Z))) in Q1.
  2:{ intros tape _. apply sq_ext. fold (after tape). rewrite Z1, (W0 (fun _ => 1)). ring. }
  rewrite (turns_ext k P pi v pts rest t s _ (fun tape => sq (total (fun x => f x - m) (after tape)))) in Q2.
  2:{ intros tape _. apply sq_ext. fold (after tape). rewrite Z3, (W0 (fun x => f x - m)). ring. }
  rewrite Z2 in Q1. assert (S0 : sq 0 == 0) by reflexivity. rewrite S0 in Q1, Q2.
  assert (TZ : 0 < T * Z) by nra. assert (e2 : 0 < sq eps) by (unfold sq; nra).
  assert (TZ2 : 0 < sq (T * Z)) by (unfold sq; nra). assert (eTZ : 0 < sq (eps * (T * Z))) by (assert (0 < eps * (T * Z)) by nra; unfold sq; nra).
  apply Qle_trans with (ET t s (fun tape => 4 / sq (T * Z) * sq (total (fun _ => 1) (after tape) - T * Z) + 4 / sq (eps * (T * Z)) * sq (total (fun x => f x - m) (after tape)))).
  - apply turns_le; auto. intros tape _. cbv zeta. unfold pop_call. fold (after tape).
    assert (G : good_weights P (after tape) /\ regular P (after tape)).
    { unfold after. apply (pop_loop_inv_ok k P pi (fun _ => True) (fun s => good_weights P s /\ regular P s)).
      - intros r s0 _ [G0 R0]. split; [apply good_iter; auto|apply (regular_iter k P pi C K Pi Live); auto].
      - apply Forall_forall. auto.
      - auto. }
    destruct G as ((_ & ws & Ws & Fw) & (_ & _ & Ls)). unfold pop_returned, total. rewrite Ws in Ls |- *. rewrite map_length in Ls.
    apply miss_bound; auto.
  - rewrite turns_plus, !turns_scal.
    set (X := ET t s (fun tape => sq (total (fun _ => 1) (after tape) - T * Z))) in *. set (Y := ET t s (fun tape => sq (total (fun x => f x - m) (after tape)))) in *.
    assert (E : 4 * W / (T * Z) * (1 + VV / Z / sq eps) == 4 / sq (T * Z) * (T * (W * Z)) + 4 / sq (eps * (T * Z)) * (T * (W * VV))) by (unfold sq; field; lra).
    rewrite E. apply Qplus_le_compat.
    + rewrite !(Qmult_comm (4 / sq (T * Z))). apply Qmult_le_compat_r; [lra|apply Qle_shift_div_l; lra].
    + rewrite !(Qmult_comm (4 / sq (eps * (T * Z)))). apply Qmult_le_compat_r; [lra|apply Qle_shift_div_l; lra].
Qed.
End Estimate.
