(** C103: the law of the replaced points of nested sampling. *)
From Coq Require Import List Bool Arith Lia QArith Lqa.
Import ListNotations.
From Verif Require Import Prelude.Py Prelude.QBase Prelude.QFacts Model.Base Model.Nested Spec.UnbiasedSpec Spec.NestedLawSpec Proofs.PopulationUnbiased Proofs.NestedProofs.
Open Scope Q_scope.

(** A request for one sample more: the live point [p] (modulo their number) is displaced by the first draw, and by the others while needed. *)
Definition request (P : ns_params) (pi : vec -> Q) (timeout : Q) (clock : nat -> Q) (pick : nat -> nat) (p : nat) (s : nst) (ds : list vec) : outcome nst :=
  nested_call P pi (S (length (ns_samples s))) timeout [mkRepl p (hd [] ds) (timed clock (tl ds))] pick s.
(** Live point k when the request has returned. *)
Definition live_after (k : nat) (o : outcome nst) : option vec :=
  match o with Running _ => None | Done s | Failed _ s => Some (nth k (ns_live s) []) end.

Lemma chance_ext {X} (law : list (Q * X)) p q : (forall m x, In (m, x) law -> p x = q x) -> chance law p == chance law q.
Proof. intros H. unfold chance. apply Qsum_ext. intros [m x] I. simpl. now rewrite (H m x I). Qed.
Lemma chance_split {X} (law : list (Q * X)) (p : X -> bool) (g : X -> Q) r : Qsum (map fst law) == 1 ->
  Qsum (map (fun mx => fst mx * (if p (snd mx) then g (snd mx) else r)) law) ==
  Qsum (map (fun mx => if p (snd mx) then fst mx * g (snd mx) else 0) law) + (1 - chance law p) * r.
Proof.
  intros M. rewrite <- M. unfold chance. clear M. induction law as [|[m x] l IH]; cbn [map Qsum fst snd]; [ring|].
  rewrite IH. destruct (p x); ring.
Qed.
Lemma chance_and {X} (law : list (Q * X)) (p B : X -> bool) :
  Qsum (map (fun mx => if p (snd mx) then fst mx * (if B (snd mx) then 1 else 0) else 0) law) == chance law (fun x => p x && B x).
Proof. unfold chance. apply Qsum_ext. intros [m x] _. simpl. destruct (p x), (B x); simpl; ring. Qed.

Section Search.
Variables (pi : vec -> Q) (cand : vec -> vec) (v T : Q) (om : list (Q * vec)) (B : vec -> bool).
Hypothesis M : Qsum (map fst om) == 1.
Let above y := Qle_bool v (pi y).
Let a := chance om (fun d => above (cand d)).
Let b := chance om (fun d => above (cand d) && B (cand d)).
Definition found clock N cur e := expect_each (repeat om N) (fun ds => is_in B (fst (ns_search pi cand v T true (timed clock ds) cur e))).

Lemma above_ltb y : Qltb (pi y) v = negb (above y).
Proof.
  unfold above. destruct (Qltb_spec (pi y) v) as [H|H]; symmetry; [apply negb_true_iff, Qle_bool_false; exact H|].
  apply negb_false_iff, Qle_bool_iff. now apply Qnot_lt_le.
Qed.
Lemma found_here clock N cur e : above cur = true -> found clock N cur e == if B cur then 1 else 0.
Proof.
  intros A. unfold found. rewrite (expect_ext _ _ (fun _ => if B cur then 1 else 0)).
  - apply expect_const. intros l I. apply repeat_spec in I. subst. exact M.
  - intros ds _. assert (E : ns_search pi cand v T true (timed clock ds) cur e = (Some cur, [])).
    { destruct ds; cbn [timed ns_search]; rewrite above_ltb, A; reflexivity. }
    rewrite E. reflexivity.
Qed.
Lemma found_step clock N cur e : above cur = false -> e < T ->
  found clock (S N) cur e == Qsum (map (fun md => fst md * found (fun i => clock (S i)) N (cand (snd md)) (clock 0%nat)) om).
Proof.
  intros A E. unfold found. cbn [repeat expect_each]. apply Qsum_ext. intros [m d] _. cbn [fst snd].
  apply Qmult_comp; [reflexivity|]. apply expect_ext. intros ds _. cbn [timed ns_search]. rewrite above_ltb, A.
  apply Qltb_true in E. rewrite E. cbn [negb andb].
  destruct (ns_search pi cand v T true (timed (fun i => clock (S i)) ds) (cand d) (clock 0%nat)) as [o seen]. reflexivity.
Qed.
Fixpoint geo N := match N with O => 0 | S n => b + (1 - a) * geo n end.
Lemma found_below : forall N clock cur e, above cur = false -> e < T -> (forall i, clock i < T) -> found clock N cur e == geo N.
Proof.
  induction N as [|N IH]; intros clock cur e A E C.
  - unfold found. cbn [repeat expect_each timed ns_search]. rewrite above_ltb, A. apply Qltb_true in E. rewrite E. reflexivity.
  - rewrite found_step by assumption.
    rewrite (Qsum_ext _ (fun md => fst md * (if above (cand (snd md)) then (if B (cand (snd md)) then 1 else 0) else geo N))).
    + rewrite (chance_split om (fun d => above (cand d)) (fun d => if B (cand d) then 1 else 0) (geo N) M).
      rewrite (chance_and om (fun d => above (cand d)) (fun d => B (cand d))). reflexivity.
    + intros [m d] _. cbn [fst snd]. destruct (above (cand d)) eqn:AD; [now rewrite found_here|]. rewrite IH; auto. reflexivity.
Qed.
Lemma geo_pow N : a * geo N == b * (1 - Qpow (1 - a) N).
Proof.
  induction N as [|N IH]; cbn [geo Qpow]; [ring|].
  assert (G : a * (b + (1 - a) * geo N) == a * b + (1 - a) * (a * geo N)) by ring. rewrite G, IH. ring.
Qed.
(** The first candidate is made by [c1]. *)
Lemma found_first (c1 : vec -> vec) N clock : 0 < T -> (forall i, clock i < T) ->
  expect_each (repeat om (S N)) (fun ds => is_in B (fst (ns_search pi cand v T true (timed clock (tl ds)) (c1 (hd [] ds)) 0))) ==
  chance om (fun d => above (c1 d) && B (c1 d)) + (1 - chance om (fun d => above (c1 d))) * geo N.
Proof.
  intros T0 C. cbn [repeat expect_each].
  rewrite (Qsum_ext _ (fun md => fst md * (if above (c1 (snd md)) then (if B (c1 (snd md)) then 1 else 0) else geo N))).
  - rewrite (chance_split om (fun d => above (c1 d)) (fun d => if B (c1 d) then 1 else 0) (geo N) M).
    rewrite (chance_and om (fun d => above (c1 d)) (fun d => B (c1 d))). reflexivity.
  - intros [m d] _. cbn [fst snd hd tl]. change (expect_each (repeat om N) _) with (found clock N (c1 d) 0).
    destruct (above (c1 d)) eqn:AD; [now rewrite found_here|now rewrite found_below].
Qed.
End Search.

Lemma finish_live P pick s k : live_after k (ns_finish P pick s) = Some (nth k (ns_live s) []).
Proof. destruct (finish_cases P pick s _ eq_refl) as [(e & ->)|(m & -> & _)]; reflexivity. Qed.

(** The request gives what the search finds, in place of the worst live point. *)
Lemma request_search P pi timeout clock pick p s ds : ns_live s <> [] ->
  let k := argminQ (map pi (ns_live s)) in let c d := vadd d (nth (p mod length (ns_live s)) (ns_live s) []) in
  live_after k (request P pi timeout clock pick p s ds) =
  fst (ns_search pi c (pi (nth k (ns_live s) [])) timeout true (timed clock (tl ds)) (vclip (c (hd [] ds)) (ns_lo P) (ns_hi P)) 0) /\
  (forall j l, j <> k -> live_after j (request P pi timeout clock pick p s ds) = Some l -> l = nth j (ns_live s) []).
Proof.
  intros NE k c. unfold request, nested_call.
  replace (S (length (ns_samples s)) - length (ns_samples s))%nat with 1%nat by lia. cbn [ns_for]. unfold ns_iter.
  assert (GV : map (fun i => nth i (map pi (ns_live s)) 0) (seq 0 (length (ns_live s))) = map pi (ns_live s)).
  { rewrite <- (map_length pi (ns_live s)). generalize (map pi (ns_live s)). intros l. induction l as [|x l IH]; [reflexivity|].
    cbn [length seq map nth]. rewrite <- seq_shift, map_map. cbn [nth]. now rewrite IH. }
  assert (KL : (k < length (ns_live s))%nat).
  { unfold k. rewrite <- (map_length pi). apply argminQ_lt. destruct (ns_live s); [congruence|discriminate]. }
  rewrite GV. fold k. rewrite seq_nth by exact KL. cbn [plus]. rewrite (nth_map_in pi _ k 0 []) by exact KL.
  destruct (seq 0 (length (ns_live s))) as [|g0 gr] eqn:GE; [apply (f_equal (@length nat)) in GE; rewrite seq_length in GE; simpl in GE; lia|].
  cbn [rp_first rp_redraws]. unfold nested_cand. cbn [rp_pick]. change (ns_live (ns_begin s)) with (ns_live s). fold c.
  assert (LV : forall l, ns_live (ns_append k l (ns_begin s)) = ns_live s) by (intros; unfold ns_append; now destruct (ns_samples (ns_begin s))).

  destruct (ns_search _ _ _ _ _ _ _ _) as [[y|] seen]; cbn [fst].
  - rewrite finish_live. cbn [ns_live ns_count]. rewrite LV. split; [now rewrite upd_nth_eq|].
    intros j l Hj. rewrite finish_live. cbn [ns_live ns_count]. rewrite ?LV. rewrite upd_nth_neq by congruence. congruence.
  - split; [reflexivity|]. intros j l _ H. discriminate.
Qed.

(** C103. The new live point, for all displacement laws: the worst live point is replaced, no other; the new point is the first candidate,
    clipped to the box, when this is at least as likely, and otherwise follows the displacement law around the chosen live point,
    without clipping, restricted to the points at least as likely as the one replaced. *)
Theorem C103_law :
  forall P pi timeout clock pick p s om, ns_live s <> [] -> 0 < timeout -> (forall i, clock i < timeout) -> Qsum (map fst om) == 1 ->
  exists k, (k < length (ns_live s))%nat /\ (forall j, (j < length (ns_live s))%nat -> pi (nth k (ns_live s) []) <= pi (nth j (ns_live s) [])) /\
  (forall ds j y, j <> k -> live_after j (request P pi timeout clock pick p s ds) = Some y -> y = nth j (ns_live s) []) /\
  forall N B,
  let x := nth (p mod length (ns_live s)) (ns_live s) [] in
  let above y := Qle_bool (pi (nth k (ns_live s) [])) (pi y) in
  let clipped d := vclip (vadd d x) (ns_lo P) (ns_hi P) in
  let a := chance om (fun d => above (vadd d x)) in
  a * expect_each (repeat om (S N)) (fun ds => is_in B (live_after k (request P pi timeout clock pick p s ds))) ==
  a * chance om (fun d => above (clipped d) && B (clipped d)) +
  (1 - chance om (fun d => above (clipped d))) * (chance om (fun d => above (vadd d x) && B (vadd d x)) * (1 - Qpow (1 - a) N)).
Proof.
  intros P pi timeout clock pick p s om NE T0 C M. exists (argminQ (map pi (ns_live s))).
  assert (ML : map pi (ns_live s) <> []) by (destruct (ns_live s); [congruence|discriminate]).
  assert (KL : (argminQ (map pi (ns_live s)) < length (ns_live s))%nat) by (rewrite <- (map_length pi); now apply argminQ_lt).
  split; [exact KL|]. split.
  { intros j J. rewrite <- (nth_map_in pi _ _ 0 [] KL), <- (nth_map_in pi _ _ 0 [] J). apply argminQ_min. now rewrite map_length. }
  split. { intros ds j y Hj H. now apply (request_search P pi timeout clock pick p s ds NE) in H. }
  intros N B x above clipped a.
  rewrite (expect_ext _ _ (fun ds => is_in B (fst (ns_search pi (fun d => vadd d x) (pi (nth (argminQ (map pi (ns_live s))) (ns_live s) [])) timeout true
     (timed clock (tl ds)) (clipped (hd [] ds)) 0)))).
  - rewrite (found_first pi (fun d => vadd d x) _ timeout om B M clipped N clock T0 C).
    pose proof (geo_pow pi (fun d => vadd d x) (pi (nth (argminQ (map pi (ns_live s))) (ns_live s) [])) om B N) as G.
    subst a above. cbv beta in *. rewrite <- G. ring.
  - intros ds _. destruct (request_search P pi timeout clock pick p s ds NE) as [E _]. cbv zeta in E. now rewrite E.
Qed.
Print Assumptions C103_law.

Lemma clip_inside : forall x lo hi, inside lo hi x -> vclip x lo hi = x.
Proof.
  induction x as [|a x IH]; intros [|l lo] [|h hi] I; simpl in I; try contradiction; [reflexivity|]. destruct I as [[L H] I].
  cbn [vclip]. rewrite (IH lo hi I). f_equal. unfold clip1, qmax, qmin. apply Qle_bool_false in L. rewrite L.
  apply Qle_bool_iff in H. now rewrite H.
Qed.

(** C103. When no displacement leaves the box: given that it is found within N + 1 draws, the new live point is a draw from the displacement
    law around the chosen live point restricted to the points at least as likely as the one replaced; it is not found with chance (1 - a)^(N+1). *)
Theorem C103_replacement_partial :
  forall P pi timeout clock pick p s om, ns_live s <> [] -> 0 < timeout -> (forall i, clock i < timeout) -> Qsum (map fst om) == 1 ->
  (forall m d, In (m, d) om -> inside (ns_lo P) (ns_hi P) (vadd d (nth (p mod length (ns_live s)) (ns_live s) []))) ->
  exists k, (k < length (ns_live s))%nat /\ (forall j, (j < length (ns_live s))%nat -> pi (nth k (ns_live s) []) <= pi (nth j (ns_live s) [])) /\
  forall N B,
  let x := nth (p mod length (ns_live s)) (ns_live s) [] in
  let above y := Qle_bool (pi (nth k (ns_live s) [])) (pi y) in
  let a := chance om (fun d => above (vadd d x)) in
  ~ a == 0 ->
  expect_each (repeat om (S N)) (fun ds => is_in B (live_after k (request P pi timeout clock pick p s ds))) ==
  chance om (fun d => above (vadd d x) && B (vadd d x)) / a * (1 - Qpow (1 - a) (S N)).
Proof.
  intros P pi timeout clock pick p s om NE T0 C M I.
  destruct (C103_law P pi timeout clock pick p s om NE T0 C M) as (k & KL & KM & _ & L). exists k. split; [exact KL|]. split; [exact KM|].
  intros N B x above a A. specialize (L N B). cbv zeta in L. fold x in L. fold above in L. fold a in L.
  assert (E1 : chance om (fun d => above (vclip (vadd d x) (ns_lo P) (ns_hi P)) && B (vclip (vadd d x) (ns_lo P) (ns_hi P))) ==
               chance om (fun d => above (vadd d x) && B (vadd d x))).
  { apply chance_ext. intros m d H. rewrite clip_inside; [reflexivity|]. now apply (I m d). }
  assert (E2 : chance om (fun d => above (vclip (vadd d x) (ns_lo P) (ns_hi P))) == a).
  { apply chance_ext. intros m d H. rewrite clip_inside; [reflexivity|]. now apply (I m d). }
  unfold above in E1, E2, L. rewrite E1, E2 in L. fold above in L.
  assert (F : forall u q b, ~ u == 0 -> u * b + (1 - u) * (b * (1 - q)) == u * (b / u * (1 - (1 - u) * q))) by (intros; field; assumption).
  apply (Qmult_inj_l _ _ a A). rewrite L. apply F. exact A.
Qed.
Print Assumptions C103_replacement_partial.

(** Box (0, 3], live points 1/2 and 3/2, likelihood x. *)
Definition exP : ns_params := mkNsP [0] [3] 1 2 0.
Definition exS : nst := mkNst [[1 # 2]; [3 # 2]] None [] [] 0 0 None [].
Definition ex_pi (x : vec) : Q := nth 0 x 0.
Definition ex_om : list (Q * vec) := [(1 # 2, [1]); (1 # 4, [0]); (1 # 4, [-1 # 4])].
Example C103_replacement_example :
  ns_live exS <> [] /\ Qsum (map fst ex_om) == 1 /\
  (forall m d, In (m, d) ex_om -> inside (ns_lo exP) (ns_hi exP) (vadd d (nth (0 mod 2) (ns_live exS) []))) /\
  chance ex_om (fun d => Qle_bool (1 # 2) (ex_pi (vadd d [1 # 2]))) == 3 # 4 /\
  expect_each (repeat ex_om 2) (fun ds => is_in (fun y => Qeq_bool (ex_pi y) (3 # 2)) (live_after 0 (request exP ex_pi 60 (fun _ => 1) (fun i => i) 0 exS ds))) ==
  (1 # 2) / (3 # 4) * (15 # 16).
Proof.
  split; [discriminate|]. split; [vm_compute; reflexivity|]. split; [|split; vm_compute; reflexivity].
  intros m d [H|[H|[H|[]]]]; injection H as <- <-; vm_compute; repeat split; discriminate.
Qed.

(** Intervals of the line. *)
Definition between (l h : Q) (y : vec) : bool := Qle_bool l (nth 0 y 0) && Qltb (nth 0 y 0) h.
Definition ex_om2 : list (Q * vec) := [(1 # 2, [0]); (1 # 2, [1])].
(** C103. Nested sampling wants draws from the prior, uniform over the box, restricted to the points at least as likely as the one replaced. The new
    point is not one: with the same likelihood everywhere, and the displaced live point chosen uniformly, the intervals [0, 1) and [1, 2) get
    different chances. *)
Theorem C103_prior_refuted :
  exists P pi timeout clock pick s om k l1 l2 w,
    ns_live s <> [] /\ 0 < timeout /\ (forall i, clock i < timeout) /\ Qsum (map fst om) == 1 /\ 0 < w /\
    (forall p m d, In (m, d) om -> inside (ns_lo P) (ns_hi P) (vadd d (nth (p mod length (ns_live s)) (ns_live s) []))) /\
    (forall j y, pi (nth k (ns_live s) []) <= pi (nth j (ns_live s) []) /\ pi (nth k (ns_live s) []) <= pi y) /\
    ns_lo P = [0] /\ ns_hi P = [3] /\ 0 <= l1 /\ l1 + w <= 3 /\ 0 <= l2 /\ l2 + w <= 3 /\
    let p_new l := Qsum (map (fun p => expect_each (repeat om 1) (fun ds => is_in (between l (l + w)) (live_after k (request P pi timeout clock pick p s ds))))
                             (seq 0 (length (ns_live s)))) / Qnat (length (ns_live s)) in
    p_new l1 == 1 # 4 /\ p_new l2 == 1 # 2.
Proof.
  exists exP, (fun _ => 1), 60, (fun _ => 1), (fun i => i), exS, ex_om2, 0%nat, 0, 1, 1.
  split; [discriminate|]. split; [reflexivity|]. split; [reflexivity|]. split; [vm_compute; reflexivity|]. split; [reflexivity|]. split.
  { intros p m d H. cbn [exS ns_live length]. assert (B : (p mod 2 < 2)%nat) by (apply Nat.mod_upper_bound; discriminate).
    destruct (p mod 2)%nat as [|[|n]]; [| |lia]; (destruct H as [H|[H|[]]]; injection H as <- <-); vm_compute; repeat split; discriminate. }
  split; [intros; split; discriminate|]. repeat (split; [try reflexivity; discriminate|]). cbv zeta. split; vm_compute; reflexivity.
Qed.
Print Assumptions C103_prior_refuted.
