(** Curves and contours. *)
From Coq Require Import List Bool Arith Lia ZArith QArith Qround Lqa.
Import ListNotations.
From Verif Require Import Prelude.Py Prelude.QBase Prelude.QFacts Model.Base Model.DensityPlots Spec.DensityPlotSpec Proofs.BaseProofs.
Open Scope Q_scope.

(** * The table *)
Lemma nth_error_seq n a i : (i < n)%nat -> nth_error (seq a n) i = Some (a + i)%nat.
Proof. revert a i. induction n as [|n IH]; intros a [|i] L; simpl; try lia; [f_equal; lia|]. rewrite IH by lia. f_equal. lia. Qed.
Lemma nth_error_map_some {A B : Type} (f : A -> B) l i a : nth_error l i = Some a -> nth_error (map f l) i = Some (f a).
Proof. intros H. now apply map_nth_error. Qed.
(** Rows of the mesh of two axes: the second axis varies fastest. *)
Lemma flat_nth {A B C : Type} (f : A -> B -> C) (c0 : C) (ys : list B) : forall (xs : list A) j i x y, nth_error xs j = Some x -> nth_error ys i = Some y ->
  nth (j * length ys + i) (flat_map (fun a => map (f a) ys) xs) c0 = f x y.
Proof.
  induction xs as [|a xs IH]; intros [|j] i x y X Y; simpl in X; try discriminate.
  - injection X as ->. simpl. assert (L : (i < length ys)%nat) by (apply nth_error_Some; congruence). rewrite app_nth1 by (rewrite map_length; exact L).
    apply nth_error_nth. now apply nth_error_map_some.
  - cbn [flat_map]. rewrite app_nth2 by (rewrite map_length; simpl; lia). rewrite map_length. replace (S j * length ys + i - length ys)%nat with (j * length ys + i)%nat by (simpl; lia). now apply IH.
Qed.
Lemma mesh_two xs ys : mesh_rows [xs; ys] = flat_map (fun x => map (fun y => [x; y]) ys) xs.
Proof.
  unfold mesh_rows. cbn [rev app length skipn firstn]. induction xs as [|x xs IH]; [reflexivity|]. cbn [lexprod flat_map] in *. rewrite map_app, IH. f_equal.
  clear IH. induction ys as [|y ys IH]; [reflexivity|]. simpl in *. f_equal. exact IH.
Qed.
Lemma map_flat {A B C D : Type} (g : C -> D) (f : A -> B -> C) xs ys : map g (flat_map (fun x => map (f x) ys) xs) = flat_map (fun x => map (fun y => g (f x y)) ys) xs.
Proof. induction xs as [|x xs IH]; simpl; [reflexivity|]. rewrite map_app, map_map, IH. reflexivity. Qed.
Lemma arrange_shows {A : Type} (eqv : A -> A -> Prop) (a0 : A) xs ys (g : vec -> A) : (forall a, eqv a a) ->
  shows eqv xs ys (arrange a0 (length xs) (length ys) (map g (mesh_rows [xs; ys]))) (fun x y => g [x; y]).
Proof.
  intros Rf. unfold shows, arrange. split; [rewrite map_length; apply seq_length|]. split.
  - intros row H. apply in_map_iff in H. destruct H as (i & <- & _). rewrite map_length. apply seq_length.
  - intros i j x y Y X. assert (Li : (i < length ys)%nat) by (apply nth_error_Some; congruence). assert (Lj : (j < length xs)%nat) by (apply nth_error_Some; congruence).
    eexists. eexists. split; [apply nth_error_map_some; now apply nth_error_seq|]. split; [apply nth_error_map_some; now apply nth_error_seq|].
    unfold table_at. cbn [flat_index fold_right]. rewrite mesh_two, map_flat. replace ((0 + j) * (length ys * 1) + ((0 + i) * 1 + 0))%nat with (j * length ys + i)%nat by lia.
    rewrite (flat_nth (fun x y => g [x; y]) a0 ys xs j i x y X Y). apply Rf.
Qed.

(** * Least and greatest entries *)
Lemma fold_min l : forall x, In (fold_left qmin l x) (x :: l) /\ forall y, In y (x :: l) -> fold_left qmin l x <= y.
Proof.
  induction l as [|a l IH]; intros x; [split; [left; reflexivity|intros y [<-|[]]; simpl; lra]|]. cbn [fold_left]. destruct (IH (qmin x a)) as (I & M). unfold qmin in *. destruct (Qle_bool x a) eqn:E.
  - apply Qle_bool_iff in E. split; [destruct I as [I|I]; [left; exact I|right; right; exact I]|]. intros y [<-|[<-|H]]; [apply M; now left|eapply Qle_trans; [apply M; now left|exact E]|apply M; now right].
  - assert (E' : a <= x) by (apply Qlt_le_weak; apply Qnot_le_lt; intros H; apply Qle_bool_iff in H; congruence).
    split; [destruct I as [I|I]; [right; left; exact I|right; right; exact I]|]. intros y [<-|[<-|H]]; [eapply Qle_trans; [apply M; now left|exact E']|apply M; now left|apply M; now right].
Qed.
Lemma fold_max l : forall x, In (fold_left qmax l x) (x :: l) /\ forall y, In y (x :: l) -> y <= fold_left qmax l x.
Proof.
  induction l as [|a l IH]; intros x; [split; [left; reflexivity|intros y [<-|[]]; simpl; lra]|]. cbn [fold_left]. destruct (IH (qmax x a)) as (I & M). unfold qmax in *. destruct (Qle_bool x a) eqn:E.
  - apply Qle_bool_iff in E. split; [destruct I as [I|I]; [right; left; exact I|right; right; exact I]|]. intros y [<-|[<-|H]]; [eapply Qle_trans; [exact E|apply M; now left]|apply M; now left|apply M; now right].
  - assert (E' : a <= x) by (apply Qlt_le_weak; apply Qnot_le_lt; intros H; apply Qle_bool_iff in H; congruence).
    split; [destruct I as [I|I]; [left; exact I|right; right; exact I]|]. intros y [<-|[<-|H]]; [apply M; now left|eapply Qle_trans; [exact E'|apply M; now left]|apply M; now right].
Qed.
Lemma amin_spec l : l <> [] -> In (amin l) l /\ forall y, In y l -> amin l <= y.
Proof. destruct l as [|x l]; [congruence|]. intros _. apply fold_min. Qed.
Lemma amax_spec l : l <> [] -> In (amax l) l /\ forall y, In y l -> y <= amax l.
Proof. destruct l as [|x l]; [congruence|]. intros _. apply fold_max. Qed.

(** * Levels *)
Lemma fifteen a b : a < b -> arange a b ((b - a) / 15) = map (fun i => a + Qnat i * ((b - a) / 15)) (seq 0 15).
Proof.
  intros H. unfold arange. assert (E : (b - a) / ((b - a) / 15) == 15) by (field; lra). rewrite (Qceiling_comp _ _ E). reflexivity.
Qed.
Lemma level_range a b i : a < b -> (i < 15)%nat -> a <= a + Qnat i * ((b - a) / 15) < b.
Proof.
  intros H L. assert (P : 0 < (b - a) / 15) by (apply Qlt_shift_div_l; lra). assert (E : b == a + 15 * ((b - a) / 15)) by field. generalize dependent ((b - a) / 15). intros h P E.
  assert (I0 : 0 <= Qnat i) by apply Qnat_nonneg. assert (I1 : Qnat i <= 14) by (change 14 with (Qnat 14); unfold Qnat; rewrite <- Zle_Qle; lia).
  split; [assert (0 <= Qnat i * h) by (apply Qmult_le_0_compat; lra); lra|]. assert (M : Qnat i * h <= 14 * h) by (apply Qmult_le_compat_r; lra). lra.
Qed.
Lemma levels_steps a b : a < b -> equal_steps (arange a b ((b - a) / 15)) ((b - a) / 15).
Proof.
  intros H. rewrite (fifteen a b H). intros i u v U V. assert (L : (S i < 15)%nat). { rewrite <- (seq_length 15 0), <- (map_length (fun i => a + Qnat i * ((b - a) / 15)) (seq 0 15)). apply nth_error_Some. congruence. }
  rewrite (map_nth_error _ _ _ (nth_error_seq 15 0 i ltac:(lia))) in U. rewrite (map_nth_error _ _ _ (nth_error_seq 15 0 (S i) L)) in V. injection U as <-. injection V as <-. cbn [Nat.add]. rewrite Qnat_S. ring.
Qed.
Lemma concat_in (z : list (list Q)) v : In v (concat z) -> exists row, In row z /\ In v row.
Proof. intros H. apply in_concat in H. destruct H as (row & H1 & H2). eauto. Qed.
Lemma levels_crossed z l : let lo := amin (concat z) in let hi := amax (concat z) in lo < hi -> In l (arange lo hi ((hi - lo) / 15)) -> crossed z l.
Proof.
  intros lo hi H I. assert (Ne : concat z <> []) by (intros E; unfold lo, hi in H; rewrite E in H; simpl in H; lra). rewrite (fifteen lo hi H) in I. apply in_map_iff in I. destruct I as (i & <- & Hi). apply in_seq in Hi.
  pose proof (level_range lo hi i H ltac:(lia)) as (L1 & L2). split.
  - destruct (concat_in z lo (proj1 (amin_spec _ Ne))) as (row & R1 & R2). eauto.
  - destruct (concat_in z hi (proj1 (amax_spec _ Ne))) as (row & R1 & R2). eauto.
Qed.
Lemma flat_table z v w : Qltb (amin (concat z)) (amax (concat z)) = false -> In v (concat z) -> In w (concat z) -> v == w.
Proof.
  intros H V W. assert (Ne : concat z <> []) by (intros E; rewrite E in V; destruct V). assert (G : amax (concat z) <= amin (concat z)). { unfold Qltb in H. apply negb_false_iff in H. now apply Qle_bool_iff. }
  destruct (amin_spec _ Ne) as (_ & M). destruct (amax_spec _ Ne) as (_ & X). pose proof (M v V). pose proof (M w W). pose proof (X v V). pose proof (X w W). lra.
Qed.

(** * The grid of two axes *)
Lemma grid_two l0 l1 h0 h1 r rows ds shape : make_grid [l0; l1] [h0; h1] r = Ok (rows, ds, shape) -> exists xs ys, ds = [xs; ys] /\ rows = mesh_rows [xs; ys] /\ shape = [length xs; length ys].
Proof.
  unfold make_grid, grid_dims. destruct (grid_count (h0 - l0) r) as [n|e]; [|discriminate]. destruct (grid_count (h1 - l1) r) as [m|e]; [|discriminate]. intros H. injection H as <- <- <-.
  exists (linspace l0 h0 n), (linspace l1 h1 m). auto.
Qed.
Lemma pdf2d_two l0 l1 h0 h1 r scale d o : plot_pdf2d [l0; l1] [h0; h1] r scale d = Ok o ->
  exists xs ys rows, make_grid [l0; l1] [h0; h1] r = Ok (rows, [xs; ys], [length xs; length ys]) /\
    let z := arrange 0 (length xs) (length ys) (map (fun x => d x * scale) (mesh_rows [xs; ys])) in
    let lo := amin (concat z) in let hi := amax (concat z) in
    o = (if Qltb lo hi then Some (mkContour xs ys z (arange lo hi ((hi - lo) / 15))) else None).
Proof.
  unfold plot_pdf2d. destruct (make_grid _ _ _) as [[[rows ds] shape]|e] eqn:E; [|discriminate]. destruct (grid_two _ _ _ _ _ _ _ _ E) as (xs & ys & -> & -> & ->). intros H. exists xs, ys, (mesh_rows [xs; ys]).
  split; [reflexivity|]. cbv zeta. unfold plot_grid in H. rewrite map_map in H. destruct (Qltb _ _) in *; injection H as <-; reflexivity.
Qed.

(** * Curves *)
Lemma plot_pdf_ok lo hi r scale d c : plot_pdf lo hi r scale d = Ok c -> exists n, c = map (fun x => (x, d [x] * scale)) (linspace lo hi n).
Proof.
  unfold plot_pdf. destruct (fdivQ (hi - lo) r); try discriminate. destruct (_ <? _)%Z; [discriminate|]. intros H. injection H as <-. eauto.
Qed.
Lemma Qtrunc_floor q : 0 <= q -> Qtrunc q = Qfloor q.
Proof. destruct q as [n d]. unfold Qtrunc, Qfloor, Qle; simpl. intros H. apply Z.quot_div_nonneg; lia. Qed.
Lemma plot_pdf_count lo hi r scale d : 0 < r -> lo <= hi -> plot_pdf lo hi r scale d = Ok (map (fun x => (x, d [x] * scale)) (linspace lo hi (Z.to_nat (Qfloor ((hi - lo) / r))))).
Proof.
  intros R H. unfold plot_pdf, fdivQ. destruct (Qeq_bool r 0) eqn:E; [apply Qeq_bool_eq in E; lra|].
  assert (P : 0 <= (hi - lo) / r) by (apply Qle_shift_div_l; lra). rewrite (Qtrunc_floor _ P).
  assert (F : (0 <= Qfloor ((hi - lo) / r))%Z) by (change 0%Z with (Qfloor 0); now apply Qfloor_resp_le). destruct (_ <? _)%Z eqn:L; [apply Z.ltb_lt in L; lia|reflexivity].
Qed.
