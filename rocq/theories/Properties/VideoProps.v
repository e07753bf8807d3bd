(** C119: recorded videos show what was drawn. *)
From Coq Require Import List Arith Bool Lia.
Import ListNotations.
From Verif Require Import Prelude.Py Model.Video Spec.VideoSpec.

Lemma flat_map_length_const {A B} (f : A -> list B) k l : (forall a, In a l -> length (f a) = k) -> length (flat_map f l) = length l * k.
Proof.
  induction l as [|a l IH]; intros H; simpl; auto. rewrite app_length, H by (simpl; auto). rewrite IH; auto. intros b Hb. apply H. simpl; auto.
Qed.
Lemma flat_map_nth {B} (f : nat -> list B) k d : (forall a, length (f a) = k) -> forall n s i j, i < n -> j < k -> nth (i * k + j) (flat_map f (seq s n)) d = nth j (f (s + i)) d.
Proof.
  intros H. induction n as [|n IH]; intros s i j Hi Hj; [lia|]. simpl. destruct i as [|i].
  - rewrite app_nth1 by (rewrite H; simpl; lia). simpl. now rewrite Nat.add_0_r.
  - rewrite app_nth2 by (rewrite H; simpl; lia). rewrite H. replace (S i * k + j - k) with (i * k + j) by (simpl; lia). rewrite IH by lia. f_equal. f_equal. lia.
Qed.
Lemma row_length c y : length (flat_map (fun x => rgb_bytes (cv_pixel c x y)) (seq 0 (cv_w c))) = cv_w c * 3.
Proof. rewrite (flat_map_length_const _ 3), seq_length; auto. intros x _. now destruct (cv_pixel c x y) as ((r, g), b). Qed.
Lemma tostring_length c : length (tostring_rgb c) = cv_h c * cv_w c * 3.
Proof. unfold tostring_rgb. rewrite (flat_map_length_const _ (cv_w c * 3)), seq_length; [lia|]. intros y _. apply row_length. Qed.
Lemma tostring_nth c x y k : x < cv_w c -> y < cv_h c -> k < 3 -> nth ((y * cv_w c + x) * 3 + k) (tostring_rgb c) 0 = nth k (rgb_bytes (cv_pixel c x y)) 0.
Proof.
  intros X Y K. unfold tostring_rgb. replace ((y * cv_w c + x) * 3 + k) with (y * (cv_w c * 3) + (x * 3 + k)) by lia.
  rewrite (flat_map_nth _ (cv_w c * 3)); [|apply row_length|auto|lia]. rewrite Nat.add_0_l.
  rewrite (flat_map_nth _ 3); auto. intros a. now destruct (cv_pixel c a y) as ((r, g), b).
Qed.

Definition frame_of (c : canvas) : frame := mkFrame (cv_h c) (cv_w c) (tostring_rgb c).
Lemma record_ok : forall cs v, record_all cs v = Ok (mkWriter (vw_frames v ++ map frame_of cs)).
Proof.
  induction cs as [|c r IH]; intros v; simpl; [rewrite app_nil_r; now destruct v|]. unfold add_frame. rewrite tostring_length, Nat.eqb_refl, IH. simpl. now rewrite <- app_assoc.
Qed.
Lemma last_drawn cs c : last_frame (map frame_of (cs ++ [c])) = Ok (frame_of c).
Proof. unfold last_frame. rewrite map_app, rev_app_distr. reflexivity. Qed.

Lemma swap_nth : forall n l i, length l = n * 3 -> i < n ->
  nth (i * 3) (swap_channels l) 0 = nth (i * 3 + 2) l 0 /\ nth (i * 3 + 1) (swap_channels l) 0 = nth (i * 3 + 1) l 0 /\ nth (i * 3 + 2) (swap_channels l) 0 = nth (i * 3) l 0.
Proof.
  induction n as [|n IH]; intros l i L H; [lia|]. destruct l as [|r [|g [|b t]]]; simpl in L; try lia. destruct i as [|i]; [simpl; auto|].
  assert (Lt : length t = n * 3) by lia. destruct (IH t i Lt ltac:(lia)) as (A & B & C).
  replace (S i * 3) with (S (S (S (i * 3)))) by lia. simpl. auto.
Qed.

(** A picture of size w * h with these colours shows a canvas. *)
Definition shows_canvas (w h : nat) (colour : nat -> nat -> rgb) (c : canvas) : Prop := same_picture w h colour (cv_w c) (cv_h c) (cv_pixel c).

Lemma bgr_shows c : shows_canvas (f_cols (to_bgr (frame_of c))) (f_rows (to_bgr (frame_of c))) (played (to_bgr (frame_of c))) c.
Proof.
  split; [reflexivity|]. split; [reflexivity|]. intros x y X Y; simpl in X, Y. unfold played, f_at. simpl f_bytes. simpl f_cols.
  assert (I : y * cv_w c + x < cv_h c * cv_w c) by nia.
  destruct (swap_nth (cv_h c * cv_w c) (tostring_rgb c) (y * cv_w c + x) (tostring_length c) I) as (A & B & C).
  rewrite Nat.add_0_r, A, B, C.
  pose proof (tostring_nth c x y 0 X Y ltac:(lia)) as T0. rewrite Nat.add_0_r in T0. rewrite T0, !tostring_nth by (auto; lia).
  now destruct (cv_pixel c x y) as ((r, g), b).
Qed.

Lemma written cs w h : Forall (fun c => cv_w c = w /\ cv_h c = h) cs -> forall acc,
  fold_left video_write (map to_bgr (map frame_of cs)) (mkVideo w h acc) = mkVideo w h (acc ++ map to_bgr (map frame_of cs)).
Proof.
  induction 1 as [|c r (E1 & E2) F IH]; intros acc; simpl; [now rewrite app_nil_r|]. unfold video_write at 2. simpl. rewrite E1, E2, !Nat.eqb_refl. simpl.
  rewrite IH, <- app_assoc. reflexivity.
Qed.

(** C119: figures of one size are recorded without an error, and the saved video has their size and shows them all, in order, in their colours. *)
Theorem C119_saved_partial :
  forall cs w h, cs <> [] -> Forall (fun c => cv_w c = w /\ cv_h c = h) cs ->
  exists v vd, record_all cs vw_new = Ok v /\ save v = Ok vd /\ vd_w vd = w /\ vd_h vd = h /\
    Forall2 (fun f c => shows_canvas (f_cols f) (f_rows f) (played f) c) (vd_frames vd) cs.
Proof.
  intros cs w h NE F. destruct (exists_last NE) as (r & c & ->). eexists _, _. split; [apply record_ok|]. unfold save. simpl vw_frames.
  rewrite last_drawn. cbv zeta. simpl f_rows. simpl f_cols.
  assert (C : cv_w c = w /\ cv_h c = h). { rewrite Forall_forall in F. apply F. apply in_app_iff. right. simpl. auto. }
  destruct C as (-> & ->). rewrite (written _ w h F []). split; [reflexivity|]. simpl. split; auto. split; auto.
  clear F NE. induction (r ++ [c]) as [|a l IH]; simpl; constructor; auto. apply bgr_shows.
Qed.
Print Assumptions C119_saved_partial.

(** C119 (full statement: for figures of any sizes) is false: the size of the last one counts, the frames of another size are not in the file. *)
Theorem C119_resized_refuted :
  exists cs v vd, record_all cs vw_new = Ok v /\ save v = Ok vd /\ (length cs = 3 /\ length (vd_frames vd) = 1).
Proof.
  set (a := mkCanvas 2 1 (fun x y => (x, y, 7))). set (b := mkCanvas 1 1 (fun x y => (1, 2, 3))).
  exists [a; a; b]. eexists _, _. split; [apply record_ok|]. split; [reflexivity|]. split; reflexivity.
Qed.
Print Assumptions C119_resized_refuted.

(** C119: a square figure is shown as drawn. *)
Theorem C119_shown_partial :
  forall cs c, cv_w c = cv_h c -> exists v im, record_all (cs ++ [c]) vw_new = Ok v /\ show v = Ok im /\ shows_canvas (im_w im) (im_h im) (im_at im) c.
Proof.
  intros cs c Sq. eexists _, _. split; [apply record_ok|]. unfold show. simpl vw_frames. rewrite last_drawn. split; [reflexivity|]. cbv zeta. simpl.
  split; [simpl; auto|]. split; [simpl; auto|]. intros x y X Y; simpl in X, Y. rewrite <- Sq in X. rewrite Sq in Y. unfold im_at. simpl. rewrite <- Sq.
  pose proof (tostring_nth c x y 0 X Y ltac:(lia)) as T0. rewrite Nat.add_0_r in T0. rewrite T0, !tostring_nth by (auto; lia).
  now destruct (cv_pixel c x y) as ((r, g), b).
Qed.
Print Assumptions C119_shown_partial.

(** C119 (full statement: for every figure) is false, and for every figure that is not square: width and height of the picture are exchanged. *)
Theorem C119_shown_refuted :
  (exists c, cv_w c <> cv_h c) /\
  forall cs c, cv_w c <> cv_h c -> exists v im, record_all (cs ++ [c]) vw_new = Ok v /\ show v = Ok im /\ ~ shows_canvas (im_w im) (im_h im) (im_at im) c /\
    (* the rows of the picture are cut from the rows of the figure written one after the other *)
    (forall x y x' y', y * cv_h c + x = y' * cv_w c + x' -> x' < cv_w c -> y' < cv_h c -> im_at im x y = cv_pixel c x' y').
Proof.
  split; [exists (mkCanvas 2 1 (fun x y => (0, 0, 0))); discriminate|]. intros cs c Ns. eexists _, _. split; [apply record_ok|]. unfold show. simpl vw_frames.
  rewrite last_drawn. split; [reflexivity|]. cbv zeta. split.
  - intros (E & _). simpl in E. congruence.
  - intros x y x' y' E X Y. unfold im_at. simpl. rewrite E. pose proof (tostring_nth c x' y' 0 X Y ltac:(lia)) as T0. rewrite Nat.add_0_r in T0.
    rewrite T0, !tostring_nth by (auto; lia). now destruct (cv_pixel c x' y') as ((r, g), b).
Qed.
Print Assumptions C119_shown_refuted.

(** Nothing recorded: both fail. *)
Theorem C119_empty_refuted : exists v, record_all [] vw_new = Ok v /\ save v = Raise IndexError /\ show v = Raise IndexError.
Proof. exists vw_new. repeat split. Qed.
Print Assumptions C119_empty_refuted.

(** Two figures of two by two pixels, and one of three by two. *)
Definition small (k : nat) : canvas := mkCanvas 2 2 (fun x y => (10 * x + y, k, 5)).
Example C119_saved_partial_example :
  Forall (fun c => cv_w c = 2 /\ cv_h c = 2) [small 1; small 2] /\
  exists vd, save (mkWriter [frame_of (small 1); frame_of (small 2)]) = Ok vd /\ map (fun f => played f 1 0) (vd_frames vd) = [(10, 1, 5); (10, 2, 5)].
Proof. split; [repeat constructor|]. eexists. split; reflexivity. Qed.
Example C119_shown_partial_example : exists im, cv_w (small 1) = cv_h (small 1) /\ show (mkWriter [frame_of (small 1)]) = Ok im /\ im_at im 1 0 = (10, 1, 5).
Proof. eexists. split; [reflexivity|]. split; reflexivity. Qed.
Example C119_shown_refuted_example : exists im, let c := mkCanvas 3 2 (fun x y => (x, y, 0)) in
  show (mkWriter [frame_of c]) = Ok im /\ im_w im = 2 /\ im_h im = 3 /\ im_at im 0 1 = (2, 0, 0).
Proof. eexists. split; [reflexivity|]. repeat split. Qed.
