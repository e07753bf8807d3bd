(** The fields of the header line and of the result lines. *)
From Coq Require Import List Bool Arith NArith ZArith Lia QArith Ascii String.
Import ListNotations.
From Verif Require Import Prelude.Py Prelude.QBase Model.TableFormat Spec.TableSpec Proofs.TableText Proofs.TableNumbers.
Open Scope string_scope.

Lemma tok_sp : forall a b, tokens is_space (a ++ " " ++ b) = (tokens is_space a ++ tokens is_space b)%list.
Proof. intros. change (" " ++ b) with (String " " b). now apply tokens_sep. Qed.

Lemma tok_word : forall s, word s -> tokens is_space s = [s].
Proof. intros s (A & B & _). now apply tokens_free. Qed.

Lemma fmt_d_free : forall sep w n, nodigit sep -> sep "0"%char = false -> free sep (fmt_d w n) = true.
Proof. intros. unfold fmt_d. now apply free_padl0. Qed.

Lemma fmt_d_nonempty : forall w n, fmt_d w n <> "".
Proof.
  intros w n E. unfold fmt_d in E. apply (f_equal String.length) in E. rewrite padl_length in E. simpl in E.
  destruct (dec (N.of_nat n)) eqn:D; [exact (dec_nonempty _ D)|]. simpl in E. lia.
Qed.

Lemma word_fmt_d : forall w n, word (fmt_d w n).
Proof.
  intros. split; [apply fmt_d_nonempty|]. split; apply fmt_d_free; try reflexivity; [exact nd_space | exact nd_newline].
Qed.

Lemma word_fixed : forall p v, word (fixed p v).
Proof. intros. split; [apply fixed_nonempty|]. split; [apply fixed_free_space | apply fixed_free_newline]. Qed.

Lemma tok_fmt_f : forall w p v, tokens is_space (fmt_f w p v) = [fixed p v].
Proof.
  intros. unfold fmt_f, padl. rewrite tokens_rep by reflexivity. apply tok_word. apply word_fixed.
Qed.

Lemma tok_concat : forall (A : Type) (f g : A -> string) l, (forall x, tokens is_space (f x) = [g x]) ->
  tokens is_space (String.concat " " (map f l)) = map g l.
Proof.
  intros A f g l H. induction l as [|x l IH]; [reflexivity|].
  destruct l as [|y l]; [simpl; apply H|].
  change (String.concat " " (map f (x :: y :: l))) with (f x ++ " " ++ String.concat " " (map f (y :: l))).
  rewrite tok_sp, H, IH. reflexivity.
Qed.

Lemma free_concat : forall p s l, free p s = true -> Forall (fun x => free p x = true) l -> free p (String.concat s l) = true.
Proof.
  intros p s l S F. induction F as [|x l X F IH]; [reflexivity|].
  destruct l as [|y l]; [exact X|].
  change (String.concat s (x :: y :: l)) with (x ++ s ++ String.concat s (y :: l)).
  rewrite !free_app, X, S, IH. reflexivity.
Qed.

Definition header_line (ms : list string) : string :=
  "dims output_samples " ++ String.concat " " ms ++
  " NESS method target_d accept_rate proposal_samples proposal_evals target_evals".

Definition row_line (r : row) : string :=
  fmt_d 2 (r_dims r) ++ " " ++ fmt_d 4 (r_count r) ++ " " ++
  String.concat " " (map (fun kv => fmt_f 9 5 (snd kv)) (r_results r)) ++
  fmt_f 9 3 (r_ness r) ++ " " ++ r_method r ++ " " ++ r_target r ++ " " ++
  fmt_f 5 3 (r_acc r) ++ " " ++ fmt_d 0 (r_qs r) ++ " " ++ fmt_d 0 (r_qe r) ++ " " ++ fmt_d 0 (r_pi r).

Lemma header_split : forall ms, header ms = header_line ms ++ nl.
Proof. intros. unfold header, header_line. rewrite !app_assoc_s. reflexivity. Qed.
Lemma render_split : forall r, render r = row_line r ++ nl.
Proof. intros. unfold render, row_line. rewrite !app_assoc_s. reflexivity. Qed.

Lemma header_fields : forall ms, Forall word ms ->
  tokens is_space (header_line ms) =
  (["dims"; "output_samples"] ++ ms ++
   ["NESS"; "method"; "target_d"; "accept_rate"; "proposal_samples"; "proposal_evals"; "target_evals"])%list.
Proof.
  intros ms F. unfold header_line.
  change ("dims output_samples " ++ ?x) with ("dims" ++ " " ++ "output_samples" ++ " " ++ x).
  rewrite !tok_sp. change (tokens is_space "dims") with ["dims"].
  change (tokens is_space "output_samples") with ["output_samples"].
  change (" NESS method target_d accept_rate proposal_samples proposal_evals target_evals")
    with (" " ++ "NESS method target_d accept_rate proposal_samples proposal_evals target_evals").
  rewrite tok_sp.
  assert (E : tokens is_space (String.concat " " ms) = ms).
  { clear -F. induction F as [|x l X F IH]; [reflexivity|].
    destruct l as [|y l]; [simpl; now apply tok_word|].
    change (String.concat " " (x :: y :: l)) with (x ++ " " ++ String.concat " " (y :: l)).
    rewrite tok_sp, IH, tok_word by assumption. reflexivity. }
  rewrite E. reflexivity.
Qed.

(** The fields of a result line, as text. *)
Definition row_fields (r : row) : list string :=
  ([fmt_d 2 (r_dims r); fmt_d 4 (r_count r)] ++ map (fun kv => fixed 5 (snd kv)) (r_results r) ++
   [fixed 3 (r_ness r); r_method r; r_target r; fixed 3 (r_acc r);
    fmt_d 0 (r_qs r); fmt_d 0 (r_qe r); fmt_d 0 (r_pi r)])%list.

Lemma row_fields_ok : forall r, word (r_method r) -> word (r_target r) ->
  (String.length (fixed 3 (r_ness r)) < 9)%nat ->
  tokens is_space (row_line r) = row_fields r.
Proof.
  intros r M T L. unfold row_line, row_fields. rewrite !tok_sp.
  rewrite (tok_word (fmt_d 2 _)) by apply word_fmt_d. rewrite (tok_word (fmt_d 4 _)) by apply word_fmt_d.
  set (C := String.concat " " (map (fun kv => fmt_f 9 5 (snd kv)) (r_results r))).
  set (rest := " " ++ r_method r ++ _).
  assert (E : tokens is_space (C ++ fmt_f 9 3 (r_ness r) ++ rest) =
              (tokens is_space C ++ [fixed 3 (r_ness r)] ++ tokens is_space rest)%list).
  { unfold fmt_f at 1, padl. destruct (9 - String.length (fixed 3 (r_ness r)))%nat as [|k] eqn:K; [lia|].
    cbn [rep_char append]. rewrite tokens_sep by reflexivity. f_equal.
    rewrite app_assoc_s. rewrite tokens_rep by reflexivity.
    unfold rest. rewrite tok_sp, tok_word by apply word_fixed. reflexivity. }
  rewrite E. unfold C. rewrite (tok_concat _ _ (fun kv => fixed 5 (snd kv))) by (intros; apply tok_fmt_f).
  unfold rest. change (" " ++ ?x) with ("" ++ " " ++ x) at 1. rewrite !tok_sp, tokens_nil, !tok_fmt_f.
  rewrite !(tok_word (fmt_d 0 _)) by apply word_fmt_d. rewrite (tok_word (r_method r)), (tok_word (r_target r)) by assumption.
  reflexivity.
Qed.

Lemma fmt_f_free_newline : forall w p v, free is_newline (fmt_f w p v) = true.
Proof. intros. unfold fmt_f, padl. rewrite free_app, free_rep by reflexivity. apply fixed_free_newline. Qed.

Lemma row_line_newline : forall r, word (r_method r) -> word (r_target r) -> free is_newline (row_line r) = true.
Proof.
  intros r (_ & _ & M) (_ & _ & T). unfold row_line. rewrite !free_app, M, T, !fmt_f_free_newline.
  rewrite !fmt_d_free; try reflexivity; try exact nd_newline.
  rewrite free_concat; [reflexivity | reflexivity |].
  apply Forall_forall. intros x I. apply in_map_iff in I. destruct I as (kv & <- & _). apply fmt_f_free_newline.
Qed.

Lemma row_line_nonempty : forall r, row_line r <> "".
Proof.
  intros r E. unfold row_line in E. destruct (fmt_d 2 (r_dims r)) eqn:D; [exact (fmt_d_nonempty _ _ D)|discriminate].
Qed.

Lemma lines_of : forall rows, Forall (fun r => word (r_method r) /\ word (r_target r)) rows ->
  tokens is_newline (String.concat "" (map render rows)) = map row_line rows.
Proof.
  intros rows F. induction F as [|r rows [M T] F IH]; [reflexivity|].
  assert (E : String.concat "" (map render (r :: rows)) = row_line r ++ nl ++ String.concat "" (map render rows)).
  { cbn [map]. rewrite <- app_assoc_s, <- render_split. destruct rows; [now rewrite app_nil_s | reflexivity]. }
  rewrite E. change (nl ++ ?x) with (String "010" x).
  rewrite tokens_sep by reflexivity.
  rewrite IH, tokens_free; [reflexivity | apply row_line_nonempty | now apply row_line_newline].
Qed.

Theorem file_table : forall ms rows,
  Forall word ms ->
  Forall (fun r => word (r_method r) /\ word (r_target r) /\ (String.length (fixed 3 (r_ness r)) < 9)%nat) rows ->
  table (file_text ms rows) =
  (["dims"; "output_samples"] ++ ms ++
   ["NESS"; "method"; "target_d"; "accept_rate"; "proposal_samples"; "proposal_evals"; "target_evals"])%list
  :: map row_fields rows.
Proof.
  intros ms rows H R. unfold table, file_text.
  rewrite header_split, app_assoc_s. change (nl ++ ?x) with (String "010" x).
  rewrite tokens_sep by reflexivity.
  rewrite lines_of by (eapply Forall_impl; [|exact R]; intros r (A & B & _); now split).
  rewrite tokens_free; [| discriminate |].
  - cbn [app map]. rewrite header_fields by assumption. f_equal. rewrite map_map. apply map_ext_in.
    intros r I. rewrite Forall_forall in R. destruct (R r I) as (A & B & C). now apply row_fields_ok.
  - unfold header_line. rewrite !free_app. rewrite free_concat; [reflexivity | reflexivity |].
    eapply Forall_impl; [|exact H]. intros a (_ & _ & A). exact A.
Qed.
