(** Acceptance threshold of Metropolis-Hastings over the reals. *)
From Coq Require Import Reals Lra Bool.
From Verif Require Import Prelude.Py Prelude.RBase Model.MHLaw Spec.MHLawSpec.
Open Scope R_scope.

Lemma Rltb_iff x y : Rltb x y = true <-> x < y.
Proof. unfold Rltb. destruct (Rlt_dec x y); split; intros; try easy. Qed.

Lemma below_min u a : u < 1 -> (u < Rmin 1 a <-> u < a).
Proof. intros H. unfold Rmin. destruct (Rle_dec 1 a); lra. Qed.

Lemma fln_pos x : 0 < x -> fln (Fin x) = Fin (ln x).
Proof. intros H. simpl. unfold Rltb. destruct (Rlt_dec 0 x); [reflexivity|lra]. Qed.
Lemma fln_zero : fln (Fin 0) = NInf.
Proof. simpl. unfold Rltb, Reqb. destruct (Rlt_dec 0 0); [lra|]. destruct (Req_EM_T 0 0); [reflexivity|lra]. Qed.

Lemma acceptance_rule pn po qb qt u : 0 <= pn -> 0 < po -> 0 <= qb -> 0 < qt -> 0 < u < 1 ->
  (mh_accepted (mh_alpha pn po qb qt) u = true <-> u < accept_prob pn po qb qt).
Proof.
  intros H1 H2 H3 H4 H5. unfold accept_prob. rewrite below_min by lra. unfold mh_alpha.
  assert (D : 0 < po * qt) by nra.
  rewrite (fln_pos po), (fln_pos qt) by auto.
  destruct (Req_dec pn 0) as [->|N1].
  - rewrite fln_zero. unfold Rdiv. rewrite !Rmult_0_l.
    destruct (Req_dec qb 0) as [->|N2]; [rewrite fln_zero|rewrite fln_pos by lra]; simpl; split; intros; try easy; lra.
  - rewrite (fln_pos pn) by lra. destruct (Req_dec qb 0) as [->|N2].
    + rewrite fln_zero. unfold Rdiv. rewrite Rmult_0_r, Rmult_0_l. simpl. split; intros; try easy; lra.
    + rewrite (fln_pos qb) by lra. cbn [fsubR faddR foppR mh_accepted]. rewrite Rltb_iff.
      assert (P : 0 < pn * qb) by nra.
      replace (ln pn + - ln po + (ln qb + - ln qt)) with (ln (pn * qb / (po * qt))).
      * split; intros H.
        -- apply ln_lt_inv; try lra. apply Rdiv_lt_0_compat; auto.
        -- apply ln_increasing; lra.
      * unfold Rdiv. rewrite (ln_mult (pn * qb) (/ (po * qt))), (ln_mult pn qb), ln_Rinv, (ln_mult po qt);
          try lra; try (apply Rinv_0_lt_compat; lra).
Qed.

Lemma balance px py qxy qyx : 0 <= px -> 0 <= py -> 0 <= qxy -> 0 <= qyx ->
  px * qxy * accept_prob py px qyx qxy = py * qyx * accept_prob px py qxy qyx.
Proof.
  intros. unfold accept_prob. set (a := px * qxy). set (b := py * qyx).
  assert (0 <= a) by (unfold a; nra). assert (0 <= b) by (unfold b; nra). clearbody a b.
  destruct (Req_dec a 0) as [->|A].
  { unfold Rdiv. rewrite Rmult_0_l, Rmult_0_l. unfold Rmin. destruct (Rle_dec 1 0); lra. }
  destruct (Req_dec b 0) as [->|B].
  { unfold Rdiv. rewrite Rmult_0_l, Rmult_0_l. unfold Rmin. destruct (Rle_dec 1 0); lra. }
  unfold Rmin. destruct (Rle_dec 1 (b / a)) as [L|L], (Rle_dec 1 (a / b)) as [M|M].
  - assert (a <= b). { apply Rmult_le_compat_r with (r := a) in L; [|lra]. unfold Rdiv in L. rewrite Rmult_assoc, Rinv_l in L; lra. }
    assert (b <= a). { apply Rmult_le_compat_r with (r := b) in M; [|lra]. unfold Rdiv in M. rewrite Rmult_assoc, Rinv_l in M; lra. }
    lra.
  - field_simplify; lra.
  - field_simplify; lra.
  - exfalso. apply Rnot_le_lt in L, M.
    assert (b < a). { apply Rmult_lt_compat_r with (r := a) in L; [|lra]. unfold Rdiv in L. rewrite Rmult_assoc, Rinv_l in L; lra. }
    assert (a < b). { apply Rmult_lt_compat_r with (r := b) in M; [|lra]. unfold Rdiv in M. rewrite Rmult_assoc, Rinv_l in M; lra. }
    lra.
Qed.
