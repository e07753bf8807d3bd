(** Law of the inner loop of Metropolis-Hastings. *)
From Coq Require Import List Bool Arith Lia QArith Lqa.
Import ListNotations.
From Verif Require Import Prelude.Py Prelude.QBase Prelude.QFacts Model.Base Model.MetropolisHastings Model.MHLaw.
Open Scope Q_scope.

Lemma Qsum_ext {A} (f g : A -> Q) l : (forall x, In x l -> f x == g x) -> Qsum (map f l) == Qsum (map g l).
Proof.
  induction l as [|x l IH]; intros H; simpl; [reflexivity|]. rewrite (H x) by now left. rewrite IH; [reflexivity|].
  intros. apply H. now right.
Qed.
Lemma Qsum_plus {A} (f g : A -> Q) l : Qsum (map (fun x => f x + g x) l) == Qsum (map f l) + Qsum (map g l).
Proof. induction l as [|x l IH]; simpl; [ring|]. rewrite IH. ring. Qed.
Lemma Qsum_factor {A} (f : A -> Q) c l : Qsum (map (fun x => f x * c) l) == Qsum (map f l) * c.
Proof. induction l as [|x l IH]; simpl; [ring|]. rewrite IH. ring. Qed.

Lemma tape_mean_ext om n : forall f g, (forall t, Forall (fun a => exists w, In (w, a) om) t -> f t == g t) ->
  tape_mean om n f == tape_mean om n g.
Proof.
  induction n as [|n IH]; intros f g H; simpl; [apply H; constructor|]. apply Qsum_ext. intros [w a] I. simpl.
  rewrite (IH (fun t => f (a :: t)) (fun t => g (a :: t))); [reflexivity|]. intros t F. apply H. constructor; eauto.
Qed.
Lemma tape_mean_const om n c : Qsum (map fst om) == 1 -> tape_mean om n (fun _ => c) == c.
Proof.
  intros H. induction n as [|n IH]; simpl; [reflexivity|].
  rewrite (Qsum_ext _ (fun wa => fst wa * c)).
  - rewrite Qsum_factor, H. ring.
  - intros. now rewrite IH.
Qed.

(** weight of the attempts that are accepted at a point of B *)
Definition hit (P : mh_params) (lp : vec -> fl Q) (x : vec) (om : list (Q * attempt)) (B : vec -> bool) : Q :=
  Qsum (map (fun wa => let y := mh_propose P x (snd wa) in
                       fst wa * (if mh_accept P lp x y (snd wa) && B y then 1 else 0)) om).

Lemma step_accepted P lp timeout x t el y s : mh_types s <> [] ->
  exists s', mh_step_loop P lp timeout x t true el y s = SDone y s'.
Proof.
  intros H. destruct t; simpl; unfold set_last; destruct (mh_types s); try congruence; eauto.
Qed.

Lemma step_prob_S P lp timeout om x B :
  Qsum (map fst om) == 1 -> (forall wa, In wa om -> at_clock (snd wa) < timeout) ->
  forall n el y s, el < timeout ->
  tape_mean om (S n) (fun t => returned_in B (mh_step_loop P lp timeout x t false el y s)) ==
  Qsum (map (fun wa => let y := mh_propose P x (snd wa) in
     fst wa * (if mh_accept P lp x y (snd wa) then (if B y then 1 else 0)
               else tape_mean om n (fun t => returned_in B (mh_step_loop P lp timeout x t false (at_clock (snd wa)) y (mh_record y s))))) om).
Proof.
  intros W C n el y s E. cbn [tape_mean]. apply Qsum_ext. intros [w a] I. cbn [fst snd]. cbv zeta.
  assert (EQ : Qltb el timeout = true) by now apply Qltb_true.
  destruct (mh_accept P lp x (mh_propose P x a) a) eqn:A.
  - rewrite (tape_mean_ext om n _ (fun _ => if B (mh_propose P x a) then 1 else 0)).
    + now rewrite tape_mean_const.
    + intros t _. cbn [mh_step_loop]. rewrite EQ, A. cbn [negb andb].
      destruct (step_accepted P lp timeout x t (at_clock a) (mh_propose P x a) (mh_record (mh_propose P x a) s)) as (s' & ->); [|reflexivity].
      simpl. intros H. apply app_eq_nil in H. destruct H; discriminate.
  - rewrite (tape_mean_ext om n _ (fun t => returned_in B (mh_step_loop P lp timeout x t false (at_clock a) (mh_propose P x a) (mh_record (mh_propose P x a) s)))).
    + reflexivity.
    + intros t _. cbn [mh_step_loop]. rewrite EQ, A. reflexivity.
Qed.

Lemma loop_law P lp timeout om x B :
  Qsum (map fst om) == 1 -> (forall wa, In wa om -> at_clock (snd wa) < timeout) ->
  forall n el y s, el < timeout ->
  tape_mean om n (fun t => returned_in B (mh_step_loop P lp timeout x t false el y s)) * hit P lp x om (fun _ => true)
  == hit P lp x om B * (1 - Qpow (1 - hit P lp x om (fun _ => true)) n).
Proof.
  intros W C. set (sa := hit P lp x om (fun _ => true)). induction n as [|n IH]; intros el y s E.
  - simpl. assert (EQ : Qltb el timeout = true) by now apply Qltb_true. rewrite EQ. simpl. ring.
  - rewrite step_prob_S by auto. rewrite <- Qsum_factor.
    set (g := hit P lp x om B * (1 - Qpow (1 - sa) n)).
    rewrite (Qsum_ext _ (fun wa => (let y := mh_propose P x (snd wa) in fst wa * (if mh_accept P lp x y (snd wa) && B y then 1 else 0)) * sa
        + ((fst wa + (let y := mh_propose P x (snd wa) in fst wa * (if mh_accept P lp x y (snd wa) && true then 1 else 0)) * - (1))) * g)).
    + rewrite Qsum_plus, !Qsum_factor, Qsum_plus, Qsum_factor.
      match goal with |- ?h1 * sa + (_ + ?h2 * _) * g == _ => change h1 with (hit P lp x om B); change h2 with sa end.
      rewrite W. unfold g. cbn [Qpow]. ring.
    + intros [w a] I. cbn [fst snd]. cbv zeta. rewrite andb_true_r. destruct (mh_accept P lp x (mh_propose P x a) a) eqn:A.
      * simpl. destruct (B (mh_propose P x a)); ring.
      * simpl. rewrite <- Qmult_assoc. rewrite IH by (apply (C (w, a)); auto). fold g. ring.
Qed.

Lemma step_law P lp timeout om x s B n :
  Qsum (map fst om) == 1 -> 0 < timeout -> (forall wa, In wa om -> at_clock (snd wa) < timeout) ->
  step_prob P lp timeout om n x s B * hit P lp x om (fun _ => true)
  == hit P lp x om B * (1 - Qpow (1 - hit P lp x om (fun _ => true)) n).
Proof. intros W T C. apply loop_law; auto. Qed.

(** Witness: uniform target on the points 0, 1, 2; displacement -1 or +1 with probability 1/2 each. *)
Definition wlp (x : vec) : fl Q :=
  match x with
  | [a] => if Qeq_bool a 0 || Qeq_bool a 1 || Qeq_bool a 2 then Fin 0 else NInf
  | _ => NInf
  end.
Definition wP : mh_params := mkMH [-(10)] [10] 1 0 1 (fun _ => Fin 0).
Definition wom : list (Q * attempt) := [(1 # 2, mkAttempt [1] (Fin (-(1))) 0); (1 # 2, mkAttempt [-(1)] (Fin (-(1))) 0)].
Definition at_point (a : Q) (x : vec) : bool := match x with [b] => Qeq_bool a b | _ => false end.

Lemma Qpow_proper a b n : a == b -> Qpow a n == Qpow b n.
Proof. intros E. induction n; cbn [Qpow]; [reflexivity|]. now apply Qmult_comp. Qed.
Lemma Qpow_half_le n : (2 <= n)%nat -> Qpow (1 # 2) n <= 1 # 4.
Proof.
  intros H. induction H as [|n H IH]; [vm_compute; discriminate|]. cbn [Qpow].
  assert (0 <= Qpow (1#2) n). { clear. induction n; cbn [Qpow]; lra. } lra.
Qed.

Lemma wstep n s : (2 <= n)%nat ->
  1 # 2 <= (1 # 3) * step_prob wP wlp 1 wom n [0] s (at_point 1)
         + (1 # 3) * step_prob wP wlp 1 wom n [1] s (at_point 1)
         + (1 # 3) * step_prob wP wlp 1 wom n [2] s (at_point 1).
Proof.
  intros H. assert (W : Qsum (map fst wom) == 1) by reflexivity. assert (T : 0 < 1) by lra.
  assert (C : forall wa, In wa wom -> at_clock (snd wa) < 1) by (intros wa [<-|[<-|[]]]; simpl; lra).
  pose proof (step_law wP wlp 1 wom [0] s (at_point 1) n W T C) as E0.
  pose proof (step_law wP wlp 1 wom [1] s (at_point 1) n W T C) as E1.
  pose proof (step_law wP wlp 1 wom [2] s (at_point 1) n W T C) as E2.
  set (p0 := step_prob wP wlp 1 wom n [0] s (at_point 1)) in *.
  set (p1 := step_prob wP wlp 1 wom n [1] s (at_point 1)) in *.
  set (p2 := step_prob wP wlp 1 wom n [2] s (at_point 1)) in *. clearbody p0 p1 p2.
  assert (h0 : hit wP wlp [0] wom (fun _ => true) == 1 # 2) by (vm_compute; reflexivity).
  assert (h1 : hit wP wlp [1] wom (fun _ => true) == 1) by (vm_compute; reflexivity).
  assert (h2 : hit wP wlp [2] wom (fun _ => true) == 1 # 2) by (vm_compute; reflexivity).
  assert (g0 : hit wP wlp [0] wom (at_point 1) == 1 # 2) by (vm_compute; reflexivity).
  assert (g1 : hit wP wlp [1] wom (at_point 1) == 0) by (vm_compute; reflexivity).
  assert (g2 : hit wP wlp [2] wom (at_point 1) == 1 # 2) by (vm_compute; reflexivity).
  rewrite (Qpow_proper _ (1#2)) in E0 by (rewrite h0; reflexivity).
  rewrite (Qpow_proper _ (1#2)) in E2 by (rewrite h2; reflexivity).
  rewrite h0, g0 in E0. rewrite (Qpow_proper _ 0) in E1 by (rewrite h1; reflexivity). rewrite h1, g1 in E1. rewrite h2, g2 in E2.
  pose proof (Qpow_half_le n H). lra.
Qed.
