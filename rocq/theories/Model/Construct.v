(** Model of the constructors of the sampling methods as readers of the dictionary of parameters: base.py:12-27, 136-139, 227-229,
    rejection.py:11-15, metropolis_hastings.py:39-52, nested.py:11-24, multi_nested.py:80-95, dm_ais.py:22-29, layered_ais.py:25-36,
    m_pmc.py:25-33, tree_pyramid.py:304-326, hi_daisee.py:172-185. *)
From Coq Require Import String.
From Coq Require Import List Bool Arith QArith.
Import ListNotations.
From Verif Require Import Prelude.Py Prelude.QBase.
Open Scope string_scope.

(** Values of parameters: None, a number, a string, an array with this number of entries, a text that is evaluated (with the exception
    that its evaluation raises, if any), any other object. Simplified: the type of a value is checked only where it decides about an
    assertion, an evaluation or a division; arrays have one axis. *)
Inductive pv := VNone | VNum (q : Q) | VStr (s : string) | VArr (n : nat) | VCode (err : option exn) | VObj.
Definition pdict : Type := list (string * pv).
Fixpoint get (k : string) (d : pdict) : option pv := match d with [] => None | (k', v) :: r => if String.eqb k k' then Some v else get k r end.
Fixpoint put (k : string) (v : pv) (d : pdict) : pdict :=
  match d with [] => [(k, v)] | (k', v') :: r => if String.eqb k k' then (k, v) :: r else (k', v') :: put k v r end.

(** What a constructor does with the dictionary. *)
Inductive act :=
| Read (k : string)                               (* params[k] *)
| Write (k : string) (v : pv)                     (* params[k] = v *)
| Test (k : string) (f : pv -> option exn)        (* params[k] and a check of the value *)
| Box                                             (* base.py:18-19 *)
| ReadUnless (k1 k2 : string).                    (* metropolis_hastings.py:41-47 *)

Definition act_error (a : act) (d : pdict) : option exn :=
  match a with
  | Read k => match get k d with Some _ => None | None => Some KeyError end
  | Write _ _ => None
  | Test k f => match get k d with Some v => f v | None => Some KeyError end
  | Box =>
      match get "space_max" d, get "space_min" d, get "dims" d with
      | Some (VArr a), Some (VArr b), Some (VNum n) => if (a =? b)%nat && Qeq_bool n (Qnat a) then None else Some AssertionError
      | Some (VArr a), Some (VArr b), Some _ => Some AssertionError
      | Some _, Some _, Some _ => Some AttributeError
      | _, _, _ => Some KeyError
      end
  | ReadUnless k1 k2 =>
      match get k1 d with
      | Some VNone | None => match get k2 d with Some _ => None | None => Some KeyError end
      | Some _ => None
      end
  end.
Definition act_dict (a : act) (d : pdict) : pdict := match a with Write k v => put k v d | _ => d end.
Fixpoint acts_run (l : list act) (d : pdict) : outcome pdict :=
  match l with
  | [] => Done d
  | a :: r => match act_error a d with Some e => Failed e d | None => acts_run r (act_dict a d) end
  end.

(** base.py:12-19, 136-139 (CMixtureSamplingMethod); base.py:227-229 (CMixtureISSamplingMethod). *)
Definition mixture_init : list act := [Read "space_min"; Read "space_max"; Read "dims"; Box; Read "n_samples_kde"].
Definition is_init : list act := Write "n_samples_kde" VNone :: mixture_init.

(** eval(params["proposal"]): a text (rejection.py:13, nested.py:15, multi_nested.py:82). *)
Definition evaluated_text (v : pv) : option exn := match v with VCode e => e | VStr _ => Some NameError | _ => Some TypeError end.
(** dm_ais.py:42-45, layered_ais.py:50-53, m_pmc.py:47: 1 / N. *)
Definition divisor (v : pv) : option exn :=
  match v with VNum q => if Qeq_bool q 0 then Some ZeroDivisionError else None | _ => Some TypeError end.
(** tree_pyramid.py:307, 313, 316. *)
Definition one_of (l : list string) (v : pv) : option exn :=
  match v with VStr s => if existsb (String.eqb s) l then None else Some AssertionError | _ => Some AssertionError end.
(** hi_daisee.py:174, 178, 181. *)
Definition asserted (c : Q -> bool) (v : pv) : option exn :=
  match v with VNum q => if c q then None else Some AssertionError | _ => Some TypeError end.

Inductive kind := Rejection | Metropolis | NestedS | MultiNested | DmAis | LayeredAis | Mpmc | TreePyramid | HiDaisee.

Definition script (k : kind) : list act :=
  match k with
  | Rejection => mixture_init ++ [Test "proposal" evaluated_text; Read "scaling"; Read "kde_bw"]
  | Metropolis => Write "name" (VStr "MCMC-MH") :: mixture_init ++ [ReadUnless "proposal_d" "proposal_sigma"; Read "n_steps"; Read "n_burnin"; Read "kde_bw"]
  | NestedS => mixture_init ++ [Test "proposal" evaluated_text; Read "N"; Read "kde_bw"]
  | MultiNested => mixture_init ++ [Test "proposal" evaluated_text; Read "N"; Read "kde_bw"; Read "converged_radius"; Read "inflate_factor"]
  | DmAis => is_init ++ [Read "K"; Read "N"; Read "J"; Read "sigma"; Test "N" divisor]
  | LayeredAis => is_init ++ [Read "K"; Read "N"; Read "J"; Read "L"; Read "sigma"; Read "mh_sigma"; Test "N" divisor]
  | Mpmc => is_init ++ [Read "K"; Read "N"; Read "J"; Read "sigma"; Test "N" divisor]
  | TreePyramid => Write "name" (VStr "TP_AIS") :: is_init ++
      [Test "method" (one_of ["simple"; "dm"; "mixture"]); Read "ess_target"; Read "n_min"; Test "resampling" (one_of ["leaf"; "none"]);
       Test "kernel" (one_of ["normal"; "haar"]); Read "parallel_samples"]
  | HiDaisee => is_init ++ [Test "tau" (asserted (fun q => Qltb 0 q)); Test "n_min" (asserted (fun q => Qltb 0 q));
       Test "target_ess" (asserted (fun q => Qltb 0 q && Qltb q 1))]
  end.
(** Calling the constructor: the dictionary of the caller afterwards. *)
Definition construct (k : kind) (d : pdict) : outcome pdict := acts_run (script k) d.

(** CBenchmark.py:58-76: the dictionary that load_methods builds for a box with n dimensions from the params of an entry. *)
Definition entry_dict (n : nat) (params : pdict) : pdict :=
  ("space_min", VArr n) :: ("space_max", VArr n) :: ("dims", VNum (Qnat n)) :: params.
(** def_methods.yaml:3-78: the entries, in order. The proposal texts build distributions (C112 for the rejection entry). *)
Definition shipped_entries : list (kind * pdict) :=
  [(Mpmc, [("K", VNum 50); ("N", VNum 10); ("J", VNum 1000); ("sigma", VNum (1 # 100))]);
   (Rejection, [("scaling", VNum 1); ("proposal", VCode None); ("kde_bw", VNum (1 # 100)); ("n_samples_kde", VNum 100)]);
   (HiDaisee, [("target_ess", VNum (9 # 10)); ("n_min", VNum 10); ("tau", VNum (1 # 100))]);
   (TreePyramid, [("method", VStr "simple"); ("resampling", VStr "leaf"); ("kernel", VStr "haar"); ("ess_target", VNum (90 # 100)); ("n_min", VNum 5); ("parallel_samples", VNum 32)]);
   (Metropolis, [("n_burnin", VNum 10); ("n_steps", VNum 1); ("proposal_sigma", VNum (1 # 2)); ("kde_bw", VNum (2 # 100)); ("n_samples_kde", VNum 100)]);
   (LayeredAis, [("K", VNum 3); ("N", VNum 5); ("J", VNum 1000); ("L", VNum 10); ("sigma", VNum (1 # 2)); ("mh_sigma", VNum (1 # 2))]);
   (DmAis, [("K", VNum 10); ("N", VNum 5); ("J", VNum 1000); ("sigma", VNum (1 # 2))]);
   (MultiNested, [("proposal", VCode None); ("N", VNum 20); ("converged_radius", VNum (1 # 100)); ("kde_bw", VNum (1 # 10)); ("n_samples_kde", VNum 100); ("inflate_factor", VNum (11 # 10))])].
(** README.md:133-139: the entry mcmc_mh of the example. *)
Definition readme_metropolis : pdict := [("n_burnin", VNum 10); ("n_steps", VNum 2); ("kde_bw", VNum (1 # 100)); ("proposal_sigma", VNum (1 # 10))].
(** visualization/manim/draw_mcmc_mh.py:57-65 and draw_tpais.py:53-60: the dictionaries of the animations. *)
Definition animation_metropolis : pdict :=
  [("space_min", VArr 1); ("space_max", VArr 1); ("dims", VNum 1); ("n_steps", VNum 1); ("n_burnin", VNum 0); ("proposal_sigma", VNum (1 # 10)); ("proposal_d", VNone); ("kde_bw", VNum (1 # 100))].
Definition animation_tree : pdict :=
  [("space_min", VArr 1); ("space_max", VArr 1); ("dims", VNum 1); ("kde_bw", VNum (1 # 100)); ("method", VStr "simple"); ("resampling", VStr "none"); ("kernel", VStr "haar")].
