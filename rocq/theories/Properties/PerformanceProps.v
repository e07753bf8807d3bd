(** Properties C23, C24 (time and memory metrics). *)
From Coq Require Import List QArith.
Import ListNotations.
From Verif Require Import Prelude.Py Prelude.QBase Model.Performance Spec.BracketSpec Proofs.PerformanceProofs.
Open Scope Q_scope.

(** C23. Whatever was measured before ([h], any calls in any order), after a reset and the brackets
    [ps], with the value read any number of times in between, the reported time is the sum of
    end - start - overhead. *)
Theorem C23_elapsed_total :
  forall m h ops ps, bracketed ops ps ->
  et_compute (et_run m (h ++ MReset :: ops)) == Qsum (map (fun ab => snd ab - fst ab - e_overhead m) ps).
Proof. exact elapsed_total. Qed.
Print Assumptions C23_elapsed_total.

(** C23. A new object reports zero; its overhead is the mean excess of the calibration brackets. *)
Theorem C23_elapsed_new :
  forall abs delta, abs <> [] ->
  et_compute (et_new abs delta) == 0 /\
  e_overhead (et_new abs delta) == Qsum (map (fun ab => snd ab - fst ab) abs) / Qnat (length abs) - delta.
Proof. exact elapsed_new. Qed.
Print Assumptions C23_elapsed_new.

Example C23_elapsed_example :
  bracketed [MCompute; MPre 3; MCompute; MPost 5; MPre 7; MPost 8; MCompute] [(3, 5); (7, 8)].
Proof. exact bracketed_example. Qed.

(** C24 (full statement: after reset the value does not depend on what was measured before) is false. *)
Theorem C24_memory_reset_refuted :
  exists h1 h2, ~ mem_compute (mem_run mem_new (h1 ++ [MReset])) == mem_compute (mem_run mem_new (h2 ++ [MReset])).
Proof. exact memory_reset_refuted. Qed.
Print Assumptions C24_memory_reset_refuted.

(** C24, what holds: once something has been measured after the reset, the value is the sum of the
    differences since the reset, in megabytes. *)
Theorem C24_memory_total_partial :
  forall m h ops ps, bracketed ops ps -> ps <> [] ->
  mem_compute (mem_run m (h ++ MReset :: ops)) == Qsum (map (fun ab => snd ab - fst ab) ps) / 1000000.
Proof. exact memory_total. Qed.
Print Assumptions C24_memory_total_partial.

Example C24_memory_example :
  bracketed [MCompute; MPre 3; MCompute; MPost 5; MPre 7; MPost 8; MCompute] [(3, 5); (7, 8)] /\
  [(3, 5); (7, 8)] <> [].
Proof. split; [exact bracketed_example|discriminate]. Qed.
