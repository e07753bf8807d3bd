(** Model of CNonBlockingStreamReader, ais_benchmarks/utils/misc.py:9-37, as a transition system:
    one background thread, one consumer thread, atomic queue operations. *)
From Coq Require Import List Bool Arith.
Import ListNotations.

Section Reader.
Variable line : Type.

(** Where the consumer is inside read_last_and_clear (misc.py:24-31): not inside; about to test
    [q.empty()] (26); about to [q.get()] (27); about to [q.put(val)] (30). *)
Inductive cpc :=
| CIdle
| CTest (keep : bool) (val : option line)
| CGet (keep : bool) (val : option line)
| CPut (val : line).

(** A value returned to the consumer: by read() ([None] is the empty string of line 37) or by
    read_last_and_clear ([None] is Python None). *)
Inductive ret :=
| RRead (v : option line)
| RLast (v : option line).

(** [src]: lines the stream has still to deliver (non-empty strings); [held]: the line the thread has
    read but not yet queued; [queue]; [pc]; [log]: what the consumer got, oldest first.
    [taken] is a ghost field: every line removed from the queue, oldest first. *)
Record rst := mkR {
  src : list line; held : option line; queue : list line; pc : cpc; log : list ret;
  taken : list line }.

(** misc.py:10-22: constructor, the thread has not run yet. *)
Definition reader_new (s : list line) : rst := mkR s None [] CIdle [] [].

(** misc.py:15-18: one atomic action of the thread: readline, or put. At the end of the stream
    readline returns the empty string and the loop spins. *)
Definition step_thread (r : rst) : rst :=
  match held r with
  | Some l => mkR (src r) None (queue r ++ [l]) (pc r) (log r) (taken r)
  | None => match src r with
            | [] => r
            | l :: s => mkR s (Some l) (queue r) (pc r) (log r) (taken r)
            end
  end.

(** misc.py:33-37 read(): one atomic get(block=False). *)
Definition step_read (r : rst) : rst :=
  match queue r with
  | [] => mkR (src r) (held r) [] (pc r) (log r ++ [RRead None]) (taken r)
  | l :: q => mkR (src r) (held r) q (pc r) (log r ++ [RRead (Some l)]) (taken r ++ [l])
  end.

(** misc.py:26-31: the next atomic action of read_last_and_clear. [None]: the consumer is blocked
    (get on an empty queue). *)
Definition step_last (r : rst) : option rst :=
  match pc r with
  | CIdle => Some r
  | CTest keep val =>
      match queue r with
      | _ :: _ => Some (mkR (src r) (held r) (queue r) (CGet keep val) (log r) (taken r))
      | [] => match val with
              | Some v => if keep then Some (mkR (src r) (held r) [] (CPut v) (log r) (taken r))
                          else Some (mkR (src r) (held r) [] CIdle (log r ++ [RLast val]) (taken r))
              | None => Some (mkR (src r) (held r) [] CIdle (log r ++ [RLast None]) (taken r))
              end
      end
  | CGet keep _ =>
      match queue r with
      | [] => None
      | l :: q => Some (mkR (src r) (held r) q (CTest keep (Some l)) (log r) (taken r ++ [l]))
      end
  | CPut v => Some (mkR (src r) (held r) (queue r ++ [v]) CIdle (log r ++ [RLast (Some v)]) (taken r))
  end.

(** One scheduling decision: the thread moves; the consumer calls read(); the consumer calls
    read_last_and_clear(keep); the consumer continues a read_last_and_clear in progress.
    Calls while another call is in progress, and continuing when none is, change nothing. *)
Inductive choice := ChThread | ChRead | ChLast (keep : bool) | ChGo.

Definition reader_step (c : choice) (r : rst) : option rst :=
  match c, pc r with
  | ChThread, _ => Some (step_thread r)
  | ChRead, CIdle => Some (step_read r)
  | ChLast keep, CIdle => Some (mkR (src r) (held r) (queue r) (CTest keep None) (log r) (taken r))
  | ChGo, _ => step_last r
  | _, _ => Some r
  end.

(** A whole schedule. *)
Fixpoint reader_run (cs : list choice) (r : rst) : option rst :=
  match cs with
  | [] => Some r
  | c :: t => match reader_step c r with Some r' => reader_run t r' | None => None end
  end.
End Reader.
Arguments CIdle {line}.
Arguments CTest {line}.
Arguments CGet {line}.
Arguments CPut {line}.
Arguments RRead {line}.
Arguments RLast {line}.
Arguments mkR {line}.
Arguments src {line}.
Arguments held {line}.
Arguments queue {line}.
Arguments pc {line}.
Arguments log {line}.
Arguments taken {line}.
Arguments reader_new {line}.
Arguments reader_step {line}.
Arguments reader_run {line}.
