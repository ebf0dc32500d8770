(** Model of internal/ceres/parallel_for.h, parallel_invoke.h and
    parallel_invoke.cc: an interleaving semantics of one ParallelInvoke call. *)
Require Import ZArith List Lia Bool.
Import ListNotations.
Open Scope Z_scope.

(** The integers a, a+1, ..., b-1. *)
Definition zrange (a b : Z) : list Z := map (fun k => a + Z.of_nat k) (seq 0 (Z.to_nat (b - a))).

(** InvokeOnSegment, parallel_invoke.h:61-75: the indices the user function is
    called with.  For a function taking a whole range the single call with
    (a, b) is represented by the indices it covers. *)
Definition segment (a b : Z) : list Z := zrange a b.

(** The lambda of the partitioned ParallelFor, parallel_for.h:121-135: block
    [a, b) of partitions covers [partitions[a], partitions[b]). *)
Definition part_segment (partitions : list Z) (a b : Z) : list Z :=
  segment (nth (Z.to_nat a) partitions 0) (nth (Z.to_nat b) partitions 0).

(** Constants of one call, parallel_invoke.h:185-198 and the constructor
    ParallelInvokeState, parallel_invoke.cc:66-77.  [cfg_seg a b]: what the
    user function is called with for the block [a, b).  int overflow is not
    modelled. *)
Record cfg := mkCfg { c_start : Z; c_end : Z; c_threads : Z; c_min : Z; c_seg : Z -> Z -> list Z }.
Definition num_blocks (c : cfg) : Z := Z.min ((c_end c - c_start c) / c_min c) (c_threads c * 4).
Definition base_size (c : cfg) : Z := (c_end c - c_start c) / num_blocks c.
Definition num_p1 (c : cfg) : Z := (c_end c - c_start c) mod num_blocks c.
(** curr_start / curr_end, parallel_invoke.h:252-259. *)
Definition curr_start (c : cfg) (k : Z) : Z := c_start c + k * base_size c + Z.min k (num_p1 c).
Definition curr_end (c : cfg) (k : Z) : Z := curr_start c k + base_size c + (if k <? num_p1 c then 1 else 0).

(** Where a thread executing the task lambda (parallel_invoke.h:207-265) is.
    [jobs] is num_jobs_finished. *)
Inductive pc :=
  | PFetchId                              (* before thread_id.fetch_add(1), line 209 *)
  | PTest (tid : Z)                       (* before reading block_id, lines 219-220 *)
  | PAdd (tid : Z)                        (* before AddTask, line 227 *)
  | PFetchBlock (tid jobs : Z)            (* before block_id.fetch_add(1), line 237 *)
  | PRun (tid jobs : Z) (todo : list Z)   (* in InvokeOnSegment, line 262, [todo] still to do; the head is being executed *)
  | PFinish (tid jobs : Z)                (* before Finished(jobs), line 264 *)
  | PDone (tid : Z).

(** The calling thread: still in task(task), before testing the predicate in
    Block() (parallel_invoke.cc:60-64), asleep on the condition variable,
    returned from ParallelInvoke. *)
Inductive caller := CTask | CTest | CSleep | CReturned.

(** Shared state.  Thread 0 is the calling thread, the others are pool workers
    that took a task of this call.  [qd]: tasks of this call in the pool's
    queue.  [trace]: finished calls (thread id, index), oldest first.
    [check_failed]: CHECK_LE of parallel_invoke.cc:54 fired. *)
Record st := mkSt {
  thr : list pc; qd : nat; nid : Z; nblk : Z; fin : Z; cal : caller;
  trace : list (Z * Z); check_failed : bool }.

Definition init : st := mkSt [PFetchId] 0 0 0 0 CTask [] false.

Definition set_thr (s : st) t p :=
  let fix upd l n := match l, n with
    | [], _ => [] | _ :: l', O => p :: l' | x :: l', S n' => x :: upd l' n' end in
  mkSt (upd (thr s) t) (qd s) (nid s) (nblk s) (fin s) (cal s) (trace s) (check_failed s).
Definition set_qd s x := mkSt (thr s) x (nid s) (nblk s) (fin s) (cal s) (trace s) (check_failed s).
Definition set_nid s x := mkSt (thr s) (qd s) x (nblk s) (fin s) (cal s) (trace s) (check_failed s).
Definition set_nblk s x := mkSt (thr s) (qd s) (nid s) x (fin s) (cal s) (trace s) (check_failed s).
Definition set_cal s x := mkSt (thr s) (qd s) (nid s) (nblk s) (fin s) x (trace s) (check_failed s).
Definition add_trace s x := mkSt (thr s) (qd s) (nid s) (nblk s) (fin s) (cal s) (trace s ++ [x]) (check_failed s).

(** BlockUntilFinished::Finished, parallel_invoke.cc:50-58 (one critical
    section): add, CHECK_LE, notify_one when complete. *)
Definition finished (c : cfg) (jobs : Z) (s : st) : st :=
  if jobs =? 0 then s
  else
    let f := fin s + jobs in
    mkSt (thr s) (qd s) (nid s) (nblk s) f
         (if f =? num_blocks c then match cal s with CSleep => CTest | x => x end else cal s)
         (trace s) (check_failed s || negb (f <=? num_blocks c)).

(** One atomic step of thread [t] in the task lambda. *)
Definition thread_step (c : cfg) (t : nat) (s : st) : option st :=
  match nth_error (thr s) t with
  | None => None
  | Some PFetchId =>
      let tid := nid s in
      Some (set_thr (set_nid s (tid + 1)) t (if tid >=? c_threads c then PDone tid else PTest tid))
  | Some (PTest tid) =>
      Some (set_thr s t (if (tid + 1 <? c_threads c) && (nblk s <? num_blocks c) then PAdd tid else PFetchBlock tid 0))
  | Some (PAdd tid) => Some (set_thr (set_qd s (S (qd s))) t (PFetchBlock tid 0))
  | Some (PFetchBlock tid jobs) =>
      let b := nblk s in
      Some (set_thr (set_nblk s (b + 1)) t
             (if b >=? num_blocks c then PFinish tid jobs
              else PRun tid (jobs + 1) (c_seg c (curr_start c b) (curr_end c b))))
  | Some (PRun tid jobs []) => Some (set_thr s t (PFetchBlock tid jobs))
  | Some (PRun tid jobs (i :: todo)) => Some (set_thr (add_trace s (tid, i)) t (PRun tid jobs todo))
  | Some (PFinish tid jobs) => Some (set_thr (finished c jobs s) t (PDone tid))
  | Some (PDone _) => None
  end.

(** A pool worker takes a queued task of this call. *)
Definition start_step (s : st) : option st :=
  match qd s with
  | O => None
  | S n => Some (mkSt (thr s ++ [PFetchId]) n (nid s) (nblk s) (fin s) (cal s) (trace s) (check_failed s))
  end.

(** The calling thread outside the task: enter Block(), test the predicate
    (atomically going to sleep when it is false). *)
Definition caller_step (c : cfg) (s : st) : option st :=
  match cal s with
  | CTask => match nth_error (thr s) 0 with Some (PDone _) => Some (set_cal s CTest) | _ => None end
  | CTest => Some (set_cal s (if fin s =? num_blocks c then CReturned else CSleep))
  | _ => None
  end.

(** Spurious wake-up of the condition variable. *)
Definition spurious_step (s : st) : option st :=
  match cal s with CSleep => Some (set_cal s CTest) | _ => None end.

Inductive act := AThread (t : nat) | AStart | ACaller | ASpurious.
Definition step (c : cfg) (a : act) (s : st) : option st :=
  match a with
  | AThread t => thread_step c t s
  | AStart => start_step s
  | ACaller => caller_step c s
  | ASpurious => spurious_step s
  end.

(** A schedule: any sequence of enabled steps. *)
Fixpoint exec (c : cfg) (acts : list act) (s : st) : option st :=
  match acts with
  | [] => Some s
  | a :: acts' => match step c a s with Some s' => exec c acts' s' | None => None end
  end.

(** The decision of ParallelFor, parallel_for.h:75-98. *)
Inductive plan := Fatal | Nothing | Serial (calls : list Z) | Parallel (c : cfg).
Definition parallel_for (start end_ threads min_block : Z) : plan :=
  if negb (0 <? threads) then Fatal
  else if start >=? end_ then Nothing
  else if (threads =? 1) || (end_ - start <? min_block * 2) then Serial (segment start end_)
  else Parallel (mkCfg start end_ threads min_block segment).

(** ParallelFor with a partition, parallel_for.h:105-136; [Serial] comes from
    the inner ParallelFor, with the lambda applied to the whole range. *)
Definition parallel_for_partitioned (start end_ threads : Z) (partitions : list Z) : plan :=
  if negb (0 <? threads) then Fatal
  else if start >=? end_ then Nothing
  else if negb ((hd 0 partitions =? start) && (last partitions 0 =? end_)) then Fatal
  else if (threads =? 1) || (end_ - start <=? threads) then parallel_for start end_ threads 1
  else if negb (1 <? Z.of_nat (length partitions)) then Fatal
  else
    let n := Z.of_nat (length partitions) - 1 in
    if (threads =? 1) || (n - 0 <? 1 * 2) then Serial (part_segment partitions 0 n)
    else Parallel (mkCfg 0 n threads 1 (part_segment partitions)).
