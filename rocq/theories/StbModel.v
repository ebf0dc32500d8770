(* Model for C83: cuda_streamed_buffer.h. *)
From Coq Require Import List Arith Bool.
From Verif Require Import GpuModel.
Import ListNotations.
Open Scope nat_scope.

(* where a transfer reads: the caller's array from o on, or the page-locked staging memory at a
   (values_cpu_pinned_) *)
Inductive Source : Type := User (o : nat) | Pinned (a : nat).
(* operations in a stream.  Copy: cudaMemcpyAsync to values_gpu_ + dst, of the elements in the list;
   Kernel: the kernel launched by the callback with (values_gpu_ + at, size, o, stream), which reads
   the elements in the list; Record: cudaEventRecord; Earlier: work put into the stream before the
   call *)
Inductive Op : Type := Earlier (k : nat) | Copy (dst : nat) (src : Source) (l : list nat) | Record (e : nat) | Kernel (at_ o : nat) (l : list nat).
(* what the host does: cudaStreamSynchronize, cudaEventSynchronize, values_cpu_pinned_[a] = from[p],
   asynchronous calls *)
Inductive Instr : Type := Sync (s : nat) | Wait (e : nat) | Put (a p : nat) | Enqueue (s : nat) (op : Op).

(* 70 *)
Definition kNumBatches : nat := 2.
(* 255-291: one iteration: batch b of the buffer, n values from o on *)
Definition Batch (pinned : bool) (per_batch b : nat) (batch : nat * nat) : list Instr :=
  let (o, n) := batch in
  let a := per_batch * b in
  (if pinned then Wait b :: map (fun i => Put (a + i) (o + i)) (seq 0 n) else []) ++
  Enqueue b (Copy a (if pinned then Pinned a else User o) (seq 0 n)) ::
  (if pinned then [Enqueue b (Record b)] else []) ++
  [Enqueue b (Kernel a o (seq 0 n))].
(* 253-292; the batches are those of GpuModel.v *)
Fixpoint Loop (pinned : bool) (per_batch b : nat) (l : list (nat * nat)) : list Instr :=
  match l with [] => [] | x :: l' => Batch pinned per_batch b x ++ Loop pinned per_batch ((b + 1) mod kNumBatches) l' end.
(* 76-97 and 225-297 CudaStreamedBuffer, CopyToGpu; None: CHECK_GE(max_buffer_size, kNumBatches)
   fails.  pinned: MemoryTypeResultsInSynchronousCopy(from).  Stream i is context_->streams_[i],
   stream 0 the default stream (context_impl.h 135) *)
Definition CopyToGpu (pinned : bool) (max_buffer_size n : nat) : option (list Instr) :=
  if kNumBatches <=? max_buffer_size then
    let per_batch := max_buffer_size / kNumBatches in
    Some (Sync 0 :: Loop pinned per_batch 0 (batches n per_batch 0 n) ++ map Sync (seq 0 kNumBatches))
  else None.

(* ---------------------------------------------------------- execution *)
(* what happens on the device: earlier work k ran, a kernel saw value v as the value with index p *)
Inductive Event (A : Type) : Type := Ran (k : nat) | Saw (p : nat) (v : A).
Arguments Ran {A}. Arguments Saw {A}.
(* recorded e, finished e: how often cudaEventRecord was called for event e, and how many of these the
   stream has reached; the newest event comes first in the log *)
Record State (A : Type) : Type := mkState {
  host : list Instr;
  queue : nat -> list Op;
  gpu : nat -> A;
  staging : nat -> A;
  recorded : nat -> nat;
  finished : nat -> nat;
  log : list (Event A) }.
Arguments mkState {A}. Arguments host {A}. Arguments queue {A}. Arguments gpu {A}. Arguments staging {A}. Arguments recorded {A}. Arguments finished {A}. Arguments log {A}.
Definition set {B} (f : nat -> B) (k : nat) (v : B) : nat -> B := fun i => if i =? k then v else f i.
Definition value {A} (from staging : nat -> A) (src : Source) (i : nat) : A := match src with User o => from (o + i) | Pinned a => staging (a + i) end.
Definition counted (op : Op) (recorded : nat -> nat) : nat -> nat := match op with Record e => set recorded e (S (recorded e)) | _ => recorded end.

(* one step of the host, or of the first operation of a stream; an operation with several elements
   treats them in any order *)
Inductive step {A} (from : nat -> A) : State A -> State A -> Prop :=
| host_sync s h q g m r f l : q s = [] -> step from (mkState (Sync s :: h) q g m r f l) (mkState h q g m r f l)
| host_wait e h q g m r f l : r e = f e -> step from (mkState (Wait e :: h) q g m r f l) (mkState h q g m r f l)
| host_put a p h q g m r f l : step from (mkState (Put a p :: h) q g m r f l) (mkState h q g (set m a (from p)) r f l)
| host_enqueue s op h q g m r f l : step from (mkState (Enqueue s op :: h) q g m r f l) (mkState h (set q s (q s ++ [op])) g m (counted op r) f l)
| dev_earlier s k ops h q g m r f l : q s = Earlier k :: ops -> step from (mkState h q g m r f l) (mkState h (set q s ops) g m r f (Ran k :: l))
| dev_copy s dst src l1 i l2 ops h q g m r f l : q s = Copy dst src (l1 ++ i :: l2) :: ops ->
    step from (mkState h q g m r f l) (mkState h (set q s (Copy dst src (l1 ++ l2) :: ops)) (set g (dst + i) (value from m src i)) m r f l)
| dev_copied s dst src ops h q g m r f l : q s = Copy dst src [] :: ops -> step from (mkState h q g m r f l) (mkState h (set q s ops) g m r f l)
| dev_record s e ops h q g m r f l : q s = Record e :: ops -> step from (mkState h q g m r f l) (mkState h (set q s ops) g m r (set f e (S (f e))) l)
| dev_kernel s a o l1 i l2 ops h q g m r f l : q s = Kernel a o (l1 ++ i :: l2) :: ops ->
    step from (mkState h q g m r f l) (mkState h (set q s (Kernel a o (l1 ++ l2) :: ops)) g m r f (Saw (o + i) (g (a + i)) :: l))
| dev_done s a o ops h q g m r f l : q s = Kernel a o [] :: ops -> step from (mkState h q g m r f l) (mkState h (set q s ops) g m r f l).
